{
 "claims": [
  {
   "property": "C01",
   "status": "proved",
   "theorems": [
    "C01_elo_update"
   ],
   "note": ""
  },
  {
   "property": "C02",
   "status": "proved",
   "theorems": [
    "C02_elo_zero_sum"
   ],
   "note": ""
  },
  {
   "property": "C03",
   "status": "proved",
   "theorems": [
    "C03_elo_expected"
   ],
   "note": ""
  },
  {
   "property": "C04",
   "status": "proved",
   "theorems": [
    "C04_elo_direction"
   ],
   "note": ""
  },
  {
   "property": "C05",
   "status": "proved",
   "theorems": [
    "C05_elo_period"
   ],
   "note": ""
  },
  {
   "property": "C06",
   "status": "proved",
   "theorems": [
    "C06_fifa_update",
    "C06_fifa_direction"
   ],
   "note": ""
  },
  {
   "property": "C07",
   "status": "proved",
   "theorems": [
    "C07_fifa_knockout",
    "C07_fifa_knockout_period"
   ],
   "note": ""
  },
  {
   "property": "C08",
   "status": "partial",
   "theorems": [
    "C08_fifa_penalties_period",
    "C08_fifa_penalties_refuted",
    "C08_fifa_penalties_partial"
   ],
   "note": "False of the code for fifa(): with penalties both teams score 0.75 after WIN and both 0.5 after LOSS (C08_fifa_penalties_refuted). The rating period and the weaker two-team statement are proved."
  },
  {
   "property": "C09",
   "status": "partial",
   "theorems": [
    "C09_uscf_floor_partial",
    "C09_uscf_period_floor_refuted"
   ],
   "note": "Holds for uscf(); false for uscf_rating_period, which has no floor (refuted with a witness)."
  },
  {
   "property": "C10",
   "status": "proved",
   "theorems": [
    "C10_uscf_game",
    "C10_uscf_period"
   ],
   "note": ""
  },
  {
   "property": "C11",
   "status": "proved",
   "theorems": [
    "C11_uscf_games"
   ],
   "note": ""
  },
  {
   "property": "C12",
   "status": "proved",
   "theorems": [
    "C12_uscf_bonus"
   ],
   "note": ""
  },
  {
   "property": "C13",
   "status": "proved",
   "theorems": [
    "C13_egf_update"
   ],
   "note": ""
  },
  {
   "property": "C14",
   "status": "partial",
   "theorems": [
    "C14_egf_floor_partial",
    "C14_egf_period_floor_refuted"
   ],
   "note": "Holds for egf(); false for egf_rating_period, which has no floor (refuted with a witness)."
  },
  {
   "property": "C15",
   "status": "partial",
   "theorems": [
    "C15_egf_win_partial",
    "C15_egf_win_refuted"
   ],
   "note": "Proved below 3300; false above 3300, where the con factor is NaN and a win sets the rating to -900."
  },
  {
   "property": "C16",
   "status": "proved",
   "theorems": [
    "C16_egf_mirror"
   ],
   "note": ""
  },
  {
   "property": "C17",
   "status": "proved",
   "theorems": [
    "C17_dwz_coefficient"
   ],
   "note": ""
  },
  {
   "property": "C18",
   "status": "proved",
   "theorems": [
    "C18_dwz_update",
    "C18_dwz_direction"
   ],
   "note": ""
  },
  {
   "property": "C19",
   "status": "proved",
   "theorems": [
    "C19_dwz_bookkeeping"
   ],
   "note": ""
  },
  {
   "property": "C20",
   "status": "proved",
   "theorems": [
    "C20_dwz_first_errors"
   ],
   "note": ""
  },
  {
   "property": "C21",
   "status": "partial",
   "theorems": [
    "C21_dwz_first_value",
    "C21_dwz_table",
    "C21_dwz_inverted_partial",
    "C21_dwz_inverted_refuted"
   ],
   "note": "Value, table symmetry and monotonicity proved; mirroring proved except at exact half percentages, where rounding half up breaks it (refuted with a witness)."
  },
  {
   "property": "C22",
   "status": "proved",
   "theorems": [
    "C22_dwz_period_formula",
    "C22_dwz_period_order",
    "C22_dwz_period_single",
    "C22_dwz_period_empty"
   ],
   "note": ""
  },
  {
   "property": "C23",
   "status": "proved",
   "theorems": [
    "C23_ingo_update"
   ],
   "note": ""
  },
  {
   "property": "C24",
   "status": "partial",
   "theorems": [
    "C24_ingo_period_formula",
    "C24_ingo_period_perm",
    "C24_ingo_period_single",
    "C24_ingo_period_empty_refuted"
   ],
   "note": "False only for the empty period, which gives NaN (refuted); everything else proved."
  },
  {
   "property": "C25",
   "status": "partial",
   "theorems": [
    "C25_ingo_expected_partial",
    "C25_ingo_expected_refuted"
   ],
   "note": "Sum and formula proved; the expected score leaves [0,1] for rating gaps above 50 (refuted)."
  },
  {
   "property": "C26",
   "status": "proved",
   "theorems": [
    "C26_glicko_update"
   ],
   "note": ""
  },
  {
   "property": "C27",
   "status": "proved",
   "theorems": [
    "C27_glicko_deviation",
    "C27_glicko_period_deviation"
   ],
   "note": ""
  },
  {
   "property": "C28",
   "status": "proved",
   "theorems": [
    "C28_glicko_direction"
   ],
   "note": ""
  },
  {
   "property": "C29",
   "status": "proved",
   "theorems": [
    "C29_glicko_period_formula",
    "C29_glicko_period_order",
    "C29_glicko_period_single",
    "C29_glicko_period_empty"
   ],
   "note": ""
  },
  {
   "property": "C30",
   "status": "proved",
   "theorems": [
    "C30_glicko_decay"
   ],
   "note": ""
  },
  {
   "property": "C31",
   "status": "proved",
   "theorems": [
    "C31_boost_confidence",
    "C31_glicko_confidence",
    "C31_glicko2_confidence",
    "C31_sticko_confidence"
   ],
   "note": ""
  },
  {
   "property": "C32",
   "status": "proved",
   "theorems": [
    "C32_sticko_glicko_game",
    "C32_sticko_glicko_period",
    "C32_sticko_glicko_expected"
   ],
   "note": ""
  },
  {
   "property": "C33",
   "status": "proved",
   "theorems": [
    "C33_sticko_update",
    "C33_sticko_period",
    "C33_sticko_range",
    "C33_sticko_direction",
    "C33_sticko_order"
   ],
   "note": ""
  },
  {
   "property": "C34",
   "status": "partial",
   "theorems": [
    "C34_boost_glicko_refuted",
    "C34_boost_glicko_partial"
   ],
   "note": "Documented claim is false: deviations differ (refuted for all alpha and c). Ratings agree; deviations agree up to the end-of-period growth."
  },
  {
   "property": "C35",
   "status": "proved",
   "theorems": [
    "C35_boost_update",
    "C35_boost_period",
    "C35_boost_range",
    "C35_boost_period_range",
    "C35_boost_order"
   ],
   "note": ""
  },
  {
   "property": "C36",
   "status": "partial",
   "theorems": [
    "C36_boost_expected_colour_refuted",
    "C36_boost_expected_colour_partial"
   ],
   "note": "False for flag false: glicko_boost::expected_score_rating_period ignores the flag (refuted for every eta other than 0)."
  },
  {
   "property": "C37",
   "status": "proved",
   "theorems": [
    "C37_glicko2_bracket"
   ],
   "note": ""
  },
  {
   "property": "C38",
   "status": "proved",
   "theorems": [
    "C38_glicko2_volatility"
   ],
   "note": ""
  },
  {
   "property": "C39",
   "status": "proved",
   "theorems": [
    "C39_glicko2_update",
    "C39_glicko2_period"
   ],
   "note": ""
  },
  {
   "property": "C40",
   "status": "proved",
   "theorems": [
    "C40_glicko2_simple",
    "C40_glicko2_period_simple",
    "C40_glicko2_almost_all",
    "C40_glicko2_period_almost_all",
    "C40_glicko2_terminates",
    "C40_glicko2_period_terminates",
    "C40_glicko2_fuel"
   ],
   "note": "Proved in exact arithmetic: termination whenever all zeros of Glickman's f are simple, hence for all but at most two starting volatilities per player; and whenever the squared standardised surprise is below 1+27/(2 tau^2). Behaviour under rounding is not covered. For tau^2 sigma^2 <= 1/10 it terminates for all inputs (C128)."
  },
  {
   "property": "C41",
   "status": "proved",
   "theorems": [
    "C41_glicko2_order",
    "C41_glicko2_single",
    "C41_glicko2_empty",
    "C41_glicko2_decay"
   ],
   "note": ""
  },
  {
   "property": "C42",
   "status": "proved",
   "theorems": [
    "C42_weng_lin_1v1"
   ],
   "note": ""
  },
  {
   "property": "C43",
   "status": "proved",
   "theorems": [
    "C43_weng_lin_single",
    "C43_weng_lin_multi_two"
   ],
   "note": ""
  },
  {
   "property": "C44",
   "status": "proved",
   "theorems": [
    "C44_weng_lin_permutation",
    "C44_weng_lin_shape",
    "C44_weng_lin_two_shape",
    "C44_weng_lin_empty",
    "C44_weng_lin_ranks"
   ],
   "note": ""
  },
  {
   "property": "C45",
   "status": "proved",
   "theorems": [
    "C45_weng_lin_expected",
    "C45_weng_lin_expected_teams",
    "C45_weng_lin_expected_multi",
    "C45_weng_lin_expected_single"
   ],
   "note": ""
  },
  {
   "property": "C46",
   "status": "proved",
   "theorems": [
    "C46_weng_lin_formula",
    "C46_weng_lin_direction"
   ],
   "note": ""
  },
  {
   "property": "C47",
   "status": "partial",
   "theorems": [
    "C47_wl_f64_refuted",
    "C47_wl_f64_partial"
   ],
   "note": "False: with default configuration and uncertainties two players rated 20000 get NaN (exp overflows, refuted for every libm whose exp overflows from 1000 on). Proved for ratings up to 800 beta in size."
  },
  {
   "property": "C48",
   "status": "proved",
   "theorems": [
    "C48_weng_lin_period"
   ],
   "note": ""
  },
  {
   "property": "C49",
   "status": "proved",
   "theorems": [
    "C49_ts_weights_rate",
    "C49_ts_weights_quality",
    "C49_ts_weights_default"
   ],
   "note": ""
  },
  {
   "property": "C50",
   "status": "proved",
   "theorems": [
    "C50_ts_1v1"
   ],
   "note": ""
  },
  {
   "property": "C51",
   "status": "partial",
   "theorems": [
    "C51_ts_two_single",
    "C51_ts_two_formula",
    "C51_ts_two_swap_partial",
    "C51_ts_two_shape",
    "C51_ts_two_swap_range_partial",
    "C51_ts_two_swap_refuted"
   ],
   "note": "Everything proved except swapping a draw of equal teams: it holds for draw probabilities of at least 1% and uncertainties up to 5000 beta, and generally whenever the draw probability of the match as computed is at least 2.2e-162; it is false for uncertainties of a hundred million beta (refuted)."
  },
  {
   "property": "C52",
   "status": "partial",
   "theorems": [
    "C52_ts_multi_shape",
    "C52_ts_multi_empty",
    "C52_ts_multi_total",
    "C52_ts_multi_panic_refuted",
    "C52_ts_multi_one_team_refuted"
   ],
   "note": "Shape and empty input proved for any arithmetic; the claim that it never panics is false: it panics exactly for a single team or a zero uncertainty (refuted, with the exact condition); total otherwise."
  },
  {
   "property": "C53",
   "status": "partial",
   "theorems": [
    "C53_ts_graph_two_drawn_partial",
    "C53_ts_graph_two_teams_partial",
    "C53_ts_graph_two_default_partial",
    "C53_ts_graph_two_decided_partial",
    "C53_ts_graph_huge_upset_refuted"
   ],
   "note": "Decided games: proved for all team sizes and positive weights unless the winner is so unlikely that the code takes its numeric fallback (denominator below f64::MIN_POSITIVE). In that fallback both ratings become NaN (refuted: for every configuration there are such one-against-one games). Draws: proved when the draw margin is at least c/30 (0.056 c for fresh players of the default configuration) outside the fallback, and more generally whenever the variance correction w lies strictly between 0 and 1; for margins below about c/70 w can exceed 1 and nothing is proved. Weight 0 is covered by C79."
  },
  {
   "property": "C54",
   "status": "partial",
   "theorems": [
    "C54_ts_expected",
    "C54_ts_expected_teams",
    "C54_ts_expected_period",
    "C54_ts_expected_multi",
    "C54_ts_expected_one_team",
    "C54_ts_expected_mono_partial",
    "C54_ts_expected_mono_refuted"
   ],
   "note": "Probabilities and sums proved. Monotone on either side of equal ratings and up to 2e-7 everywhere; exact monotonicity is false at equality because erfc(0) is slightly above 1 (refuted)."
  },
  {
   "property": "C55",
   "status": "proved",
   "theorems": [
    "C55_ts_quality",
    "C55_ts_quality_teams"
   ],
   "note": ""
  },
  {
   "property": "C56",
   "status": "partial",
   "theorems": [
    "C56_ts_quality_multi_value",
    "C56_ts_quality_multi_range",
    "C56_ts_quality_multi_empty",
    "C56_ts_quality_multi_panic_refuted",
    "C56_ts_quality_two_refuted"
   ],
   "note": "For three or more teams with positive performance variance: exact closed form, between 0 and 1. False otherwise: one team or two teams always panic (refuted), as do two or more teams of zero variance; the panic condition is proved exact."
  },
  {
   "property": "C57",
   "status": "proved",
   "theorems": [
    "C57_ts_period"
   ],
   "note": ""
  },
  {
   "property": "C58",
   "status": "partial",
   "theorems": [
    "C58_ts_uncertainty_refuted",
    "C58_ts_draw_partial",
    "C58_ts_draw_team_partial",
    "C58_ts_draw_refuted",
    "C58_ts_decided_partial",
    "C58_ts_decided_team_partial"
   ],
   "note": "Decided games: proved for one against one when tau^2 <= 2*beta^2, and for teams when s^2+tau^2 <= c^2. False for large dynamics factors: 1 - w*(s^2+tau^2)/c^2 turns negative (refuted for every draw probability, beta and uncertainties). Draws: proved when the draw probability is at least 1% and the uncertainties are small enough that the draw margin is at least c/30 (s1^2+s2^2 <= 2*(1400*dp^2-1)*beta^2, met by fresh players of the default configuration); with much smaller margins it is false: for every beta and every draw probability of at least 1% there are uncertainties for which a draw of two equal players gives NaN (C58_ts_draw_refuted), because the fitted draw probability passes through 0 at a positive margin. Margins between that point and c/30 are not covered."
  },
  {
   "property": "C59",
   "status": "proved",
   "theorems": [
    "C59_ts_rank",
    "C59_ts_margin",
    "C59_ts_margin_probability"
   ],
   "note": "Rank, scaling, sign and accuracy of the draw margin proved for every draw probability in [0,1]."
  },
  {
   "property": "C60",
   "status": "proved",
   "theorems": [
    "C60_traits_rate",
    "C60_traits_period",
    "C60_traits_expected",
    "C60_traits_expected_period",
    "C60_traits_multi"
   ],
   "note": ""
  },
  {
   "property": "C61",
   "status": "proved",
   "theorems": [
    "C61_conversions_elo",
    "C61_conversions_formula",
    "C61_conversions_mono",
    "C61_conversions_glicko",
    "C61_conversions_fields"
   ],
   "note": ""
  },
  {
   "property": "C62",
   "status": "partial",
   "theorems": [
    "C62_swap_reals",
    "C62_swap_glicko",
    "C62_swap_ts_partial"
   ],
   "note": "All systems except TrueSkill are proved without restriction (any NaN or infinite input included for the Glicko family); TrueSkill has the same exception as C51."
  },
  {
   "property": "C63",
   "status": "proved",
   "theorems": [
    "C63_expected_period",
    "C63_expected_period_glicko2"
   ],
   "note": ""
  },
  {
   "property": "C64",
   "status": "proved",
   "theorems": [
    "C64_rating_read",
    "C64_rating_default"
   ],
   "note": ""
  },
  {
   "property": "C65",
   "status": "proved",
   "theorems": [
    "C65_outcomes"
   ],
   "note": ""
  },
  {
   "property": "C66",
   "status": "proved",
   "theorems": [
    "C66_f64_expected_elo",
    "C66_f64_expected_fifa",
    "C66_f64_expected_uscf",
    "C66_f64_expected_dwz",
    "C66_f64_expected_period",
    "C66_f64_expected_glicko",
    "C66_f64_expected_sticko",
    "C66_f64_expected_boost",
    "C66_f64_expected_egf",
    "C66_f64_expected_wl_teams",
    "C66_f64_expected_wl_multi"
   ],
   "note": ""
  },
  {
   "property": "C67",
   "status": "proved",
   "theorems": [
    "C67_f64_elo_direction",
    "C67_f64_elo_draw",
    "C67_f64_elo_finite"
   ],
   "note": ""
  },
  {
   "property": "C68",
   "status": "proved",
   "theorems": [
    "C68_f64_uscf_floor",
    "C68_f64_egf_floor",
    "C68_f64_decay_cap",
    "C68_f64_games_cap"
   ],
   "note": ""
  },
  {
   "property": "C69",
   "status": "proved",
   "theorems": [
    "C69_f64_knockout",
    "C69_f64_knockout_period"
   ],
   "note": ""
  },
  {
   "property": "C70",
   "status": "proved",
   "theorems": [
    "C70_fifa_period"
   ],
   "note": ""
  },
  {
   "property": "C71",
   "status": "proved",
   "theorems": [
    "C71_ingo_direction"
   ],
   "note": ""
  },
  {
   "property": "C72",
   "status": "proved",
   "theorems": [
    "C72_uscf_direction"
   ],
   "note": ""
  },
  {
   "property": "C73",
   "status": "proved",
   "theorems": [
    "C73_egf_period"
   ],
   "note": ""
  },
  {
   "property": "C74",
   "status": "partial",
   "theorems": [
    "C74_dwz_index_zero_refuted"
   ],
   "note": "False: index 0 gives coefficient 0, and NaN for an empty period."
  },
  {
   "property": "C75",
   "status": "proved",
   "theorems": [
    "C75_boost_expected",
    "C75_glicko_expected",
    "C75_glicko2_expected",
    "C75_sticko_expected"
   ],
   "note": ""
  },
  {
   "property": "C76",
   "status": "proved",
   "theorems": [
    "C76_sticko_expected_colour"
   ],
   "note": ""
  },
  {
   "property": "C77",
   "status": "proved",
   "theorems": [
    "C77_weng_lin_conservation"
   ],
   "note": ""
  },
  {
   "property": "C78",
   "status": "partial",
   "theorems": [
    "C78_ts_expected_swap_partial",
    "C78_ts_expected_swap_refuted"
   ],
   "note": "True for different ratings; false for equal ratings (first player gets slightly more than 0.5, refuted for all equal ratings)."
  },
  {
   "property": "C80",
   "status": "proved",
   "theorems": [
    "C80_default_configs"
   ],
   "note": ""
  },
  {
   "property": "C81",
   "status": "proved",
   "theorems": [
    "C81_from_tuples",
    "C81_from_age"
   ],
   "note": ""
  },
  {
   "property": "C82",
   "status": "proved",
   "theorems": [
    "C82_f64_elo_accuracy"
   ],
   "note": ""
  },
  {
   "property": "C79",
   "status": "partial",
   "theorems": [
    "C79_ts_zero_weight_nan",
    "C79_ts_zero_weight_refuted"
   ],
   "note": "False: a zero weight gives NaN ratings (refuted for every configuration and all uncertainties)."
  },
  {
   "property": "C83",
   "status": "proved",
   "theorems": [
    "C83_ts_multi_order"
   ],
   "note": ""
  },
  {
   "property": "C84",
   "status": "partial",
   "theorems": [
    "C84_ts_two_team_drawn_partial",
    "C84_ts_two_team_agree_partial",
    "C84_ts_two_team_agree_refuted",
    "C84_ts_two_team_decided_partial"
   ],
   "note": "Proved for tau = 0, for decided games outside the numeric fallback and for draws with a draw margin of at least c/30 outside the fallback (or with any 0 < w < 1); false for every tau other than 0, because only trueskill_multi_team adds tau^2 to c^2 (refuted)."
  },
  {
   "property": "C85",
   "status": "proved",
   "theorems": [
    "C85_ts_quality_multi_order"
   ],
   "note": ""
  },
  {
   "property": "C86",
   "status": "proved",
   "theorems": [
    "C86_ts_expected_normal",
    "C86_ts_expected_normal_teams",
    "C86_ts_expected_normal_period",
    "C86_ts_expected_normal_multi"
   ],
   "note": "Accuracy proved for all four functions."
  },
  {
   "property": "C87",
   "status": "partial",
   "theorems": [
    "C87_ts_draw_partial",
    "C87_ts_draw_refuted",
    "C87_ts_draw_zero_refuted"
   ],
   "note": "Proved for draw probabilities of at least 1% and uncertainties up to 5000 beta, all rating differences. False for uncertainties of a hundred million beta, where player one gains from a draw of identical players (refuted). With draw probability 0 it already fails for fresh players of the default configuration: a draw of equals raises the first and lowers the second (by about 1e-7 points; refuted for every beta and all uncertainties of at least 2 beta)."
  },
  {
   "property": "C88",
   "status": "partial",
   "theorems": [
    "C88_ts_beta_80_refuted"
   ],
   "note": "False: the expected score is below 77% whatever the uncertainties (refuted); at zero uncertainty it is Phi(1/sqrt 2), about 76%."
  },
  {
   "property": "C89",
   "status": "partial",
   "theorems": [
    "C89_glicko2_runs_forever_refuted"
   ],
   "note": "Refuted in exact arithmetic: a rating period of 100 wins for a player with RD 4.9 and a particular volatility below 0.06 iterates forever for every tolerance up to 1 (f has a double zero and the Illinois step stays on one side of it)."
  },
  {
   "property": "C90",
   "status": "proved",
   "theorems": [
    "C90_egf_stone",
    "C90_egf_handicap_helps"
   ],
   "note": ""
  },
  {
   "property": "C91",
   "status": "partial",
   "theorems": [
    "C91_egf_streak_refuted",
    "C91_egf_handicap_refuted"
   ],
   "note": "False: every player rated below 3300 who keeps beating an opponent below 3300 eventually passes 3300 and the next win sets the rating to -900; a handicap that lifts the receiver's adjusted rating above 3300 sets both players to -900 whatever the result (both refuted for all ratings)."
  },
  {
   "property": "C92",
   "status": "partial",
   "theorems": [
    "C92_reach_elo",
    "C92_reach_fifa",
    "C92_reach_ingo",
    "C92_reach_uscf_partial",
    "C92_reach_dwz",
    "C92_reach_glicko",
    "C92_reach_sticko",
    "C92_reach_boost",
    "C92_reach_glicko2",
    "C92_reach_weng_lin",
    "C92_reach_trueskill_partial"
   ],
   "note": "USCF: single games only (the period has no floor, C09). TrueSkill: decided games with tau^2 <= 2*beta^2 only (C58 is false for larger tau; draws are covered by C58 for margins of at least c/30 and are false for very small ones). Glicko-2: whenever the volatility iteration returns. All other systems without exception."
  },
  {
   "property": "C93",
   "status": "proved",
   "theorems": [
    "C93_elo_season"
   ],
   "note": ""
  },
  {
   "property": "C94",
   "status": "partial",
   "theorems": [
    "C94_stronger_glicko2",
    "C94_stronger_elo",
    "C94_stronger_fifa",
    "C94_stronger_ingo",
    "C94_stronger_uscf",
    "C94_stronger_egf",
    "C94_stronger_dwz",
    "C94_stronger_glicko",
    "C94_stronger_sticko",
    "C94_stronger_weng_lin",
    "C94_stronger_boost_refuted",
    "C94_stronger_trueskill_partial",
    "C94_stronger_trueskill_almost_partial",
    "C94_stronger_trueskill_refuted"
   ],
   "note": "Proved for nine systems. False for glicko_boost with its default configuration (refuted): for a fresh player, beating an opponent rated 1770 triggers the boost and is worth less than beating one rated 1762. TrueSkill (decided games): proved when both games lie on the same side of the draw margin and of the asymptote, and up to 2e-7*(sigma^2+tau^2)/c outside of the asymptote in general; false across the margin for every player and configuration (refuted), because the fitted normal distribution steps down by about 3e-8 at 0. Glicko-2: for tau^2 <= 2 and results below the surprise limit 1 + 27/(2 tau^2), strictly when the convergence tolerance is small against the difference of the expected scores. Not stated for TrueSkill draws."
  },
  {
   "property": "C95",
   "status": "partial",
   "theorems": [
    "C95_order_elo",
    "C95_order_elo_refuted",
    "C95_order_fifa",
    "C95_order_fifa_refuted",
    "C95_order_ingo",
    "C95_order_uscf_partial",
    "C95_order_uscf_refuted",
    "C95_order_egf",
    "C95_order_glicko",
    "C95_order_weng_lin",
    "C95_order_glicko2_partial",
    "C95_order_dwz",
    "C95_order_dwz_refuted",
    "C95_order_sticko_partial",
    "C95_order_sticko_refuted",
    "C95_order_boost_partial",
    "C95_order_boost_refuted",
    "C95_order_trueskill_partial",
    "C95_order_trueskill_refuted"
   ],
   "note": "Proved for elo with k*ln 10 < 1600 (k below about 694) and false for every k above (refuted); fifa with importance*ln 10 < 2400 and false for every importance above (refuted); ingo, glicko, weng_lin and even egf games without restriction; uscf for provisional players, false at the jump of the effective number of games at 2355 (refuted); trueskill decided games with tau^2 < 2*beta^2 + opponent's sigma^2, false for every larger tau (refuted). glicko2 for ratings further apart than the possible effect of different new volatilities (0.02 points by default). dwz for wins and for players of index 4 or more or on the same side of 1300, false for new adult players who lose at 1300, where the brake ends (refuted). sticko for beta = 0 and lambda at most 10, false for every lambda above 100 (refuted). glicko_boost: as long as the lower-rated player is not boosted, false for wins at the boost threshold (refuted). TrueSkill draws are not stated."
  },
  {
   "property": "C96",
   "status": "partial",
   "theorems": [
    "C96_boost_helps_partial",
    "C96_boost_refuted"
   ],
   "note": "Proved for deviations of at most 160. False for fresh players (deviation 350): the boost is applied to the deviation that the game has already reduced and the result is then reduced again, so it lowers both deviation and rating (refuted for every opponent deviation up to 350 and every win expected with 0.18 <= E < 1/(1+1.96^2))."
  },
  {
   "property": "C97",
   "status": "proved",
   "theorems": [
    "C97_f64_glicko",
    "C97_f64_glicko_period",
    "C97_f64_sticko",
    "C97_f64_boost",
    "C97_f64_fifa",
    "C97_f64_uscf",
    "C97_f64_dwz",
    "C97_f64_egf",
    "C97_f64_ingo",
    "C97_f64_weng_lin",
    "C97_f64_weng_lin_period",
    "C97_f64_weng_lin_teams",
    "C97_f64_weng_lin_multi"
   ],
   "note": ""
  },
  {
   "property": "C98",
   "status": "proved",
   "theorems": [
    "C98_f64_glicko",
    "C98_f64_glicko_period",
    "C98_f64_boost",
    "C98_f64_sticko",
    "C98_f64_fifa",
    "C98_f64_uscf",
    "C98_f64_dwz",
    "C98_f64_weng_lin",
    "C98_f64_weng_lin_period",
    "C98_f64_weng_lin_teams",
    "C98_f64_weng_lin_multi"
   ],
   "note": ""
  },
  {
   "property": "C99",
   "status": "proved",
   "theorems": [
    "C99_ts_team_mates"
   ],
   "note": "Under the stated condition on the reference message passing (0 < w < 1 at each comparison). Outside of it the code can return NaN (C53) or the correction of a draw with a tiny margin exceeds 1. For two teams the condition is spelled out in C53; C100_case shows a three-team game for every configuration."
  },
  {
   "property": "C100",
   "status": "proved",
   "theorems": [
    "C100_ts_many_teams",
    "C100_ts_many_teams_default",
    "C100_rank_order_exists"
   ],
   "note": "Exact real arithmetic, with the code's own approximation of the normal distribution on both sides (C86 bounds its error). The condition 0 < w < 1 at each comparison is part of the reference (ep_teams = Some): decided comparisons satisfy it outside the numeric fallback (C53)."
  },
  {
   "property": "C101",
   "status": "proved",
   "theorems": [
    "C101_f64_glicko",
    "C101_f64_glicko_period",
    "C101_f64_glicko_expected",
    "C101_f64_fifa",
    "C101_f64_weng_lin",
    "C101_f64_ingo",
    "C101_f64_egf"
   ],
   "note": "The libm contracts (SpecAcc.v, SpecB64.v) are shown to hold for correctly rounded functions. FIFA without penalty shoot-outs. Elo is C82."
  },
  {
   "property": "C102",
   "status": "proved",
   "theorems": [
    "C102_ts_normal_1v1",
    "C102_ts_normal_teams",
    "C102_ts_normal_expected",
    "C102_ts_normal_expected_teams",
    "C102_ts_normal_moments",
    "C102_ts_normal_distribution"
   ],
   "note": "Exact real arithmetic. The draw margin e is the one the code computes; its accuracy is C59. The reference corrections are shown to be the conditional mean and variance of a standard normal variable (C102_ts_normal_moments)."
  },
  {
   "property": "C103",
   "status": "proved",
   "theorems": [
    "C103_f64_ts_decided",
    "C103_f64_ts_draw",
    "C103_f64_ts_expected"
   ],
   "note": "One-on-one games. The libm contracts are shown to hold for correctly rounded functions (C103_libm_case). The exact update is that of C102; rating periods and teams are not covered in f64."
  },
  {
   "property": "C104",
   "status": "proved",
   "theorems": [
    "C104_f64_first_dwz_errors",
    "C104_f64_first_dwz",
    "C104_f64_first_dwz_half"
   ],
   "note": ""
  },
  {
   "property": "C105",
   "status": "proved",
   "theorems": [
    "C105_f64_dwz_game",
    "C105_f64_dwz_period"
   ],
   "note": "The libm contracts are shown to hold for correctly rounded functions (C105_libm_case). Index 0 is excluded (its cap of 0 is a separate finding)."
  },
  {
   "property": "C106",
   "status": "proved",
   "theorems": [
    "C106_f64_uscf_game",
    "C106_f64_uscf_period"
   ],
   "note": "The libm contract is shown to hold for correctly rounded powf (C106_libm_case). At the jump of the effective number of games at 2355 the model takes the branch of the f64 rating itself, so no exception is needed."
  },
  {
   "property": "C107",
   "status": "proved",
   "theorems": [
    "C107_f64_sticko_game",
    "C107_f64_sticko_period",
    "C107_f64_sticko_expected",
    "C107_f64_sticko_expected_period"
   ],
   "note": "The libm contracts are shown to hold for correctly rounded functions (C107_libm_case)."
  },
  {
   "property": "C108",
   "status": "partial",
   "theorems": [
    "C108_no_drift_elo",
    "C108_no_drift_fifa",
    "C108_no_drift_ingo",
    "C108_no_drift_weng_lin",
    "C108_no_drift_weng_lin_teams",
    "C108_no_drift_trueskill",
    "C108_no_drift_dwz",
    "C108_no_drift_uscf_partial",
    "C108_drift_glicko",
    "C108_drift_egf",
    "C108_drift_sticko",
    "C108_drift_boost",
    "C108_drift_dwz",
    "C108_drift_fifa_knockout",
    "C108_no_drift_uscf_refuted",
    "C108_drift_glicko2"
   ],
   "note": "Proved for elo, fifa, ingo, weng_lin (one against one and teams), trueskill (with |t| different from the draw margin and all three probabilities above the cut-off 2.2e-162), dwz players of at least 20 years and 1300 points; uscf only above 8 games and the floor. False for glicko, glicko2, sticko, Glicko-Boost, egf, weak or young dwz players, knockout fifa games and provisional uscf players, with the direction of the drift proved (Glicko-Boost underdogs: when a boost does not lower the deviation; glicko2: games without draws, expected odds below 1 + 27/(2 tau^2), and a tolerance smaller than the effect). Not stated: glicko2 games with draws."
  },
  {
   "property": "C109",
   "status": "partial",
   "theorems": [
    "C109_elo_order_refuted",
    "C109_uscf_order",
    "C109_egf_order"
   ],
   "note": "Proved for uscf and egf; false for elo for every rating, positive k and pair of different results (refuted)."
  },
  {
   "property": "C110",
   "status": "proved",
   "theorems": [
    "C110_shift_elo",
    "C110_shift_fifa",
    "C110_shift_ingo",
    "C110_shift_glicko",
    "C110_shift_sticko",
    "C110_shift_glicko2",
    "C110_shift_glicko2_period",
    "C110_shift_weng_lin",
    "C110_shift_trueskill",
    "C110_scale_weng_lin",
    "C110_scale_trueskill",
    "C110_weng_lin_1v1",
    "C110_trueskill_1v1"
   ],
   "note": ""
  },
  {
   "property": "C111",
   "status": "proved",
   "theorems": [
    "C111_draws_elo",
    "C111_draws_elo_both",
    "C111_draws_fifa",
    "C111_draws_elo_alternate",
    "C111_draws_elo_both_alternate",
    "C111_draws_fifa_alternate",
    "C111_draws_elo_iff",
    "C111_draws_fifa_iff"
   ],
   "note": ""
  },
  {
   "property": "C112",
   "status": "proved",
   "theorems": [
    "C112_farming_elo",
    "C112_farming_fifa"
   ],
   "note": ""
  },
  {
   "property": "C113",
   "status": "proved",
   "theorems": [
    "C113_f64_elo_period",
    "C113_f64_fifa_period",
    "C113_f64_egf_period",
    "C113_f64_ingo_period"
   ],
   "note": "The libm contracts are shown to hold for correctly rounded functions (C113_libm_case)."
  },
  {
   "property": "C114",
   "status": "proved",
   "theorems": [
    "C114_glicko_more_games",
    "C114_glicko_uncertain_moves_more",
    "C114_glicko_close_opponent",
    "C114_glicko_certain_opponent",
    "C114_glicko_far_opponent",
    "C114_weng_lin_uncertain_moves_more",
    "C114_uscf_experience",
    "C114_dwz_experience",
    "C114_sticko_more_games"
   ],
   "note": ""
  },
  {
   "property": "C115",
   "status": "proved",
   "theorems": [
    "C115_f64_glicko2_game",
    "C115_f64_glicko2_usual",
    "C115_f64_glicko2_period",
    "C115_f64_glicko2_expected",
    "C115_f64_glicko2_expected_period",
    "C115_f64_glicko2_decay"
   ],
   "note": "Conditional on the loops stopping; C116 proves in double precision that they stop unless the result is an upset (C40: in exact arithmetic, always)."
  },
  {
   "property": "C116",
   "status": "proved",
   "theorems": [
    "C116_f64_glicko2_total",
    "C116_f64_glicko2_total_usual",
    "C116_f64_glicko2_total_period"
   ],
   "note": "Upsets (Delta^2 > phi^2 + v), where the starting bracket is ln(Delta^2 - phi^2 - v), and tau above 0.98 are not covered."
  },
  {
   "property": "C117",
   "status": "partial",
   "theorems": [
    "C117_f64_glicko2_tiny_tau_refuted",
    "C117_f64_glicko2_tiny_tau_period_refuted"
   ],
   "note": "False as stated; refuted for tiny tau. Between 1e-34 and 0.1 and above 0.98 nothing is proved in double precision."
  },
  {
   "property": "C118",
   "status": "proved",
   "theorems": [
    "C118_f64_weng_lin_two",
    "C118_f64_weng_lin_multi",
    "C118_f64_weng_lin_expected",
    "C118_f64_weng_lin_expected_two",
    "C118_f64_weng_lin_expected_multi"
   ],
   "note": ""
  },
  {
   "property": "C119",
   "status": "proved",
   "theorems": [
    "C119_f64_ts_teams_decided",
    "C119_f64_ts_teams_draw",
    "C119_f64_ts_teams_expected_two",
    "C119_f64_ts_teams_expected_multi",
    "C119_f64_ts_quality",
    "C119_f64_ts_quality_two"
   ],
   "note": ""
  },
  {
   "property": "C120",
   "status": "proved",
   "theorems": [
    "C120_f64_boost_game",
    "C120_f64_boost_period",
    "C120_f64_boost_decay",
    "C120_f64_boost_expected",
    "C120_f64_boost_expected_period"
   ],
   "note": ""
  },
  {
   "property": "C121",
   "status": "partial",
   "theorems": [
    "C121_elo_better",
    "C121_elo_refuted",
    "C121_fifa_better",
    "C121_ingo_better",
    "C121_uscf_better",
    "C121_dwz_better",
    "C121_egf_better",
    "C121_glicko_better",
    "C121_sticko_better",
    "C121_boost_partial",
    "C121_boost_refuted",
    "C121_weng_lin_refuted",
    "C121_trueskill_refuted",
    "C121_trueskill_partial"
   ],
   "note": "False for Weng-Lin, for TrueSkill (true in the last game of a period), for Glicko-Boost across its threshold and for Elo with k ln 10 > 1600; Glicko-2 periods are C127 (up to the tolerance of the volatility iteration)."
  },
  {
   "property": "C122",
   "status": "proved",
   "theorems": [
    "C122_better_rank_own",
    "C122_better_rank_others",
    "C122_sum_of_pairs"
   ],
   "note": ""
  },
  {
   "property": "C123",
   "status": "partial",
   "theorems": [
    "C123_dwz_age_game",
    "C123_dwz_age_period",
    "C123_dwz_strong_junior_refuted"
   ],
   "note": "True up to a rating of 2000. Above 2000 the factor rating/2000 is larger than one, so a junior gains less from a win than a player aged 20: C123_dwz_strong_junior_refuted, for every rating in (2000, 2200] and every opponent."
  },
  {
   "property": "C124",
   "status": "proved",
   "theorems": [
    "C124_glicko_floor",
    "C124_glicko_floor_value",
    "C124_glicko_floor_sharp",
    "C124_glicko_default_floor",
    "C124_sticko_floor",
    "C124_trueskill_floor",
    "C124_trueskill_default_floor",
    "C124_weng_lin_no_floor"
   ],
   "note": ""
  },
  {
   "property": "C125",
   "status": "proved",
   "theorems": [
    "C125_elo_regret",
    "C125_fifa_regret",
    "C125_elo_period_regret",
    "C125_elo_learns",
    "C125_fifa_learns"
   ],
   "note": ""
  },
  {
   "property": "C126",
   "status": "proved",
   "theorems": [
    "C126_trueskill_results",
    "C126_trueskill_results_teams"
   ],
   "note": ""
  },
  {
   "property": "C127",
   "status": "proved",
   "theorems": [
    "C127_glicko2_results",
    "C127_glicko2_results_period"
   ],
   "note": ""
  },
  {
   "property": "C128",
   "status": "proved",
   "theorems": [
    "C128_glicko2_volatility",
    "C128_glicko2_volatility_period",
    "C128_glicko2_returns",
    "C128_glicko2_returns_period",
    "C128_glicko2_other_solution"
   ],
   "note": ""
  },
  {
   "property": "C129",
   "status": "partial",
   "theorems": [
    "C129_max_fifa",
    "C129_max_dwz",
    "C129_max_egf",
    "C129_max_uscf",
    "C129_max_glicko",
    "C129_max_boost",
    "C129_max_glicko2",
    "C129_max_weng_lin",
    "C129_max_sticko_partial",
    "C129_max_trueskill_partial",
    "C129_max_trueskill_refuted",
    "C129_max_ingo_refuted",
    "C129_max_uscf_provisional_refuted",
    "C129_max_sticko_refuted",
    "C129_sticko_turned_refuted"
   ],
   "note": "Proved for FIFA, DWZ, EGF, established USCF, Glicko, Glicko-Boost, Glicko-2 and Weng-Lin (Elo: C04, C93). False for TrueSkill, Ingo, provisional USCF players and Sticko with a positive lambda (finding 29); Sticko with lambda = 0 has the bound, TrueSkill wins and losses have one that grows with the rating difference."
  },
  {
   "property": "C130",
   "status": "proved",
   "theorems": [
    "C130_odds_elo",
    "C130_odds_fifa",
    "C130_odds_uscf",
    "C130_odds_dwz",
    "C130_odds_egf",
    "C130_advantage_ingo",
    "C130_chain_glicko",
    "C130_chain_glicko2",
    "C130_chain_weng_lin",
    "C130_chain_trueskill",
    "C130_uncertain_opponent_glicko",
    "C130_uncertain_opponent_weng_lin"
   ],
   "note": ""
  },
  {
   "property": "C131",
   "status": "partial",
   "theorems": [
    "C131_rematch_elo",
    "C131_rematch_fifa",
    "C131_rematch_dwz",
    "C131_rematch_uscf",
    "C131_rematch_weng_lin",
    "C131_rematch_glicko",
    "C131_rematch_trueskill_favourite",
    "C131_underdog_glicko",
    "C131_underdog_glicko2",
    "C131_underdog_weng_lin",
    "C131_underdog_trueskill",
    "C131_underdog_egf",
    "C131_rematch_ingo",
    "C131_favourite_glicko_refuted",
    "C131_favourite_glicko2_refuted",
    "C131_favourite_trueskill_refuted",
    "C131_provisional_uscf_refuted",
    "C131_favourite_egf_refuted"
   ],
   "note": "Refuted for favourites: in Glicko with c <> 0, Glicko-2 and TrueSkill with tau <> 0 there is for every player (Glicko: RD below 350; Glicko-2: tau^2 sigma^2 at most 0.1) a far weaker opponent such that winning lowers the expected score (the deviations grow by more than the rating gap); in Ingo exactly when the expected score is above 1; between provisional USCF players more than 400 points apart; in EGF against a player rated -900 (the rating bonus). Not covered: Sticko, Glicko-Boost, teams."
  },
  {
   "property": "C132",
   "status": "proved",
   "theorems": [
    "C132_elo_dwz",
    "C132_elo_uscf",
    "C132_elo_fifa",
    "C132_elo_ingo",
    "C132_glicko_glicko2",
    "C132_weng_lin_trueskill"
   ],
   "note": "The reverse conversions follow with C61 (round trips); Sticko and Glicko-Boost forecasts against Glicko are C32 and C34."
  },
  {
   "property": "C133",
   "status": "partial",
   "theorems": [
    "C133_draw_elo",
    "C133_draw_fifa",
    "C133_draw_dwz",
    "C133_draw_uscf",
    "C133_draw_ingo",
    "C133_draw_glicko",
    "C133_draw_glicko2",
    "C133_draw_sticko",
    "C133_draw_boost",
    "C133_draw_weng_lin",
    "C133_draw_weng_lin_teams",
    "C133_draw_trueskill_teams",
    "C133_tie_weng_lin_multi",
    "C133_draw_egf_partial",
    "C133_equal_egf_refuted",
    "C133_equal_sticko_refuted"
   ],
   "note": "Refuted for EGF (two equal players who draw both gain the bonus) and for Sticko with beta > 0 (both gain). Ties of more than two TrueSkill teams are not covered."
  },
  {
   "property": "C134",
   "status": "partial",
   "theorems": [
    "C134_uncertain_glicko",
    "C134_uncertain_sticko",
    "C134_uncertain_boost",
    "C134_uncertain_weng_lin",
    "C134_uncertain_trueskill_partial",
    "C134_fresh_glicko_refuted",
    "C134_favourite_glicko_refuted",
    "C134_favourite_weng_lin_refuted"
   ],
   "note": "Refuted for favourites (Glicko, Weng-Lin) and for Glicko players with RD 350. TrueSkill: draws and games further than 26 standard deviations from the expected result are not covered. Glicko-2 and boosted wins in Glicko-Boost are not covered."
  },
  {
   "property": "C135",
   "status": "partial",
   "theorems": [
    "C135_equal_glicko",
    "C135_equal_glicko2",
    "C135_equal_sticko",
    "C135_equal_boost",
    "C135_more_glicko",
    "C135_more_sticko",
    "C135_favourite_glicko_refuted"
   ],
   "note": "Refuted for favourites who win. For Glicko-2 and Glicko-Boost with different deviations nothing is claimed. Elo: C02; Weng-Lin: C77."
  },
  {
   "property": "C136",
   "status": "partial",
   "theorems": [
    "C136_equally_certain_trueskill_partial",
    "C136_trueskill_refuted"
   ],
   "note": "For equally uncertain teams up to 5e-7, strictly with a lead of 1/1000 standard deviation and nobody in between; refuted for different uncertainties."
  },
  {
   "property": "C137",
   "status": "partial",
   "theorems": [
    "C137_closer_quality",
    "C137_certain_quality",
    "C137_certain_quality_refuted"
   ],
   "note": "The statement about certainty is refuted for teams of different strength."
  },
  {
   "property": "C138",
   "status": "partial",
   "theorems": [
    "C138_first_dwz_order",
    "C138_first_dwz_better",
    "C138_one_more_game_refuted"
   ],
   "note": "The statement about one more game is a refutation; monotonicity is proved in full."
  },
  {
   "property": "C139",
   "status": "proved",
   "theorems": [
    "C139_ingo_settles",
    "C139_uscf_draws",
    "C139_glicko_draws",
    "C139_weng_lin_draws",
    "C139_dwz_draws",
    "C139_sticko_draws"
   ],
   "note": ""
  },
  {
   "property": "C140",
   "status": "proved",
   "theorems": [
    "C140_glicko_farming",
    "C140_weng_lin_farming",
    "C140_trueskill_farming",
    "C140_glicko2_farming",
    "C140_glicko2_career"
   ],
   "note": ""
  },
  {
   "property": "C141",
   "status": "partial",
   "theorems": [
    "C141_one_more_team",
    "C141_weng_lin_one_more_player",
    "C141_weng_lin_one_more_player_refuted",
    "C141_trueskill_one_more_player",
    "C141_trueskill_one_more_player_refuted"
   ],
   "note": "Refuted for favourites who take in a player of small positive rating. TrueSkill: an underdog that becomes the favourite is not covered (C54: monotone only up to 2e-7 across equality)."
  },
  {
   "property": "C142",
   "status": "partial",
   "theorems": [
    "C142_pull_glicko",
    "C142_pull_glicko2",
    "C142_pull_sticko",
    "C142_pull_boost",
    "C142_pull_weng_lin",
    "C142_pull_trueskill",
    "C142_limit_weng_lin",
    "C142_limit_trueskill",
    "C142_trueskill_favourite_refuted"
   ],
   "note": "Refuted for TrueSkill: very uncertain favourites get less than 1/2 (finding 37)."
  },
  {
   "property": "C143",
   "status": "proved",
   "theorems": [
    "C143_idle_glicko",
    "C143_idle_sticko",
    "C143_idle_glicko2",
    "C143_idle_boost",
    "C143_idle_forecast"
   ],
   "note": ""
  },
  {
   "property": "C144",
   "status": "partial",
   "theorems": [
    "C144_glicko_sweep",
    "C144_glicko_draws_pass_refuted",
    "C144_sticko_sweep",
    "C144_boost_sweep",
    "C144_glicko2_sweep",
    "C144_glicko2_returns",
    "C144_glicko2_draws_pass_refuted",
    "C144_dwz_sweep",
    "C144_dwz_draws_pass_refuted",
    "C144_ingo_sweep",
    "C144_uscf_provisional",
    "C144_uscf_not_better",
    "C144_uscf_better",
    "C144_egf_sweep"
   ],
   "note": "That draws do not carry a Glicko, Glicko-2 or DWZ player past the opponent is refuted (finding 38). Of Glicko-2 and Glicko-Boost the limit and the range, but no closed form; Elo, FIFA, Weng-Lin and TrueSkill periods are games in sequence (C05, C70, C48, C57)."
  },
  {
   "property": "C145",
   "status": "proved",
   "theorems": [
    "C145_team_shares",
    "C145_large_game"
   ],
   "note": "Finding 39."
  },
  {
   "property": "C146",
   "status": "proved",
   "theorems": [
    "C146_sum_of_pairs"
   ],
   "note": ""
  },
  {
   "property": "C147",
   "status": "partial",
   "theorems": [
    "C147_elo_forgets",
    "C147_fifa_forgets",
    "C147_ingo_forgets",
    "C147_uscf_forgets",
    "C147_fifa_knockout_refuted"
   ],
   "note": "Refuted for FIFA knock-out matches (finding 40). Of USCF only provisional players; other systems are not covered."
  },
  {
   "property": "C148",
   "status": "proved",
   "theorems": [
    "C148_elo_calibrated",
    "C148_fifa_calibrated",
    "C148_ingo_calibrated"
   ],
   "note": ""
  },
  {
   "property": "C149",
   "status": "proved",
   "theorems": [
    "C149_elo_orders",
    "C149_fifa_orders",
    "C149_elo_later",
    "C149_ingo_later"
   ],
   "note": ""
  },
  {
   "property": "C150",
   "status": "proved",
   "theorems": [
    "C150_sequential_split",
    "C150_uscf_split",
    "C150_ingo_split",
    "C150_egf_split"
   ],
   "note": ""
  }
 ]
}