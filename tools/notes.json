{
 "C08": {
  "note": "False of the code for fifa(): with penalties both teams score 0.75 after WIN and both 0.5 after LOSS (C08_fifa_penalties_refuted). The rating period and the weaker two-team statement are proved."
 },
 "C09": {
  "note": "Holds for uscf(); false for uscf_rating_period, which has no floor (refuted with a witness)."
 },
 "C14": {
  "note": "Holds for egf(); false for egf_rating_period, which has no floor (refuted with a witness)."
 },
 "C15": {
  "note": "Proved below 3300; false above 3300, where the con factor is NaN and a win sets the rating to -900."
 },
 "C21": {
  "note": "Value, table symmetry and monotonicity proved; mirroring proved except at exact half percentages, where rounding half up breaks it (refuted with a witness)."
 },
 "C24": {
  "note": "False only for the empty period, which gives NaN (refuted); everything else proved."
 },
 "C25": {
  "note": "Sum and formula proved; the expected score leaves [0,1] for rating gaps above 50 (refuted)."
 },
 "C34": {
  "note": "Documented claim is false: deviations differ (refuted for all alpha and c). Ratings agree; deviations agree up to the end-of-period growth."
 },
 "C36": {
  "note": "False for flag false: glicko_boost::expected_score_rating_period ignores the flag (refuted for every eta other than 0)."
 },
 "C40": {
  "note": "Proved in exact arithmetic: termination whenever all zeros of Glickman's f are simple, hence for all but at most two starting volatilities per player; and whenever the squared standardised surprise is below 1+27/(2 tau^2). Behaviour under rounding is not covered. For tau^2 sigma^2 <= 1/10 it terminates for all inputs (C128)."
 },
 "C74": {
  "note": "False: index 0 gives coefficient 0, and NaN for an empty period."
 },
 "C47": {
  "note": "False: with default configuration and uncertainties two players rated 20000 get NaN (exp overflows, refuted for every libm whose exp overflows from 1000 on). Proved for ratings up to 800 beta in size."
 },
 "C51": {
  "note": "Everything proved except swapping a draw of equal teams: it holds for draw probabilities of at least 1% and uncertainties up to 5000 beta, and generally whenever the draw probability of the match as computed is at least 2.2e-162; it is false for uncertainties of a hundred million beta (refuted)."
 },
 "C54": {
  "note": "Probabilities and sums proved. Monotone on either side of equal ratings and up to 2e-7 everywhere; exact monotonicity is false at equality because erfc(0) is slightly above 1 (refuted)."
 },
 "C62": {
  "note": "All systems except TrueSkill are proved without restriction (any NaN or infinite input included for the Glicko family); TrueSkill has the same exception as C51."
 },
 "C58": {
  "note": "Decided games: proved for one against one when tau^2 <= 2*beta^2, and for teams when s^2+tau^2 <= c^2. False for large dynamics factors: 1 - w*(s^2+tau^2)/c^2 turns negative (refuted for every draw probability, beta and uncertainties). Draws: proved when the draw probability is at least 1% and the uncertainties are small enough that the draw margin is at least c/30 (s1^2+s2^2 <= 2*(1400*dp^2-1)*beta^2, met by fresh players of the default configuration); with much smaller margins it is false: for every beta and every draw probability of at least 1% there are uncertainties for which a draw of two equal players gives NaN (C58_ts_draw_refuted), because the fitted draw probability passes through 0 at a positive margin. Margins between that point and c/30 are not covered."
 },
 "C78": {
  "note": "True for different ratings; false for equal ratings (first player gets slightly more than 0.5, refuted for all equal ratings)."
 },
 "C52": {
  "note": "Shape and empty input proved for any arithmetic; the claim that it never panics is false: it panics exactly for a single team or a zero uncertainty (refuted, with the exact condition); total otherwise."
 },
 "C53": {
  "note": "Decided games: proved for all team sizes and positive weights unless the winner is so unlikely that the code takes its numeric fallback (denominator below f64::MIN_POSITIVE). In that fallback both ratings become NaN (refuted: for every configuration there are such one-against-one games). Draws: proved when the draw margin is at least c/30 (0.056 c for fresh players of the default configuration) outside the fallback, and more generally whenever the variance correction w lies strictly between 0 and 1; for margins below about c/70 w can exceed 1 and nothing is proved. Weight 0 is covered by C79."
 },
 "C79": {
  "note": "False: a zero weight gives NaN ratings (refuted for every configuration and all uncertainties)."
 },
 "C84": {
  "note": "Proved for tau = 0, for decided games outside the numeric fallback and for draws with a draw margin of at least c/30 outside the fallback (or with any 0 < w < 1); false for every tau other than 0, because only trueskill_multi_team adds tau^2 to c^2 (refuted)."
 },
 "C56": {
  "note": "For three or more teams with positive performance variance: exact closed form, between 0 and 1. False otherwise: one team or two teams always panic (refuted), as do two or more teams of zero variance; the panic condition is proved exact."
 },
 "C59": {
  "note": "Rank, scaling, sign and accuracy of the draw margin proved for every draw probability in [0,1]."
 },
 "C86": {
  "note": "Accuracy proved for all four functions."
 },
 "C87": {
  "note": "Proved for draw probabilities of at least 1% and uncertainties up to 5000 beta, all rating differences. False for uncertainties of a hundred million beta, where player one gains from a draw of identical players (refuted). With draw probability 0 it already fails for fresh players of the default configuration: a draw of equals raises the first and lowers the second (by about 1e-7 points; refuted for every beta and all uncertainties of at least 2 beta)."
 },
 "C88": {
  "note": "False: the expected score is below 77% whatever the uncertainties (refuted); at zero uncertainty it is Phi(1/sqrt 2), about 76%."
 },
 "C89": {
  "note": "Refuted in exact arithmetic: a rating period of 100 wins for a player with RD 4.9 and a particular volatility below 0.06 iterates forever for every tolerance up to 1 (f has a double zero and the Illinois step stays on one side of it)."
 },
 "C91": {
  "note": "False: every player rated below 3300 who keeps beating an opponent below 3300 eventually passes 3300 and the next win sets the rating to -900; a handicap that lifts the receiver's adjusted rating above 3300 sets both players to -900 whatever the result (both refuted for all ratings)."
 },
 "C92": {
  "note": "USCF: single games only (the period has no floor, C09). TrueSkill: decided games with tau^2 <= 2*beta^2 only (C58 is false for larger tau; draws are covered by C58 for margins of at least c/30 and are false for very small ones). Glicko-2: whenever the volatility iteration returns. All other systems without exception."
 },
 "C94": {
  "note": "Proved for nine systems. False for glicko_boost with its default configuration (refuted): for a fresh player, beating an opponent rated 1770 triggers the boost and is worth less than beating one rated 1762. TrueSkill (decided games): proved when both games lie on the same side of the draw margin and of the asymptote, and up to 2e-7*(sigma^2+tau^2)/c outside of the asymptote in general; false across the margin for every player and configuration (refuted), because the fitted normal distribution steps down by about 3e-8 at 0. Glicko-2: for tau^2 <= 2 and results below the surprise limit 1 + 27/(2 tau^2), strictly when the convergence tolerance is small against the difference of the expected scores. Not stated for TrueSkill draws."
 },
 "C95": {
  "note": "Proved for elo with k*ln 10 < 1600 (k below about 694) and false for every k above (refuted); fifa with importance*ln 10 < 2400 and false for every importance above (refuted); ingo, glicko, weng_lin and even egf games without restriction; uscf for provisional players, false at the jump of the effective number of games at 2355 (refuted); trueskill decided games with tau^2 < 2*beta^2 + opponent's sigma^2, false for every larger tau (refuted). glicko2 for ratings further apart than the possible effect of different new volatilities (0.02 points by default). dwz for wins and for players of index 4 or more or on the same side of 1300, false for new adult players who lose at 1300, where the brake ends (refuted). sticko for beta = 0 and lambda at most 10, false for every lambda above 100 (refuted). glicko_boost: as long as the lower-rated player is not boosted, false for wins at the boost threshold (refuted). TrueSkill draws are not stated."
 },
 "C96": {
  "note": "Proved for deviations of at most 160. False for fresh players (deviation 350): the boost is applied to the deviation that the game has already reduced and the result is then reduced again, so it lowers both deviation and rating (refuted for every opponent deviation up to 350 and every win expected with 0.18 <= E < 1/(1+1.96^2))."
 },
 "C99": {
  "note": "Under the stated condition on the reference message passing (0 < w < 1 at each comparison). Outside of it the code can return NaN (C53) or the correction of a draw with a tiny margin exceeds 1. For two teams the condition is spelled out in C53; C100_case shows a three-team game for every configuration."
 },
 "C100": {
  "note": "Exact real arithmetic, with the code's own approximation of the normal distribution on both sides (C86 bounds its error). The condition 0 < w < 1 at each comparison is part of the reference (ep_teams = Some): decided comparisons satisfy it outside the numeric fallback (C53)."
 },
 "C101": {
  "note": "The libm contracts (SpecAcc.v, SpecB64.v) are shown to hold for correctly rounded functions. FIFA without penalty shoot-outs. Elo is C82."
 },
 "C102": {
  "note": "Exact real arithmetic. The draw margin e is the one the code computes; its accuracy is C59. The reference corrections are shown to be the conditional mean and variance of a standard normal variable (C102_ts_normal_moments)."
 },
 "C103": {
  "note": "One-on-one games. The libm contracts are shown to hold for correctly rounded functions (C103_libm_case). The exact update is that of C102; rating periods and teams are not covered in f64."
 },
 "C105": {
  "note": "The libm contracts are shown to hold for correctly rounded functions (C105_libm_case). Index 0 is excluded (its cap of 0 is a separate finding)."
 },
 "C106": {
  "note": "The libm contract is shown to hold for correctly rounded powf (C106_libm_case). At the jump of the effective number of games at 2355 the model takes the branch of the f64 rating itself, so no exception is needed."
 },
 "C107": {
  "note": "The libm contracts are shown to hold for correctly rounded functions (C107_libm_case)."
 },
 "C108": {
  "note": "Proved for elo, fifa, ingo, weng_lin (one against one and teams), trueskill (with |t| different from the draw margin and all three probabilities above the cut-off 2.2e-162), dwz players of at least 20 years and 1300 points; uscf only above 8 games and the floor. False for glicko, glicko2, sticko, Glicko-Boost, egf, weak or young dwz players, knockout fifa games and provisional uscf players, with the direction of the drift proved (Glicko-Boost underdogs: when a boost does not lower the deviation; glicko2: games without draws, expected odds below 1 + 27/(2 tau^2), and a tolerance smaller than the effect). Not stated: glicko2 games with draws."
 },
 "C109": {
  "note": "Proved for uscf and egf; false for elo for every rating, positive k and pair of different results (refuted)."
 },
 "C113": {
  "note": "The libm contracts are shown to hold for correctly rounded functions (C113_libm_case)."
 },
 "C115": {
  "note": "Conditional on the loops stopping; C116 proves in double precision that they stop unless the result is an upset (C40: in exact arithmetic, always)."
 },
 "C116": {
  "note": "Upsets (Delta^2 > phi^2 + v), where the starting bracket is ln(Delta^2 - phi^2 - v), and tau above 0.98 are not covered."
 },
 "C117": {
  "note": "False as stated; refuted for tiny tau. Between 1e-34 and 0.1 and above 0.98 nothing is proved in double precision."
 },
 "C121": {
  "note": "False for Weng-Lin, for TrueSkill (true in the last game of a period), for Glicko-Boost across its threshold and for Elo with k ln 10 > 1600; Glicko-2 periods are C127 (up to the tolerance of the volatility iteration)."
 },
 "C123": {
  "note": "True up to a rating of 2000. Above 2000 the factor rating/2000 is larger than one, so a junior gains less from a win than a player aged 20: C123_dwz_strong_junior_refuted, for every rating in (2000, 2200] and every opponent."
 },
 "C129": {
  "note": "Proved for FIFA, DWZ, EGF, established USCF, Glicko, Glicko-Boost, Glicko-2 and Weng-Lin (Elo: C04, C93). False for TrueSkill, Ingo, provisional USCF players and Sticko with a positive lambda (finding 29); Sticko with lambda = 0 has the bound, TrueSkill wins and losses have one that grows with the rating difference."
 },
 "C131": {
  "note": "Refuted for favourites: in Glicko with c <> 0, Glicko-2 and TrueSkill with tau <> 0 there is for every player (Glicko: RD below 350; Glicko-2: tau^2 sigma^2 at most 0.1) a far weaker opponent such that winning lowers the expected score (the deviations grow by more than the rating gap); in Ingo exactly when the expected score is above 1; between provisional USCF players more than 400 points apart; in EGF against a player rated -900 (the rating bonus). Not covered: Sticko, Glicko-Boost, teams."
 },
 "C132": {
  "note": "The reverse conversions follow with C61 (round trips); Sticko and Glicko-Boost forecasts against Glicko are C32 and C34."
 },
 "C133": {
  "note": "Refuted for EGF (two equal players who draw both gain the bonus) and for Sticko with beta > 0 (both gain). Ties of more than two TrueSkill teams are not covered."
 },
 "C134": {
  "note": "Refuted for favourites (Glicko, Weng-Lin) and for Glicko players with RD 350. TrueSkill: draws and games further than 26 standard deviations from the expected result are not covered. Glicko-2 and boosted wins in Glicko-Boost are not covered."
 },
 "C135": {
  "note": "Refuted for favourites who win. For Glicko-2 and Glicko-Boost with different deviations nothing is claimed. Elo: C02; Weng-Lin: C77."
 },
 "C136": {
  "note": "For equally uncertain teams up to 5e-7, strictly with a lead of 1/1000 standard deviation and nobody in between; refuted for different uncertainties."
 },
 "C137": {
  "note": "The statement about certainty is refuted for teams of different strength."
 },
 "C138": {
  "note": "The statement about one more game is a refutation; monotonicity is proved in full."
 },
 "C141": {
  "note": "Refuted for favourites who take in a player of small positive rating. TrueSkill: an underdog that becomes the favourite is not covered (C54: monotone only up to 2e-7 across equality)."
 },
 "C142": {
  "note": "Refuted for TrueSkill: very uncertain favourites get less than 1/2 (finding 37)."
 },
 "C144": {
  "note": "That draws do not carry a Glicko, Glicko-2 or DWZ player past the opponent is refuted (finding 38). Of Glicko-2 and Glicko-Boost the limit and the range, but no closed form; Elo, FIFA, Weng-Lin and TrueSkill periods are games in sequence (C05, C70, C48, C57)."
 },
 "C145": {
  "note": "Finding 39."
 },
 "C147": {
  "note": "Refuted for FIFA knock-out matches (finding 40). Of USCF only provisional players; other systems are not covered."
 }
}
