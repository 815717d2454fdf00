# What `Print Assumptions` lists for each property theorem

Generated by `tools/assumptions.py`.  The four axioms are those of the Coq
standard library: `ClassicalDedekindReals.sig_forall_dec`,
`ClassicalDedekindReals.sig_not_dec`,
`FunctionalExtensionality.functional_extensionality_dep`, `Classical_Prop.classic`.

## Closed under the global context (no axioms)

* C05_elo_period
* C100_rank_order_exists
* C11_uscf_games
* C150_sequential_split
* C19_dwz_bookkeeping
* C21_dwz_table
* C29_glicko_period_empty
* C36_boost_expected_colour_partial
* C40_glicko2_fuel
* C41_glicko2_empty
* C44_weng_lin_empty
* C44_weng_lin_ranks
* C44_weng_lin_shape
* C44_weng_lin_two_shape
* C48_weng_lin_period
* C49_ts_weights_quality
* C49_ts_weights_rate
* C51_ts_two_shape
* C52_ts_multi_empty
* C52_ts_multi_one_team_refuted
* C52_ts_multi_shape
* C56_ts_quality_multi_empty
* C56_ts_quality_two_refuted
* C57_ts_period
* C60_traits_expected
* C60_traits_expected_period
* C60_traits_multi
* C60_traits_period
* C60_traits_rate
* C61_conversions_fields
* C61_conversions_glicko
* C63_expected_period
* C64_rating_read
* C70_fifa_period
* C81_from_tuples
* C83_ts_multi_order

## functional_extensionality_dep, sig_forall_dec

* C21_dwz_inverted_partial

## classic, functional_extensionality_dep, sig_forall_dec, sig_not_dec

* C01_elo_update
* C02_elo_zero_sum
* C03_elo_expected
* C04_elo_direction
* C06_fifa_direction
* C06_fifa_update
* C07_fifa_knockout
* C07_fifa_knockout_period
* C08_fifa_penalties_partial
* C08_fifa_penalties_period
* C08_fifa_penalties_refuted
* C09_uscf_floor_partial
* C09_uscf_period_floor_refuted
* C100_ts_many_teams
* C100_ts_many_teams_default
* C101_f64_egf
* C101_f64_fifa
* C101_f64_glicko
* C101_f64_glicko_expected
* C101_f64_glicko_period
* C101_f64_ingo
* C101_f64_weng_lin
* C102_ts_normal_1v1
* C102_ts_normal_distribution
* C102_ts_normal_expected
* C102_ts_normal_expected_teams
* C102_ts_normal_moments
* C102_ts_normal_teams
* C103_f64_ts_decided
* C103_f64_ts_draw
* C103_f64_ts_expected
* C104_f64_first_dwz
* C104_f64_first_dwz_errors
* C104_f64_first_dwz_half
* C105_f64_dwz_game
* C105_f64_dwz_period
* C106_f64_uscf_game
* C106_f64_uscf_period
* C107_f64_sticko_expected
* C107_f64_sticko_expected_period
* C107_f64_sticko_game
* C107_f64_sticko_period
* C108_drift_boost
* C108_drift_dwz
* C108_drift_egf
* C108_drift_fifa_knockout
* C108_drift_glicko
* C108_drift_glicko2
* C108_drift_sticko
* C108_no_drift_dwz
* C108_no_drift_elo
* C108_no_drift_fifa
* C108_no_drift_ingo
* C108_no_drift_trueskill
* C108_no_drift_uscf_partial
* C108_no_drift_uscf_refuted
* C108_no_drift_weng_lin
* C108_no_drift_weng_lin_teams
* C109_egf_order
* C109_elo_order_refuted
* C109_uscf_order
* C10_uscf_game
* C10_uscf_period
* C110_scale_trueskill
* C110_scale_weng_lin
* C110_shift_elo
* C110_shift_fifa
* C110_shift_glicko
* C110_shift_glicko2
* C110_shift_glicko2_period
* C110_shift_ingo
* C110_shift_sticko
* C110_shift_trueskill
* C110_shift_weng_lin
* C110_trueskill_1v1
* C110_weng_lin_1v1
* C111_draws_elo
* C111_draws_elo_alternate
* C111_draws_elo_both
* C111_draws_elo_both_alternate
* C111_draws_elo_iff
* C111_draws_fifa
* C111_draws_fifa_alternate
* C111_draws_fifa_iff
* C112_farming_elo
* C112_farming_fifa
* C113_f64_egf_period
* C113_f64_elo_period
* C113_f64_fifa_period
* C113_f64_ingo_period
* C114_dwz_experience
* C114_glicko_certain_opponent
* C114_glicko_close_opponent
* C114_glicko_far_opponent
* C114_glicko_more_games
* C114_glicko_uncertain_moves_more
* C114_sticko_more_games
* C114_uscf_experience
* C114_weng_lin_uncertain_moves_more
* C115_f64_glicko2_decay
* C115_f64_glicko2_expected
* C115_f64_glicko2_expected_period
* C115_f64_glicko2_game
* C115_f64_glicko2_period
* C115_f64_glicko2_usual
* C116_f64_glicko2_total
* C116_f64_glicko2_total_period
* C116_f64_glicko2_total_usual
* C117_f64_glicko2_tiny_tau_period_refuted
* C117_f64_glicko2_tiny_tau_refuted
* C118_f64_weng_lin_expected
* C118_f64_weng_lin_expected_multi
* C118_f64_weng_lin_expected_two
* C118_f64_weng_lin_multi
* C118_f64_weng_lin_two
* C119_f64_ts_quality
* C119_f64_ts_quality_two
* C119_f64_ts_teams_decided
* C119_f64_ts_teams_draw
* C119_f64_ts_teams_expected_multi
* C119_f64_ts_teams_expected_two
* C120_f64_boost_decay
* C120_f64_boost_expected
* C120_f64_boost_expected_period
* C120_f64_boost_game
* C120_f64_boost_period
* C121_boost_partial
* C121_boost_refuted
* C121_dwz_better
* C121_egf_better
* C121_elo_better
* C121_elo_refuted
* C121_fifa_better
* C121_glicko_better
* C121_ingo_better
* C121_sticko_better
* C121_trueskill_partial
* C121_trueskill_refuted
* C121_uscf_better
* C121_weng_lin_refuted
* C122_better_rank_others
* C122_better_rank_own
* C122_sum_of_pairs
* C123_dwz_age_game
* C123_dwz_age_period
* C123_dwz_strong_junior_refuted
* C124_glicko_default_floor
* C124_glicko_floor
* C124_glicko_floor_sharp
* C124_glicko_floor_value
* C124_sticko_floor
* C124_trueskill_default_floor
* C124_trueskill_floor
* C124_weng_lin_no_floor
* C125_elo_learns
* C125_elo_period_regret
* C125_elo_regret
* C125_fifa_learns
* C125_fifa_regret
* C126_trueskill_results
* C126_trueskill_results_teams
* C127_glicko2_results
* C127_glicko2_results_period
* C128_glicko2_other_solution
* C128_glicko2_returns
* C128_glicko2_returns_period
* C128_glicko2_volatility
* C128_glicko2_volatility_period
* C129_max_boost
* C129_max_dwz
* C129_max_egf
* C129_max_fifa
* C129_max_glicko
* C129_max_glicko2
* C129_max_ingo_refuted
* C129_max_sticko_partial
* C129_max_sticko_refuted
* C129_max_trueskill_partial
* C129_max_trueskill_refuted
* C129_max_uscf
* C129_max_uscf_provisional_refuted
* C129_max_weng_lin
* C129_sticko_turned_refuted
* C12_uscf_bonus
* C130_advantage_ingo
* C130_chain_glicko
* C130_chain_glicko2
* C130_chain_trueskill
* C130_chain_weng_lin
* C130_odds_dwz
* C130_odds_egf
* C130_odds_elo
* C130_odds_fifa
* C130_odds_uscf
* C130_uncertain_opponent_glicko
* C130_uncertain_opponent_weng_lin
* C131_favourite_egf_refuted
* C131_favourite_glicko2_refuted
* C131_favourite_glicko_refuted
* C131_favourite_trueskill_refuted
* C131_provisional_uscf_refuted
* C131_rematch_dwz
* C131_rematch_elo
* C131_rematch_fifa
* C131_rematch_glicko
* C131_rematch_ingo
* C131_rematch_trueskill_favourite
* C131_rematch_uscf
* C131_rematch_weng_lin
* C131_underdog_egf
* C131_underdog_glicko
* C131_underdog_glicko2
* C131_underdog_trueskill
* C131_underdog_weng_lin
* C132_elo_dwz
* C132_elo_fifa
* C132_elo_ingo
* C132_elo_uscf
* C132_glicko_glicko2
* C132_weng_lin_trueskill
* C133_draw_boost
* C133_draw_dwz
* C133_draw_egf_partial
* C133_draw_elo
* C133_draw_fifa
* C133_draw_glicko
* C133_draw_glicko2
* C133_draw_ingo
* C133_draw_sticko
* C133_draw_trueskill_teams
* C133_draw_uscf
* C133_draw_weng_lin
* C133_draw_weng_lin_teams
* C133_equal_egf_refuted
* C133_equal_sticko_refuted
* C133_tie_weng_lin_multi
* C134_favourite_glicko_refuted
* C134_favourite_weng_lin_refuted
* C134_fresh_glicko_refuted
* C134_uncertain_boost
* C134_uncertain_glicko
* C134_uncertain_sticko
* C134_uncertain_trueskill_partial
* C134_uncertain_weng_lin
* C135_equal_boost
* C135_equal_glicko
* C135_equal_glicko2
* C135_equal_sticko
* C135_favourite_glicko_refuted
* C135_more_glicko
* C135_more_sticko
* C136_equally_certain_trueskill_partial
* C136_trueskill_refuted
* C137_certain_quality
* C137_certain_quality_refuted
* C137_closer_quality
* C138_first_dwz_better
* C138_first_dwz_order
* C138_one_more_game_refuted
* C139_dwz_draws
* C139_glicko_draws
* C139_ingo_settles
* C139_sticko_draws
* C139_uscf_draws
* C139_weng_lin_draws
* C13_egf_update
* C140_glicko2_career
* C140_glicko2_farming
* C140_glicko_farming
* C140_trueskill_farming
* C140_weng_lin_farming
* C141_one_more_team
* C141_trueskill_one_more_player
* C141_trueskill_one_more_player_refuted
* C141_weng_lin_one_more_player
* C141_weng_lin_one_more_player_refuted
* C142_limit_trueskill
* C142_limit_weng_lin
* C142_pull_boost
* C142_pull_glicko
* C142_pull_glicko2
* C142_pull_sticko
* C142_pull_trueskill
* C142_pull_weng_lin
* C142_trueskill_favourite_refuted
* C143_idle_boost
* C143_idle_forecast
* C143_idle_glicko
* C143_idle_glicko2
* C143_idle_sticko
* C144_boost_sweep
* C144_dwz_draws_pass_refuted
* C144_dwz_sweep
* C144_egf_sweep
* C144_glicko2_draws_pass_refuted
* C144_glicko2_returns
* C144_glicko2_sweep
* C144_glicko_draws_pass_refuted
* C144_glicko_sweep
* C144_ingo_sweep
* C144_sticko_sweep
* C144_uscf_better
* C144_uscf_not_better
* C144_uscf_provisional
* C145_large_game
* C145_team_shares
* C146_sum_of_pairs
* C147_elo_forgets
* C147_fifa_forgets
* C147_fifa_knockout_refuted
* C147_ingo_forgets
* C147_uscf_forgets
* C148_elo_calibrated
* C148_fifa_calibrated
* C148_ingo_calibrated
* C149_elo_later
* C149_elo_orders
* C149_fifa_orders
* C149_ingo_later
* C14_egf_floor_partial
* C14_egf_period_floor_refuted
* C150_egf_split
* C150_ingo_split
* C150_uscf_split
* C15_egf_win_partial
* C15_egf_win_refuted
* C16_egf_mirror
* C17_dwz_coefficient
* C18_dwz_direction
* C18_dwz_update
* C20_dwz_first_errors
* C21_dwz_first_value
* C21_dwz_inverted_refuted
* C22_dwz_period_empty
* C22_dwz_period_formula
* C22_dwz_period_order
* C22_dwz_period_single
* C23_ingo_update
* C24_ingo_period_empty_refuted
* C24_ingo_period_formula
* C24_ingo_period_perm
* C24_ingo_period_single
* C25_ingo_expected_partial
* C25_ingo_expected_refuted
* C26_glicko_update
* C27_glicko_deviation
* C27_glicko_period_deviation
* C28_glicko_direction
* C29_glicko_period_formula
* C29_glicko_period_order
* C29_glicko_period_single
* C30_glicko_decay
* C31_boost_confidence
* C31_glicko2_confidence
* C31_glicko_confidence
* C31_sticko_confidence
* C32_sticko_glicko_expected
* C32_sticko_glicko_game
* C32_sticko_glicko_period
* C33_sticko_direction
* C33_sticko_order
* C33_sticko_period
* C33_sticko_range
* C33_sticko_update
* C34_boost_glicko_partial
* C34_boost_glicko_refuted
* C35_boost_order
* C35_boost_period
* C35_boost_period_range
* C35_boost_range
* C35_boost_update
* C36_boost_expected_colour_refuted
* C37_glicko2_bracket
* C38_glicko2_volatility
* C39_glicko2_period
* C39_glicko2_update
* C40_glicko2_almost_all
* C40_glicko2_period_almost_all
* C40_glicko2_period_simple
* C40_glicko2_period_terminates
* C40_glicko2_simple
* C40_glicko2_terminates
* C41_glicko2_decay
* C41_glicko2_order
* C41_glicko2_single
* C42_weng_lin_1v1
* C43_weng_lin_multi_two
* C43_weng_lin_single
* C44_weng_lin_permutation
* C45_weng_lin_expected
* C45_weng_lin_expected_multi
* C45_weng_lin_expected_single
* C45_weng_lin_expected_teams
* C46_weng_lin_direction
* C46_weng_lin_formula
* C47_wl_f64_partial
* C47_wl_f64_refuted
* C49_ts_weights_default
* C50_ts_1v1
* C51_ts_two_formula
* C51_ts_two_single
* C51_ts_two_swap_partial
* C51_ts_two_swap_range_partial
* C51_ts_two_swap_refuted
* C52_ts_multi_panic_refuted
* C52_ts_multi_total
* C53_ts_graph_huge_upset_refuted
* C53_ts_graph_two_decided_partial
* C53_ts_graph_two_default_partial
* C53_ts_graph_two_drawn_partial
* C53_ts_graph_two_teams_partial
* C54_ts_expected
* C54_ts_expected_mono_partial
* C54_ts_expected_mono_refuted
* C54_ts_expected_multi
* C54_ts_expected_one_team
* C54_ts_expected_period
* C54_ts_expected_teams
* C55_ts_quality
* C55_ts_quality_teams
* C56_ts_quality_multi_panic_refuted
* C56_ts_quality_multi_range
* C56_ts_quality_multi_value
* C58_ts_decided_partial
* C58_ts_decided_team_partial
* C58_ts_draw_partial
* C58_ts_draw_refuted
* C58_ts_draw_team_partial
* C58_ts_uncertainty_refuted
* C59_ts_margin
* C59_ts_margin_probability
* C59_ts_rank
* C61_conversions_elo
* C61_conversions_formula
* C61_conversions_mono
* C62_swap_glicko
* C62_swap_reals
* C62_swap_ts_partial
* C63_expected_period_glicko2
* C64_rating_default
* C65_outcomes
* C66_f64_expected_boost
* C66_f64_expected_dwz
* C66_f64_expected_egf
* C66_f64_expected_elo
* C66_f64_expected_fifa
* C66_f64_expected_glicko
* C66_f64_expected_period
* C66_f64_expected_sticko
* C66_f64_expected_uscf
* C66_f64_expected_wl_multi
* C66_f64_expected_wl_teams
* C67_f64_elo_direction
* C67_f64_elo_draw
* C67_f64_elo_finite
* C68_f64_decay_cap
* C68_f64_egf_floor
* C68_f64_games_cap
* C68_f64_uscf_floor
* C69_f64_knockout
* C69_f64_knockout_period
* C71_ingo_direction
* C72_uscf_direction
* C73_egf_period
* C74_dwz_index_zero_refuted
* C75_boost_expected
* C75_glicko2_expected
* C75_glicko_expected
* C75_sticko_expected
* C76_sticko_expected_colour
* C77_weng_lin_conservation
* C78_ts_expected_swap_partial
* C78_ts_expected_swap_refuted
* C79_ts_zero_weight_nan
* C79_ts_zero_weight_refuted
* C80_default_configs
* C81_from_age
* C82_f64_elo_accuracy
* C84_ts_two_team_agree_partial
* C84_ts_two_team_agree_refuted
* C84_ts_two_team_decided_partial
* C84_ts_two_team_drawn_partial
* C85_ts_quality_multi_order
* C86_ts_expected_normal
* C86_ts_expected_normal_multi
* C86_ts_expected_normal_period
* C86_ts_expected_normal_teams
* C87_ts_draw_partial
* C87_ts_draw_refuted
* C87_ts_draw_zero_refuted
* C88_ts_beta_80_refuted
* C89_glicko2_runs_forever_refuted
* C90_egf_handicap_helps
* C90_egf_stone
* C91_egf_handicap_refuted
* C91_egf_streak_refuted
* C92_reach_boost
* C92_reach_dwz
* C92_reach_elo
* C92_reach_fifa
* C92_reach_glicko
* C92_reach_glicko2
* C92_reach_ingo
* C92_reach_sticko
* C92_reach_trueskill_partial
* C92_reach_uscf_partial
* C92_reach_weng_lin
* C93_elo_season
* C94_stronger_boost_refuted
* C94_stronger_dwz
* C94_stronger_egf
* C94_stronger_elo
* C94_stronger_fifa
* C94_stronger_glicko
* C94_stronger_glicko2
* C94_stronger_ingo
* C94_stronger_sticko
* C94_stronger_trueskill_almost_partial
* C94_stronger_trueskill_partial
* C94_stronger_trueskill_refuted
* C94_stronger_uscf
* C94_stronger_weng_lin
* C95_order_boost_partial
* C95_order_boost_refuted
* C95_order_dwz
* C95_order_dwz_refuted
* C95_order_egf
* C95_order_elo
* C95_order_elo_refuted
* C95_order_fifa
* C95_order_fifa_refuted
* C95_order_glicko
* C95_order_glicko2_partial
* C95_order_ingo
* C95_order_sticko_partial
* C95_order_sticko_refuted
* C95_order_trueskill_partial
* C95_order_trueskill_refuted
* C95_order_uscf_partial
* C95_order_uscf_refuted
* C95_order_weng_lin
* C96_boost_helps_partial
* C96_boost_refuted
* C97_f64_boost
* C97_f64_dwz
* C97_f64_egf
* C97_f64_fifa
* C97_f64_glicko
* C97_f64_glicko_period
* C97_f64_ingo
* C97_f64_sticko
* C97_f64_uscf
* C97_f64_weng_lin
* C97_f64_weng_lin_multi
* C97_f64_weng_lin_period
* C97_f64_weng_lin_teams
* C98_f64_boost
* C98_f64_dwz
* C98_f64_fifa
* C98_f64_glicko
* C98_f64_glicko_period
* C98_f64_sticko
* C98_f64_uscf
* C98_f64_weng_lin
* C98_f64_weng_lin_multi
* C98_f64_weng_lin_period
* C98_f64_weng_lin_teams
* C99_ts_team_mates
