{"id": "C01", "title": "Elo computes the published Elo update", "statement": "For every pair of finite ratings, every k and every outcome, elo() returns r1 + k*(S1 - E1) and r2 + k*(S2 - E2), where E = 1/(1+10^((opponent-own)/400)), S is 1 / 0.5 / 0 for a win / draw / loss and S2 = 1 - S1. The result is always a finite number.", "quantifier": "all finite ratings r1, r2, all k, all three outcomes", "why_tests_cant": "Ranges over a continuum of ratings and configurations; unit tests check a handful of rounded values.", "anchors": ["src/elo.rs: elo, expected_score", "src/lib.rs: Outcomes::to_chess_points"]}
{"id": "C02", "title": "Elo conserves rating points", "statement": "In every Elo match the two players' ratings have the same sum before and after, whatever k is used.", "quantifier": "all ratings, k, outcomes", "why_tests_cant": "Ranges over a continuum of ratings and configurations; unit tests check a handful of rounded values.", "anchors": ["src/elo.rs: elo"]}
{"id": "C03", "title": "Elo expected scores are probabilities", "statement": "expected_score() returns two numbers strictly between 0 and 1 that add up to 1; swapping the players swaps the numbers; equal ratings give exactly 0.5 each; raising one's own rating strictly raises one's own expectation; adding the same number to both ratings changes nothing.", "quantifier": "all pairs of ratings", "why_tests_cant": "Ranges over a continuum of ratings and configurations; unit tests check a handful of rounded values.", "anchors": ["src/elo.rs: expected_score"]}
{"id": "C04", "title": "Elo rewards winning and bounds the change", "statement": "With k > 0 a win strictly raises the winner and strictly lowers the loser, a win is strictly better than a draw and a draw strictly better than a loss, a draw moves points from the higher to the lower rated player, and no single game changes a rating by k or more.", "quantifier": "all ratings, all k > 0, all outcomes", "why_tests_cant": "Ranges over a continuum of ratings and configurations; unit tests check a handful of rounded values.", "anchors": ["src/elo.rs: elo"]}
{"id": "C05", "title": "An Elo rating period is the games played one after the other", "statement": "elo_rating_period over a list of results gives exactly the rating obtained by calling elo() once per result in order and keeping the player's new rating; the empty list returns the player unchanged; rating two lists in succession equals rating their concatenation.", "quantifier": "all players, all result lists of every length, all configs", "why_tests_cant": "Quantifies over lists of unbounded length.", "anchors": ["src/elo.rs: elo_rating_period, elo"]}
{"id": "C06", "title": "FIFA computes the published SUM update", "statement": "Without penalties and knock-out, fifa() returns P + I*(W - We) for both teams, with We = 1/(10^(-dr/600)+1) and dr the rating difference; points are conserved.", "quantifier": "all ratings, all importance factors, all outcomes", "why_tests_cant": "Ranges over a continuum of ratings and configurations; unit tests check a handful of rounded values.", "anchors": ["src/fifa.rs: fifa, expected_score"]}
{"id": "C07", "title": "FIFA knock-out protection", "statement": "With knockout set, neither team's rating is ever lower after fifa() than before, and over a whole rating period a player whose matches are all knock-out matches never ends lower than they started; a knock-out result that gains points is unaffected by the flag.", "quantifier": "all ratings, all importance factors, all outcomes, penalties on or off, all period lengths", "why_tests_cant": "Unbounded histories and all real inputs.", "anchors": ["src/fifa.rs: fifa, fifa_rating_period"]}
{"id": "C08", "title": "FIFA penalty shoot-outs: winner 0.75, loser treated as a draw", "statement": "With penalties set, the team that won the shoot-out is scored 0.75 and the team that lost is scored exactly as in a draw, whichever of the two teams is listed first.", "quantifier": "all ratings, all importance factors, all outcomes", "why_tests_cant": "The documented rule must hold for both argument orders; tests only exercise some of them.", "anchors": ["src/fifa.rs: fifa, FifaConfig::penalties"]}
{"id": "C09", "title": "USCF ratings never fall below 100", "statement": "No rating function of the module ever returns a rating below the documented minimum of 100, whatever the inputs.", "quantifier": "all ratings, game counts, outcomes, configs, result lists", "why_tests_cant": "A floor has to hold for all inputs.", "anchors": ["src/uscf.rs: uscf, uscf_rating_period, USCFRating"]}
{"id": "C10", "title": "USCF provisional and established formulas", "statement": "A player with at most 8 past games is rated by the provisional formula (N0*R0 + m*Ro + 400*(W-L))/(N0+m) and a player with 9 or more by R0 + K*(S-E) + bonus with K = 800/(Ne+m) and Ne = min(N0, 50, 50/sqrt(0.662+0.00000739*(2569-R0)^2)) below 2355 and min(N0,50) from 2355 on; the two players of a match are classified independently.", "quantifier": "all ratings, all game counts, all outcomes, all t", "why_tests_cant": "Ranges over a continuum of ratings and configurations; unit tests check a handful of rounded values.", "anchors": ["src/uscf.rs: uscf, new_rating_provisional, new_rating, effective_game_number"]}
{"id": "C11", "title": "USCF game counters", "statement": "Each match adds exactly 1 to both players' game counts, a rating period adds exactly the number of results, and an empty period returns the player unchanged.", "quantifier": "all players, all result lists", "why_tests_cant": "Unbounded list lengths.", "anchors": ["src/uscf.rs: uscf, uscf_rating_period"]}
{"id": "C12", "title": "USCF bonus points", "statement": "The bonus is never negative, is zero whenever fewer than 3 games are played in the event, and for 3 or more games equals max(0, K*(S-E) - t*sqrt(min(m,4))).", "quantifier": "all event sizes, scores, ratings and t", "why_tests_cant": "Ranges over a continuum of ratings and configurations; unit tests check a handful of rounded values.", "anchors": ["src/uscf.rs: get_boost_value, uscf_rating_period"]}
{"id": "C13", "title": "EGF computes the published update and expectation", "statement": "For ratings below 3300 (and handicap-adjusted ratings below 3300) egf() returns r + con*(S-E) + bonus floored at -900 with con=((3300-r)/200)^1.6, bonus=ln(1+exp((2300-r)/80))/5, and expectation 1/(1+exp(beta(opponent)-beta(own))), beta(r)=-7*ln(3300-r) with handicap shift 100*(h-0.5) for the player who gives the stones; the two expectations lie strictly between 0 and 1 and sum to 1.", "quantifier": "all ratings < 3300, all admissible handicaps, all outcomes", "why_tests_cant": "Ranges over a continuum of ratings and configurations; unit tests check a handful of rounded values.", "anchors": ["src/egf.rs: egf, expected_score, con, bonus, beta, new_rating"]}
{"id": "C14", "title": "EGF ratings never fall below -900", "statement": "No rating function of the module ever returns a rating below -900, the documented lowest possible rating, whatever the inputs.", "quantifier": "all ratings, outcomes, configs and result lists", "why_tests_cant": "A floor has to hold for all inputs and all list lengths.", "anchors": ["src/egf.rs: egf, egf_rating_period, new_rating"]}
{"id": "C15", "title": "EGF update is defined for every rating", "statement": "For every finite rating a win never makes a player's rating drop.", "quantifier": "all finite ratings", "why_tests_cant": "The failing region (ratings above 3300) is far from the tested values.", "anchors": ["src/egf.rs: con, beta, new_rating"]}
{"id": "C16", "title": "EGF handicap mirror symmetry", "statement": "Swapping the players, inverting the outcome and negating the handicap swaps the returned ratings.", "quantifier": "all ratings < 3300, all handicaps, all outcomes", "why_tests_cant": "Ranges over a continuum of ratings and configurations; unit tests check a handful of rounded values.", "anchors": ["src/egf.rs: egf, expected_score"]}
{"id": "C17", "title": "DWZ development coefficient bounds", "statement": "The effective development coefficient used by dwz() is between 5 and 150 for every player that has completed at least one event, and at most min(30, 5*index) unless the brake for weak losing players applies; hence one game never moves a rating by more than 800/6 points.", "quantifier": "all ratings, ages, indices >= 1, outcomes", "why_tests_cant": "Ranges over a continuum of ratings and configurations; unit tests check a handful of rounded values.", "anchors": ["src/dwz.rs: dwz, e_value, new_rating"]}
{"id": "C18", "title": "DWZ computes the published update and rewards winning", "statement": "dwz() returns r + 800/(E+1)*(S-We), with E built from age class, acceleration and brake as published; a win strictly raises and a loss strictly lowers the rating.", "quantifier": "all ratings, ages, indices >= 1, outcomes", "why_tests_cant": "Ranges over a continuum of ratings and configurations; unit tests check a handful of rounded values.", "anchors": ["src/dwz.rs: dwz, e_value, expected_score"]}
{"id": "C19", "title": "DWZ bookkeeping", "statement": "Each match and each rating period (of any number of games) adds exactly 1 to the index and leaves the age unchanged.", "quantifier": "all players and result lists", "why_tests_cant": "Unbounded lists.", "anchors": ["src/dwz.rs: dwz, dwz_rating_period"]}
{"id": "C20", "title": "get_first_dwz error conditions are exact", "statement": "get_first_dwz returns NotEnoughGames if and only if fewer than 5 results are given, InvalidWinRate if and only if at least 5 results are given and all are wins or all are losses, and a rating otherwise.", "quantifier": "all ages and result lists", "why_tests_cant": "Unbounded lists.", "anchors": ["src/dwz.rs: get_first_dwz, GetFirstDWZError"]}
{"id": "C21", "title": "get_first_dwz value", "statement": "When it succeeds, the rating is the average opponent rating plus the official probability-table value for the rounded percentage (the table look-up never misses), revised to 700 + r/8 when it would be at most 800; index is 1 and age is the given age; inverting all outcomes mirrors the table value.", "quantifier": "all ages and result lists of at least 5 results", "why_tests_cant": "Unbounded lists, percentages of every denominator.", "anchors": ["src/dwz.rs: get_first_dwz"]}
{"id": "C22", "title": "DWZ rating period is order-independent and extends dwz()", "statement": "dwz_rating_period does not depend on the order of the results, and for one result it equals dwz(); an empty period keeps the rating.", "quantifier": "all players with index >= 1 and all result lists", "why_tests_cant": "All permutations of unbounded lists.", "anchors": ["src/dwz.rs: dwz_rating_period"]}
{"id": "C23", "title": "Ingo computes the published update", "statement": "ingo() returns (perf + r*D)/(1+D) with perf = opponent - (100*S - 50) and D = 10/15/20 by age class (<=20, 21..25, >25); the new rating lies between the old rating and the performance; ages are unchanged.", "quantifier": "all ratings, ages, outcomes", "why_tests_cant": "Ranges over a continuum of ratings and configurations; unit tests check a handful of rounded values.", "anchors": ["src/ingo.rs: ingo, performance, age_to_devcoefficent"]}
{"id": "C24", "title": "Ingo rating period", "statement": "ingo_rating_period equals the published tournament formula, does not depend on the order of results, equals ingo() for a single result, and leaves a player without games unchanged.", "quantifier": "all players and result lists including the empty one", "why_tests_cant": "All permutations of unbounded lists and the empty list.", "anchors": ["src/ingo.rs: ingo_rating_period"]}
{"id": "C25", "title": "Ingo expected scores are probabilities", "statement": "expected_score returns two numbers between 0 and 1 that add up to 1.", "quantifier": "all pairs of ratings", "why_tests_cant": "Ranges over a continuum of ratings and configurations; unit tests check a handful of rounded values.", "anchors": ["src/ingo.rs: expected_score"]}
{"id": "C26", "title": "Glicko computes Glickman's update", "statement": "For all ratings and positive deviations glicko() returns the rating and deviation of Glickman's Glicko formulas, with the player's own deviation inflated to min(sqrt(RD^2+c^2),350) and the opponent's deviation used in g as given; all results are finite.", "quantifier": "all ratings, all positive deviations, all c, all outcomes", "why_tests_cant": "Ranges over a continuum of ratings and configurations; unit tests check a handful of rounded values.", "anchors": ["src/glicko.rs: glicko, g_value, e_value, d_value, new_rating, new_deviation"]}
{"id": "C27", "title": "Glicko deviation after playing", "statement": "After a match each deviation is positive, at most 350 and strictly smaller than the inflated pre-match deviation.", "quantifier": "all ratings, positive deviations, c, outcomes", "why_tests_cant": "Ranges over a continuum of ratings and configurations; unit tests check a handful of rounded values.", "anchors": ["src/glicko.rs: glicko, glicko_rating_period"]}
{"id": "C28", "title": "Glicko rewards winning", "statement": "A win strictly raises the winner's rating, a loss strictly lowers it, and for fixed opponents win > draw > loss.", "quantifier": "all ratings, positive deviations, c", "why_tests_cant": "Ranges over a continuum of ratings and configurations; unit tests check a handful of rounded values.", "anchors": ["src/glicko.rs: glicko"]}
{"id": "C29", "title": "Glicko rating period", "statement": "glicko_rating_period equals Glickman's rating-period formula, does not depend on the order of results, equals the first component of glicko() for a single result and equals decay_deviation for no results.", "quantifier": "all players and result lists", "why_tests_cant": "All permutations of unbounded lists.", "anchors": ["src/glicko.rs: glicko_rating_period, glicko, decay_deviation"]}
{"id": "C30", "title": "Glicko deviation decay", "statement": "decay_deviation keeps the rating, never lowers a deviation of at most 350, never exceeds 350, and n periods of inactivity give min(sqrt(RD^2+n*c^2),350).", "quantifier": "all players, all c, every number of inactive periods", "why_tests_cant": "Unbounded number of periods.", "anchors": ["src/glicko.rs: decay_deviation"]}
{"id": "C31", "title": "Confidence intervals", "statement": "confidence_interval of Glicko, Glicko-2, Sticko and Glicko-Boost is (r - 1.96*RD, r + 1.96*RD): centred on the rating, ordered for RD >= 0, and wider for larger RD.", "quantifier": "all ratings and deviations", "why_tests_cant": "Ranges over a continuum of ratings and configurations; unit tests check a handful of rounded values.", "anchors": ["src/glicko.rs, src/glicko2.rs, src/sticko.rs, src/glicko_boost.rs: confidence_interval"]}
{"id": "C32", "title": "Sticko generalises Glicko", "statement": "With h, beta, lambda and gamma all 0 and equal c, sticko, sticko_rating_period, expected_score, expected_score_rating_period and decay_deviation give exactly the Glicko results (documented claim).", "quantifier": "all ratings, positive deviations, c, outcomes, result lists", "why_tests_cant": "Universally quantified documented equivalence.", "anchors": ["src/sticko.rs: sticko, sticko_rating_period, StickoConfig", "src/glicko.rs"]}
{"id": "C33", "title": "Sticko computes the published update and stays in range", "statement": "For all ratings, positive deviations and non-negative h, sticko() and sticko_rating_period give the published Stephenson formulas; deviations stay positive and at most 350.", "quantifier": "all ratings, positive deviations, all beta, gamma, lambda, h >= 0, c", "why_tests_cant": "Ranges over a continuum of ratings and configurations; unit tests check a handful of rounded values.", "anchors": ["src/sticko.rs: sticko, sticko_rating_period, new_deviation, new_rating"]}
{"id": "C34", "title": "Glicko-Boost with eta = 0 behaves exactly like Glicko", "statement": "Documented claim: with eta set to 0 (optionally k and b also 0) glicko_boost gives the glicko() result.", "quantifier": "all ratings and deviations", "why_tests_cant": "Documented universal claim; one counterexample settles it, no test compares the two.", "anchors": ["src/glicko_boost.rs: GlickoBoostConfig, glicko_boost", "src/glicko.rs: glicko"]}
{"id": "C35", "title": "Glicko-Boost update formula and deviation range", "statement": "glicko_boost and glicko_boost_rating_period give the published formulas (boost applied exactly when Z exceeds k and k is not 0); deviations stay positive and at most 350; a win raises the rating and a loss lowers it.", "quantifier": "all ratings, positive deviations, configs with non-negative b and k", "why_tests_cant": "Ranges over a continuum of ratings and configurations; unit tests check a handful of rounded values.", "anchors": ["src/glicko_boost.rs: glicko_boost, new_deviation, boost_rd, glicko_boost_rating_period"]}
{"id": "C36", "title": "Glicko-Boost expected scores respect who had the advantage", "statement": "expected_score_rating_period gives a player without the advantage (flag false) the expectation with -eta, consistently with expected_score called from the opponent's side.", "quantifier": "all players and opponents lists with flags", "why_tests_cant": "Needs both flag values; the tests' default traits always pass true.", "anchors": ["src/glicko_boost.rs: expected_score_rating_period, expected_score"]}
{"id": "C37", "title": "Glicko-2 bracketing loop terminates", "statement": "For every tau > 0 the search for the lower volatility bracket stops after at most max(1, ceil(tau/2)) steps, so for tau <= 2 (hence all recommended values) immediately.", "quantifier": "all volatilities > 0, deviations, variances, tau > 0", "why_tests_cant": "Termination for every input.", "anchors": ["src/glicko2.rs: new_volatility, f_value"]}
{"id": "C38", "title": "Glicko-2 volatility solves Glickman's equation", "statement": "Whenever the volatility iteration stops, the returned volatility sigma' satisfies |2*ln(sigma') - x*| <= tolerance for some zero x* of Glickman's function f, and is positive.", "quantifier": "all volatilities > 0, deviations > 0, tau > 0, tolerance >= 0, all results", "why_tests_cant": "Convergence claim for every input and every number of iterations.", "anchors": ["src/glicko2.rs: new_volatility, f_value"]}
{"id": "C39", "title": "Glicko-2 computes Glickman's update", "statement": "Given that volatility, glicko2() returns the rating and deviation of Glickman's Glicko-2 paper on the original scale; the new deviation is positive; a win strictly raises and a loss strictly lowers the rating.", "quantifier": "all ratings, positive deviations and volatilities, outcomes", "why_tests_cant": "Ranges over a continuum of ratings and configurations; unit tests check a handful of rounded values.", "anchors": ["src/glicko2.rs: glicko2, new_deviation, new_rating, v_value, delta_value"]}
{"id": "C40", "title": "Glicko-2 volatility iteration terminates for almost all inputs", "statement": "For every tau > 0, tolerance > 0, ratings, deviations and results, glicko2 and glicko2_rating_period return for all starting volatilities except at most two per player (those where Glickman's function has a multiple zero); they return for all volatilities when the squared standardised surprise is below 1 + 27/(2 tau^2). More iterations never change a result.", "quantifier": "all inputs with tau > 0 and tolerance > 0, exact arithmetic", "why_tests_cant": "Termination for every input.", "anchors": ["src/glicko2.rs: new_volatility"]}
{"id": "C41", "title": "Glicko-2 rating period and decay", "statement": "glicko2_rating_period does not depend on the order of results, equals glicko2().0 for a single result, and equals decay_deviation for none; decay_deviation keeps rating and volatility, caps the deviation at 350 and never lowers a deviation below the cap.", "quantifier": "all players and result lists", "why_tests_cant": "All permutations of unbounded lists.", "anchors": ["src/glicko2.rs: glicko2_rating_period, decay_deviation"]}
{"id": "C42", "title": "Weng-Lin 1v1 update", "statement": "weng_lin() computes the Weng-Lin Bradley-Terry full-pair update; the winner's rating rises, the loser's falls, each uncertainty stays positive and never grows, and never shrinks by more than the factor sqrt(tolerance); the changes satisfy d1/s1^2 = -d2/s2^2.", "quantifier": "all ratings, positive uncertainties, beta, tolerance in (0,1], outcomes", "why_tests_cant": "Ranges over a continuum of ratings and configurations; unit tests check a handful of rounded values.", "anchors": ["src/weng_lin.rs: weng_lin, p_value, new_rating, new_uncertainty"]}
{"id": "C43", "title": "Weng-Lin team functions agree with each other", "statement": "Two teams of one player each are rated exactly like a 1v1 game, and a two-team game rated with weng_lin_multi_team gives exactly the weng_lin_two_teams result for win, loss and draw.", "quantifier": "all teams of every size, all configs", "why_tests_cant": "Unbounded team sizes.", "anchors": ["src/weng_lin.rs: weng_lin, weng_lin_two_teams, weng_lin_multi_team"]}
{"id": "C44", "title": "Weng-Lin multi-team shape and equivariance", "statement": "weng_lin_multi_team returns as many teams as given, each of unchanged size and order; permuting the input teams permutes the output teams the same way; if any team is empty (or no teams are given) the teams are returned unchanged; only the relative order of ranks matters.", "quantifier": "all numbers and sizes of teams, all ranks", "why_tests_cant": "All permutations of unbounded inputs.", "anchors": ["src/weng_lin.rs: weng_lin_multi_team, weng_lin_two_teams"]}
{"id": "C45", "title": "Weng-Lin expected scores are probabilities", "statement": "expected_score, expected_score_two_teams and expected_score_multi_team return numbers in (0,1) that sum to 1 (for at least one team), equal teams get equal scores, and swapping or permuting teams permutes the scores.", "quantifier": "all numbers and sizes of teams", "why_tests_cant": "Unbounded inputs.", "anchors": ["src/weng_lin.rs: expected_score, expected_score_two_teams, expected_score_multi_team, p_value"]}
{"id": "C46", "title": "Weng-Lin multi-team direction", "statement": "In a multi-team game every player of a team ranked strictly ahead of all others gains rating and every player of a team ranked strictly behind all others loses rating; uncertainties never grow and stay positive.", "quantifier": "all numbers and sizes of teams, all ranks, positive uncertainties", "why_tests_cant": "Unbounded inputs.", "anchors": ["src/weng_lin.rs: weng_lin_multi_team"]}
{"id": "C47", "title": "Weng-Lin results are never NaN for finite ratings (IEEE-754)", "statement": "For all finite f64 ratings and positive finite uncertainties, expected_score returns finite numbers between 0 and 1.", "quantifier": "all finite f64 inputs", "why_tests_cant": "Overflow region not covered by tests.", "anchors": ["src/weng_lin.rs: p_value"]}
{"id": "C48", "title": "Weng-Lin rating period is the games in sequence", "statement": "weng_lin_rating_period equals repeated weng_lin() calls in order; empty list is the identity; concatenation law.", "quantifier": "all players and result lists", "why_tests_cant": "Unbounded lists.", "anchors": ["src/weng_lin.rs: weng_lin_rating_period, weng_lin"]}
{"id": "C49", "title": "TrueSkill weight validation", "statement": "trueskill_multi_team and match_quality_multi_team reject weights exactly when the number of teams differs, a team's number of weights differs, or a weight is negative, reporting the first offending team/player in order; otherwise they accept; without weights every player counts with weight 1.", "quantifier": "all team shapes and weight tables", "why_tests_cant": "Unbounded shapes.", "anchors": ["src/trueskill/weights.rs: get_weights, WeightError"]}
{"id": "C50", "title": "TrueSkill 1v1 update", "statement": "trueskill() computes the published two-player update from the module's v and w functions; the winner's rating strictly rises and the loser's strictly falls in a decided game, and in every game the changes satisfy d1/(s1^2+tau^2) = -d2/(s2^2+tau^2).", "quantifier": "all ratings, positive uncertainties, configs, outcomes", "why_tests_cant": "Ranges over a continuum of ratings and configurations; unit tests check a handful of rounded values.", "anchors": ["src/trueskill/mod.rs: trueskill", "src/trueskill/math.rs"]}
{"id": "C51", "title": "TrueSkill two-team function extends the 1v1 function", "statement": "Two teams of one player each are rated exactly as by trueskill(); sizes and order of teams are preserved; an empty team returns both teams unchanged; swapping teams and inverting the outcome swaps the result.", "quantifier": "all teams of every size, configs, outcomes", "why_tests_cant": "Unbounded team sizes.", "anchors": ["src/trueskill/mod.rs: trueskill_two_teams, trueskill"]}
{"id": "C52", "title": "TrueSkill multi-team shape", "statement": "When it returns ratings, trueskill_multi_team returns one team per input team, in the input order and with the input sizes; empty input and inputs with an empty team are returned unchanged; it never panics.", "quantifier": "all numbers and sizes of teams, ranks, weights", "why_tests_cant": "Unbounded inputs; includes the single-team corner case.", "anchors": ["src/trueskill/mod.rs: trueskill_multi_team", "src/trueskill/schedule.rs: run_schedule"]}
{"id": "C53", "title": "TrueSkill factor graph for two teams equals the closed form", "statement": "For two teams of any sizes and a decided or drawn result, the message-passing schedule of trueskill_multi_team yields exactly the closed-form truncated-Gaussian update with c^2 = sum(s^2+tau^2)+n*beta^2.", "quantifier": "all team sizes, ratings, uncertainties, configs", "why_tests_cant": "Unbounded team sizes.", "anchors": ["src/trueskill/schedule.rs: run_schedule", "src/trueskill/factor_graph.rs"]}
{"id": "C54", "title": "TrueSkill expected scores are probabilities", "statement": "expected_score, expected_score_two_teams, expected_score_rating_period return numbers strictly between 0 and 1, pairs sum to 1, and expected_score_multi_team sums to 1 over at least two teams; a higher own rating never gives a lower expectation.", "quantifier": "all ratings, uncertainties, team shapes", "why_tests_cant": "Continuum and unbounded inputs.", "anchors": ["src/trueskill/mod.rs: expected_score, expected_score_two_teams, expected_score_multi_team", "src/trueskill/erf.rs: cdf, erfc"]}
{"id": "C55", "title": "TrueSkill match quality of two players or teams", "statement": "match_quality and match_quality_two_teams lie in (0,1], are symmetric in the two sides, are largest for equal ratings at fixed uncertainties, and agree for one-player teams.", "quantifier": "all ratings, uncertainties, beta > 0, team sizes", "why_tests_cant": "Ranges over a continuum of ratings and configurations; unit tests check a handful of rounded values.", "anchors": ["src/trueskill/mod.rs: match_quality, match_quality_two_teams"]}
{"id": "C56", "title": "TrueSkill multi-team match quality is total and a probability", "statement": "match_quality_multi_team returns a value between 0 and 1 for every list of teams, and for two teams agrees with match_quality_two_teams.", "quantifier": "all numbers and sizes of teams", "why_tests_cant": "Shape-dependent behaviour; tests only use three or more teams.", "anchors": ["src/trueskill/mod.rs: match_quality_multi_team", "src/trueskill/matrix.rs"]}
{"id": "C57", "title": "TrueSkill rating period is the games in sequence", "statement": "trueskill_rating_period equals repeated trueskill() calls in order; empty list is the identity; concatenation law.", "quantifier": "all players and result lists", "why_tests_cant": "Unbounded lists.", "anchors": ["src/trueskill/mod.rs: trueskill_rating_period, trueskill"]}
{"id": "C58", "title": "TrueSkill uncertainty stays a number", "statement": "For positive uncertainties and any non-negative dynamics factor, trueskill() returns a real, non-NaN uncertainty.", "quantifier": "all ratings, positive uncertainties, configs", "why_tests_cant": "Region where the variance update turns negative is not tested.", "anchors": ["src/trueskill/math.rs: new_uncertainty"]}
{"id": "C59", "title": "TrueSkill conservative rank and draw margin", "statement": "get_rank is rating - 3*uncertainty; the draw margin is non-negative for draw probabilities in [0,1], scales with sqrt(players)*beta, and makes the configured draw probability come true: a normal variable of variance players*beta^2 falls within the margin with the configured probability, up to 1.2e-5.", "quantifier": "all ratings, uncertainties, configs", "why_tests_cant": "Ranges over a continuum of ratings and configurations; unit tests check a handful of rounded values.", "anchors": ["src/trueskill/mod.rs: get_rank, draw_margin"]}
{"id": "C60", "title": "Traits delegate to the module functions", "statement": "For every system, RatingSystem::rate / expected_score, RatingPeriodSystem::rate / expected_score, TeamRatingSystem and MultiTeamRatingSystem methods return exactly what the corresponding module function returns with the stored config (with that config attached to each result for FIFA and EGF and colour white for Sticko and Glicko-Boost).", "quantifier": "all systems, players, outcomes, lists", "why_tests_cant": "All inputs, bit-for-bit.", "anchors": ["src/*.rs: impl RatingSystem / RatingPeriodSystem / TeamRatingSystem / MultiTeamRatingSystem"]}
{"id": "C61", "title": "Rating conversions round-trip", "statement": "Elo -> Ingo -> Elo, Elo -> USCF -> Elo, Elo -> FIFA -> Elo, Elo -> DWZ -> Elo and the Glicko family conversions return the original rating (and deviation); the Glicko family conversions and TrueSkill <-> Weng-Lin keep rating and deviation, a Glicko-2 rating made from another system getting volatility 0.06; conversions are strictly monotone (antitone for Ingo).", "quantifier": "all ratings, including both sides of the USCF branch points 2000 and 2060", "why_tests_cant": "Ranges over a continuum of ratings and configurations; unit tests check a handful of rounded values.", "anchors": ["src/elo.rs, src/uscf.rs, src/ingo.rs, src/dwz.rs, src/fifa.rs, src/glicko*.rs, src/sticko.rs: From impls"]}
{"id": "C62", "title": "Player-swap symmetry of 1v1 functions", "statement": "For Elo, FIFA (without penalties), USCF, DWZ, Ingo, Glicko, Glicko-2, Weng-Lin and TrueSkill (and Sticko / Glicko-Boost without advantage) swapping the two players and inverting the outcome swaps the two results.", "quantifier": "all players, outcomes, configs", "why_tests_cant": "Ranges over a continuum of ratings and configurations; unit tests check a handful of rounded values.", "anchors": ["src/*.rs: 1v1 rating functions"]}
{"id": "C63", "title": "Rating-period expectations agree with 1v1 expectations", "statement": "For every system expected_score_rating_period returns one number per opponent, in order, equal bit-for-bit to the first component of expected_score against that opponent.", "quantifier": "all players and opponent lists, in f64 arithmetic", "why_tests_cant": "Unbounded lists, bit-exact.", "anchors": ["src/*.rs: expected_score_rating_period, expected_score"]}
{"id": "C64", "title": "Generic Rating constructor and accessors", "statement": "Rating::new(Some(r), Some(u)) stores r (and u where the system has an uncertainty) so that rating() and uncertainty() read them back; None gives the documented default of the system.", "quantifier": "all systems and values", "why_tests_cant": "All values.", "anchors": ["src/*.rs: impl Rating"]}
{"id": "C65", "title": "Outcome scores and ranks", "statement": "to_chess_points is 1, 0.5, 0 and inverting an outcome gives one minus the points; MultiTeamOutcome round-trips through usize and compares like its rank.", "quantifier": "all outcomes and ranks", "why_tests_cant": "All ranks.", "anchors": ["src/lib.rs: Outcomes, MultiTeamOutcome"]}
{"id": "C66", "title": "Expectations in IEEE-754 double precision", "statement": "For all finite f64 ratings (no bound on their size) Elo, FIFA, USCF and DWZ expected scores are finite f64 numbers in [0,1], never NaN, given only that powf(10,.) returns a non-negative number or +inf. The same holds for Glicko, Sticko and Glicko-Boost with ratings (and advantages) up to 2^1000 and any deviations, infinite ones included, and for EGF ratings from -900 to 2399 with handicaps up to 9 stones or up to 3299 without handicap. Weng-Lin expectations of two teams and of any number of teams (up to 2^53, of up to 2^53 members) are in [0,1] when beta and the uncertainties lie in [2^-100, 2^100] and the team size times any member's |rating| is at most 400 beta.", "quantifier": "all finite f64 ratings, in the stated ranges", "why_tests_cant": "2^128 input pairs, including overflow.", "anchors": ["src/elo.rs, src/fifa.rs, src/uscf.rs, src/dwz.rs, src/glicko.rs, src/sticko.rs, src/glicko_boost.rs, src/egf.rs: expected_score"]}
{"id": "C67", "title": "Elo direction in IEEE-754 double precision", "statement": "For all finite f64 ratings and finite k >= 0, elo() never lowers the winner, never raises the loser, and win >= draw >= loss, with all rounding errors included.", "quantifier": "all finite f64 ratings and k", "why_tests_cant": "All f64 inputs.", "anchors": ["src/elo.rs: elo"]}
{"id": "C68", "title": "Floors and caps hold for every f64, including NaN and infinities", "statement": "uscf() ratings are >= 100, egf() ratings are >= -900, Glicko, Sticko, Glicko-Boost and Glicko-2 decayed deviations and the deviations returned by Sticko and Glicko-Boost games and rating periods are <= 350, for every f64 input including NaN and infinities.", "quantifier": "all f64 inputs", "why_tests_cant": "All bit patterns.", "anchors": ["src/uscf.rs: uscf", "src/egf.rs: new_rating", "src/glicko.rs: decay_deviation"]}
{"id": "C69", "title": "FIFA knock-out protection in IEEE-754", "statement": "With knockout set, fifa() and fifa_rating_period never return a rating that compares lower than the old one, for every f64 input including NaN and infinities.", "quantifier": "all f64 inputs", "why_tests_cant": "All bit patterns.", "anchors": ["src/fifa.rs: fifa, fifa_rating_period"]}
{"id": "C70", "title": "FIFA rating period is its matches in sequence", "statement": "fifa_rating_period equals playing the listed matches one after another with fifa(), always carrying the updated rating forward; the empty list is the identity.", "quantifier": "all players and result lists", "why_tests_cant": "Unbounded lists.", "anchors": ["src/fifa.rs: fifa_rating_period, fifa"]}
{"id": "C71", "title": "Ingo direction", "statement": "A win improves (lowers) the Ingo number exactly when the opponent is less than 50 points worse, a draw exactly when the opponent is better, a loss exactly when the opponent is more than 50 points better.", "quantifier": "all ratings, ages", "why_tests_cant": "Ranges over a continuum of ratings and configurations; unit tests check a handful of rounded values.", "anchors": ["src/ingo.rs: ingo, performance"]}
{"id": "C72", "title": "USCF rewards winning for established players", "statement": "For players with more than 8 games a win never lowers and a loss never raises the USCF rating.", "quantifier": "all ratings, game counts and configs", "why_tests_cant": "Ranges over a continuum of ratings and configurations; unit tests check a handful of rounded values.", "anchors": ["src/uscf.rs: uscf"]}
{"id": "C73", "title": "EGF rating period adds up single-game changes", "statement": "egf_rating_period adds the change of every single game, each computed from the rating at the start of the period.", "quantifier": "all players and result lists", "why_tests_cant": "Unbounded lists.", "anchors": ["src/egf.rs: egf_rating_period, egf"]}
{"id": "C74", "title": "DWZ coefficient is at least 5 for every index", "statement": "The development coefficient is at least 5 and an empty rating period keeps the rating for every index, including the index 0 that DWZRating::from((rating, 0)) allows.", "quantifier": "all ratings, ages, indices", "why_tests_cant": "Corner value of an integer field.", "anchors": ["src/dwz.rs: e_value, dwz_rating_period"]}
{"id": "C75", "title": "Glicko-family expected scores are probabilities", "statement": "expected_score of Glicko, Glicko-2, Sticko and Glicko-Boost lies strictly between 0 and 1, the two scores sum to 1, swapping the players swaps the scores (without advantage), the first exceeds 1/2 exactly when the first player (plus advantage) is rated higher, it rises with the own rating, and a larger deviation moves it towards 1/2.", "quantifier": "all ratings and deviations", "why_tests_cant": "Ranges over a continuum of ratings and configurations; unit tests check a handful of rounded values.", "anchors": ["src/glicko.rs, src/glicko2.rs, src/sticko.rs, src/glicko_boost.rs: expected_score"]}
{"id": "C76", "title": "Sticko period expectations respect colours", "statement": "expected_score_rating_period gives, for an opponent with flag true, the first score of expected_score(player, opponent) and, with flag false, the second score of expected_score(opponent, player).", "quantifier": "all players, configs and flagged opponent lists", "why_tests_cant": "Unbounded lists and both flag values.", "anchors": ["src/sticko.rs: expected_score_rating_period, expected_score"]}
{"id": "C77", "title": "Weng-Lin rating changes balance", "statement": "In every weng_lin_multi_team game all players of a team move by their squared uncertainty times one common number per team, and these numbers sum to zero over the teams.", "quantifier": "all numbers and sizes of teams, all ranks, positive uncertainties", "why_tests_cant": "Ranges over a continuum of ratings and configurations; unit tests check a handful of rounded values.", "anchors": ["src/weng_lin.rs: weng_lin_multi_team"]}
{"id": "C78", "title": "TrueSkill expected scores do not depend on the order of the players", "statement": "Swapping the two players swaps the two expected scores returned by trueskill::expected_score; in particular players of equal rating are expected to score 0.5 each.", "quantifier": "all ratings, uncertainties, beta > 0", "why_tests_cant": "The deviation is of size 3e-8 and lies inside the tolerance of the tests.", "anchors": ["src/trueskill/mod.rs: expected_score", "src/trueskill/erf.rs: erfc, cdf"]}
{"id": "C80", "title": "Default configurations are the documented ones", "statement": "Every Config::new() / default() has the documented field values (k 32, importance 10, t 14, handicap 0, c 63.2, tau 0.5, ...).", "quantifier": "all config types", "why_tests_cant": "The values feed every default calculation; tests compare only a few results.", "anchors": ["src/*.rs: impl ...Config::new"]}
{"id": "C81", "title": "Constructors keep their arguments", "statement": "From<f64> and From<tuple> put each component into the field of the same meaning; new(age) gives the documented start rating (USCF: 50 points per year of age between 2 and 26, 100 below, 1300 above).", "quantifier": "all values and ages", "why_tests_cant": "All values, all ages.", "anchors": ["src/*.rs: From impls", "src/uscf.rs: USCFRating::new", "src/dwz.rs: DWZRating::new", "src/ingo.rs: IngoRating::new"]}
{"id": "C82", "title": "Accuracy of Elo in double precision", "statement": "With a powf accurate to 2^-50, for all finite f64 ratings up to 10^4 in size and k up to 1000 in size, the expected scores returned by elo's expected_score differ from the exact Elo formula by at most 1e-12, and the ratings returned by elo() are finite and differ from the exact update by at most 1e-9.", "quantifier": "all f64 ratings in [-10^4, 10^4], all f64 k in [-1000, 1000], all outcomes", "why_tests_cant": "All f64 inputs in the range; the error bound covers all roundings.", "anchors": ["src/elo.rs: elo, expected_score"]}
{"id": "C79", "title": "A TrueSkill player of weight 0 still gets a numeric rating", "statement": "The documentation of trueskill_multi_team says weights lie between 0 and 1 and that a weight of 0.0 means the player has not played at all; with such a weight the function still returns ratings and uncertainties that are numbers for every player.", "quantifier": "all ratings, uncertainties, configurations", "why_tests_cant": "Needs the limiting behaviour of the message passing; tests use no zero weight.", "anchors": ["src/trueskill/mod.rs: trueskill_multi_team", "src/trueskill/factor_graph.rs: SumFactor"]}
{"id": "C83", "title": "The order of the teams given to trueskill_multi_team does not matter", "statement": "If all ranks are distinct, permuting the (team, rank, weights) entries of the input permutes the returned teams in the same way: every team gets the same new ratings, and errors and panics occur for both orders or neither.", "quantifier": "all numbers and sizes of teams, all permutations, any arithmetic", "why_tests_cant": "All permutations of unbounded inputs.", "anchors": ["src/trueskill/mod.rs: trueskill_multi_team", "src/trueskill/schedule.rs: run_schedule"]}
{"id": "C84", "title": "trueskill_multi_team on two teams agrees with trueskill_two_teams", "statement": "For two non-empty teams and default weights, trueskill_multi_team returns the same new ratings as trueskill_two_teams for the same outcome and configuration.", "quantifier": "all ratings, uncertainties, team sizes, ranks, configurations", "why_tests_cant": "Two different algorithms (closed form and message passing) over a continuum.", "anchors": ["src/trueskill/mod.rs: trueskill_multi_team, trueskill_two_teams"]}
{"id": "C85", "title": "The order of the teams does not change the multi-team match quality", "statement": "For three or more teams, permuting the teams together with their weights leaves match_quality_multi_team unchanged, although the algorithm only compares neighbouring teams.", "quantifier": "all numbers and sizes of teams, all permutations", "why_tests_cant": "All permutations of unbounded inputs; the matrices differ for each order.", "anchors": ["src/trueskill/mod.rs: match_quality_multi_team", "src/trueskill/matrix.rs"]}
{"id": "C86", "title": "TrueSkill expected scores are normal probabilities", "statement": "expected_score, expected_score_two_teams and expected_score_rating_period return, up to 5.1e-6, the normal probability Phi((mu1-mu2)/sqrt(n*beta^2+sum of squared uncertainties)) with Phi the integral of the normal density, although the code uses a polynomial fit of erfc; expected_score_multi_team returns the average of the pairwise probabilities, scaled to sum to 1, up to 1.6e-5.", "quantifier": "all ratings, uncertainties, team sizes, beta > 0", "why_tests_cant": "The error of the fit must be bounded over the whole real line; tests compare a few values with the code's own output.", "anchors": ["src/trueskill/mod.rs: expected_score, expected_score_two_teams, expected_score_multi_team, expected_score_rating_period", "src/trueskill/erf.rs: erfc, cdf"]}
{"id": "C87", "title": "A TrueSkill draw moves the players towards each other", "statement": "After a drawn trueskill() game the higher rated player's rating has strictly fallen and the lower rated player's has strictly risen, whatever the rating difference; players of equal rating keep their ratings.", "quantifier": "all ratings, uncertainties, configurations", "why_tests_cant": "Holds or fails depending on the relation of draw margin and uncertainty over a continuum.", "anchors": ["src/trueskill/mod.rs: trueskill, draw_margin", "src/trueskill/math.rs: v_draw"]}
{"id": "C88", "title": "A TrueSkill rating difference of beta means an 80% chance to win", "statement": "TrueSkillConfig's documentation calls beta the number of rating points needed for an 80% win probability: a player rated beta points above the opponent has an expected score of 80% (to the nearest percent) as the uncertainties go to 0.", "quantifier": "all ratings, uncertainties, beta > 0", "why_tests_cant": "A documented meaning of a parameter; no test compares it with expected_score.", "anchors": ["src/trueskill/mod.rs: TrueSkillConfig::beta, expected_score"]}
{"id": "C89", "title": "Glicko-2 volatility iteration terminates for all inputs", "statement": "For every tau > 0, tolerance > 0 and volatility > 0 the volatility iteration of glicko2_rating_period terminates.", "quantifier": "all inputs with tau > 0 and tolerance > 0, exact arithmetic", "why_tests_cant": "Termination for every input; the failing inputs form a set of measure zero.", "anchors": ["src/glicko2.rs: new_volatility, glicko2_rating_period"]}
{"id": "C90", "title": "EGF handicap stones are worth 100 points each and help their receiver", "statement": "egf's expected_score with one more handicap stone equals expected_score with the receiver rated 100 points higher, and every additional stone strictly raises the receiver's expected score, as long as the adjusted rating stays below 3300.", "quantifier": "all ratings and handicaps with adjusted ratings below 3300", "why_tests_cant": "A relation between calls over a continuum of ratings and handicaps.", "anchors": ["src/egf.rs: expected_score, beta"]}
{"id": "C91", "title": "EGF ratings survive winning streaks and handicaps", "statement": "A player who wins every even game of egf() never loses rating, however long the streak; and a game with any legal handicap (up to 9 stones) between ratings below 3300 does not reset a player to the minimum.", "quantifier": "all ratings below 3300, all numbers of games, all handicaps", "why_tests_cant": "Needs arbitrarily long sequences of games.", "anchors": ["src/egf.rs: egf, con, beta, expected_score"]}
{"id": "C92", "title": "Every rating that can be reached is a number in range", "statement": "Starting from valid ratings and applying a module's functions (games, rating periods, team games, deviation decay) any number of times, in any order, to any ratings obtained so far, with any outcomes and configurations in the documented ranges, every rating is a finite number, deviations and uncertainties are positive (and at most 350 for Glicko, Sticko and Glicko-Boost, at most the starting uncertainty for Weng-Lin), USCF ratings are at least 100 after games, and DWZ indices are positive.", "quantifier": "all finite sequences of calls of Elo, FIFA, Ingo, USCF, DWZ, Glicko, Sticko, Glicko-Boost, Glicko-2, Weng-Lin, TrueSkill", "why_tests_cant": "Unbounded sequences of calls; tests make one or a few.", "anchors": ["src/elo.rs", "src/fifa.rs", "src/ingo.rs", "src/uscf.rs: uscf", "src/dwz.rs", "src/glicko.rs", "src/sticko.rs", "src/glicko_boost.rs", "src/glicko2.rs", "src/weng_lin.rs", "src/trueskill/mod.rs"]}
{"id": "C93", "title": "An Elo season conserves the pool and bounds every player's change", "statement": "For any pool of players and any list of elo() games between them, with any k per game: all ratings stay finite, the sum of all ratings does not change, no rating changes by more than the largest |k| times the player's own number of games, and a player that wins all its games (k > 0) does not end below its start.", "quantifier": "all pools, all schedules, all k", "why_tests_cant": "Unbounded numbers of players and games.", "anchors": ["src/elo.rs: elo"]}
{"id": "C94", "title": "The same result against a stronger opponent is worth more", "statement": "If two otherwise identical opponents differ only in rating, the same outcome against the higher-rated one leaves the player with a higher rating (elo, fifa, ingo (where lower is better), uscf, egf, dwz, glicko, sticko, glicko_boost, weng_lin, decided trueskill games; glicko2 up to the factor exp(2 convergence_tolerance) in the change). Floors and knockout protection can only make the two results equal.", "quantifier": "all ratings, deviations, uncertainties, outcomes and configurations in the documented ranges", "why_tests_cant": "Two runs are compared for all pairs of opponents; tests compare a few literal games.", "anchors": ["src/elo.rs: elo", "src/fifa.rs: fifa", "src/ingo.rs: ingo", "src/uscf.rs: uscf", "src/egf.rs: egf", "src/dwz.rs: dwz", "src/glicko.rs: glicko", "src/sticko.rs: sticko", "src/glicko_boost.rs: glicko_boost", "src/weng_lin.rs: weng_lin", "src/trueskill/mod.rs: trueskill", "src/glicko2.rs: glicko2"]}
{"id": "C95", "title": "The same result keeps two players in order", "statement": "Of two players that differ only in rating, the higher-rated one is still rated higher after both have the same result against the same opponent (elo, fifa, ingo, uscf, egf without handicap, dwz, glicko, glicko2, sticko, glicko_boost, weng_lin, decided trueskill games).", "quantifier": "all ratings, deviations, uncertainties and outcomes; every k and importance", "why_tests_cant": "A relation between two runs over the reals; whether it holds depends on a bound on k that no test can find.", "anchors": ["src/elo.rs: elo", "src/fifa.rs: fifa", "src/ingo.rs: ingo", "src/uscf.rs: uscf", "src/egf.rs: egf", "src/dwz.rs: dwz", "src/dwz.rs: e_value", "src/glicko.rs: glicko", "src/glicko2.rs: glicko2", "src/sticko.rs: sticko", "src/glicko_boost.rs: glicko_boost", "src/weng_lin.rs: weng_lin", "src/trueskill/mod.rs: trueskill"]}
{"id": "C96", "title": "The boost helps over-achievers", "statement": "With the default GlickoBoostConfig a player never gains less from a game than with the same configuration with the boost switched off (k = 0); the documentation says that the boost increases the deviation of exceptional performers and lets over-achieving players climb quickly.", "quantifier": "all players, opponents and outcomes", "why_tests_cant": "Needs a comparison of two configurations over all inputs.", "anchors": ["src/glicko_boost.rs: glicko_boost", "src/glicko_boost.rs: new_deviation", "src/glicko_boost.rs: GlickoBoostConfig"]}
{"id": "C97", "title": "Results are numbers, in range, in IEEE-754 double precision", "statement": "With every rounding, overflow and underflow included, one game never produces NaN or an infinity: Glicko (also whole rating periods), Sticko and Glicko-Boost return finite ratings and deviations in [0,350] for finite ratings up to a huge bound (2^1000, Sticko 2^400) and any deviations that are not NaN, infinite ones included; FIFA, USCF, DWZ and Ingo return finite ratings for finite inputs up to 2^200 or more; EGF does so, and never lowers the winner, for ratings in [-900, 2399] with handicaps of at most 9 stones or in [-900, 3299] without. Weng-Lin games (|rating| <= 800 beta), rating periods (of n games, uncertainty <= 2 beta, |rating| + 4 n beta <= 800 beta), two-team and multi-team matches (team size times |rating| <= 400 beta), with beta and uncertainties in [2^-100, 2^100] and tolerance in [2^-200, 1], return finite ratings and positive uncertainties that never grow.", "quantifier": "all f64 inputs in the stated ranges, all outcomes, all configurations in the stated ranges, every libm meeting the stated contracts", "why_tests_cant": "A NaN appears only for particular bit patterns; tests use everyday ratings.", "anchors": ["src/glicko.rs: glicko, glicko_rating_period", "src/sticko.rs: sticko", "src/glicko_boost.rs: glicko_boost", "src/fifa.rs: fifa", "src/uscf.rs: uscf", "src/dwz.rs: dwz", "src/egf.rs: egf", "src/ingo.rs: ingo", "src/weng_lin.rs: weng_lin, weng_lin_rating_period, weng_lin_two_teams, weng_lin_multi_team"]}
{"id": "C98", "title": "Winners do not lose points in IEEE-754 double precision", "statement": "With all rounding errors included: in glicko() the winner's rating does not fall, the loser's does not rise, and win >= draw >= loss; the same winner and loser statements hold for fifa() without penalties, dwz(), uscf() for players with more than 8 games and at least 100 points, glicko_boost(), and for sticko() when lambda is 0 or the winner was not the favourite (the loser's statement with beta = 0). A Glicko rating period of wins only does not lower the rating and one of losses only does not raise it. In Weng-Lin (ranges of C97) the same holds for games (with win >= draw >= loss), for rating periods, for every member of the winning and losing team, and for every member of the team strictly first or strictly last among any number of teams.", "quantifier": "all f64 inputs in the stated ranges", "why_tests_cant": "Rounding could turn a tiny gain into a loss for some of the 2^256 inputs.", "anchors": ["src/glicko.rs: glicko, glicko_rating_period", "src/sticko.rs: sticko", "src/glicko_boost.rs: glicko_boost", "src/fifa.rs: fifa", "src/uscf.rs: uscf", "src/dwz.rs: dwz", "src/weng_lin.rs: weng_lin, weng_lin_rating_period, weng_lin_two_teams, weng_lin_multi_team"]}
{"id": "C99", "title": "Members of a TrueSkill team share one shift, and every uncertainty falls below its prior", "statement": "In trueskill_multi_team with any number of teams every team has one number d such that each member with weight w, rating m and uncertainty s gets the rating m + w*(s^2+tau^2)*d, and an uncertainty strictly between 0 and sqrt(s^2+tau^2); so more certain or less involved team-mates move less, and never in opposite directions.", "quantifier": "all numbers of teams >= 2, team sizes >= 1, ratings, positive uncertainties and weights, ranks (with ties, in any order) and configurations for which every comparison of the reference message passing has a variance correction strictly between 0 and 1", "why_tests_cant": "Needs the final state of the message passing for every number of teams; tests check a few three- and four-team games to some digits.", "anchors": ["src/trueskill/mod.rs:766-901", "src/trueskill/factor_graph.rs", "src/trueskill/schedule.rs"]}
{"id": "C100", "title": "trueskill_multi_team is expectation propagation on the chain of teams, for any number of teams", "statement": "The ratings returned by trueskill_multi_team for any number of teams are those of the published algorithm: teams sorted by rank (ties in input order), prior variance s^2+tau^2, performance variance beta^2, a win or draw comparison between neighbours with the draw margin for the two teams' sizes, at most ten sweeps down and up until no message changes by more than 1e-4, then the marginal of every player; each team's ratings are returned at its input position. With weights None all weights are 1.", "quantifier": "all numbers of teams >= 2, team sizes >= 1, ratings, positive uncertainties and weights, ranks (with ties, in any order) and configurations for which every comparison of the reference message passing has a variance correction strictly between 0 and 1", "why_tests_cant": "The loop of sweeps, the message bookkeeping and the index arithmetic can only be tested on single games with single numbers of teams.", "anchors": ["src/trueskill/mod.rs:766-901", "src/trueskill/factor_graph.rs", "src/trueskill/schedule.rs"]}
{"id": "C101", "title": "Accuracy of Glicko, FIFA, Weng-Lin, Ingo and EGF in double precision", "statement": "With libm functions accurate to 2^-50, the f64 results of glicko, glicko_rating_period, glicko::expected_score, fifa, fifa::expected_score, weng_lin, ingo, ingo::expected_score, egf and egf::expected_score are finite and differ from the published formulas, evaluated exactly at the same f64 inputs, by no more than a stated bound: Glicko games 1e-8 (rating and deviation), periods of n <= 1000 games n^2*1e-8 and n*1e-8, expected scores 2e-12; FIFA ratings 1e-11 and expectations 1e-14; Weng-Lin ratings 1e-10 and uncertainties 3e-12 of the old one; Ingo ratings 2e-11 and expectations 1e-12; EGF ratings 1e-10 and expectations 5e-13.", "quantifier": "all f64 ratings up to 10^4 in size (Weng-Lin: 500), deviations in [1,350], c in [0,1000], importance up to 1000 in size, Weng-Lin uncertainties in [0.001,100], beta in [1,100], tolerance in [0,1], EGF ratings in [-900,3200] with and without the handicap of up to 20, all outcomes, knockout or not, all ages", "why_tests_cant": "All f64 inputs in the ranges; the bounds cover every rounding of every intermediate result.", "anchors": ["src/glicko.rs: glicko, glicko_rating_period, expected_score", "src/fifa.rs: fifa, expected_score", "src/weng_lin.rs: weng_lin", "src/ingo.rs: ingo, expected_score", "src/egf.rs: egf, expected_score"]}
{"id": "C102", "title": "TrueSkill updates follow the exact truncated-Gaussian formulas", "statement": "In trueskill() and trueskill_two_teams() the rating changes equal those of the published formulas with the true normal distribution (the conditional mean and variance of a Gaussian given the result) up to a relative error of 1.8e-5, and the new variances up to 5e-4*(s^2+tau^2)^2/c^2, unless the result was a surprise of more than 26 standard deviations; beyond that, where the code switches to an asymptotic fallback, the relative error of the rating change is at most 0.0015 and that of the variance 3e-3*(s^2+tau^2)^2/c^2 (when the winner was the lower rated side or the game was drawn). Expected scores of both sides have a relative error of at most 1.03e-5, so that tiny chances of an underdog are accurate too.", "quantifier": "all ratings and positive uncertainties, all outcomes, team sizes >= 1, all dynamics factors and betas; draws with a draw probability of at least 1% and summed squared uncertainties up to n*(1400*dp^2-1)*beta^2 (26 beta^2 for two players at the default)", "why_tests_cant": "The error of a rational fit of erfc relative to a quantity that falls to 10^-150, over all inputs, against an integral.", "anchors": ["src/trueskill/mod.rs: trueskill, trueskill_two_teams, expected_score, expected_score_two_teams", "src/trueskill/math.rs: v_non_draw, w_non_draw, v_draw, w_draw", "src/trueskill/erf.rs: erfc, cdf, pdf"]}
{"id": "C103", "title": "Accuracy of TrueSkill in double precision", "statement": "With exp and ln accurate to 2^-50, the f64 results of trueskill() and trueskill::expected_score() are finite and close to the exact truncated-Gaussian update: after a decided game each rating is within 1.05e-5 of its exact change plus 3e-12, after a draw within (s^2+tau^2)/c * (1.87e-5*|v| + 1e-7) + 3e-12, the squared new uncertainties within 2.03e-4*(s^2+tau^2)^2/c^2 + 2e-15*(s^2+tau^2), the new uncertainties lie in [1e-6,150], expected scores have a relative error of 1.04e-5 (first player) and 1.04e-5 plus 5e-12 (second player). The draw margin that the code computes corresponds to a draw probability within 1.21e-5 of the configured one. The f64 computation never enters the numeric fallbacks in these ranges.", "quantifier": "all f64 ratings up to 10^4 in size, uncertainties in [0.001,100], draw probability in [0.01,0.99], beta in [1,100], tau in [0,beta], rating differences up to 22c for decided games and expected scores and 10c for draws (c the standard deviation of the performance difference); draws with summed squared uncertainties up to 2*(1400*dp^2-1)*beta^2", "why_tests_cant": "Every rounding in the erfc fit, the quotients of tiny tails, the Newton steps of the inverse error function and the updates, over all f64 inputs in the ranges, against an integral.", "anchors": ["src/trueskill/mod.rs: trueskill, expected_score, draw_margin", "src/trueskill/math.rs: v_non_draw, w_non_draw, v_draw, w_draw", "src/trueskill/erf.rs: erfc, inverse_erfc, cdf, pdf, inverse_cdf"]}
{"id": "C104", "title": "The first DWZ in double precision", "statement": "get_first_dwz() in f64 returns NotEnoughGames exactly for fewer than five games and InvalidWinRate exactly for at least five games that were all won or all lost. Otherwise the rating is within 2e-9 of the one for the correctly rounded percentage of points (halves rounded up), with exactly four exceptions: at 14.5, 28.5, 56.5 and 57.5 percent the f64 product points/games*100 falls below the half and the next lower percentage is used. For instance 11.5 points from 20 games (57.5 percent) against opponents rated 1500 give 1547 (57 percent) instead of 1554 (58 percent).", "quantifier": "errors: all lists of up to 10^6 games; values: all lists of 5 to 1000 games with f64 ratings up to 10^4 in size, every age", "why_tests_cant": "A percentage is computed with two roundings and then rounded to an integer; whether that ever picks another table entry depends on all pairs of points and number of games.", "anchors": ["src/dwz.rs: get_first_dwz"]}
{"id": "C105", "title": "Accuracy of DWZ games and rating periods in double precision", "statement": "With powf and expm1 accurate to 2^-50, the f64 ratings after dwz() and dwz_rating_period() are finite and within 1e-8 of the exact DWZ update. This includes games whose score equals the expected score up to rounding, where the f64 comparison may switch the acceleration or the brake on or off.", "quantifier": "all f64 ratings in [0,4000], all ages, all indexes from 1 on, every outcome; rating periods of 1 to 1000 games", "why_tests_cant": "The acceleration and the brake are switched by comparing a computed expected score; near equality the development coefficient jumps from 30 to 150.", "anchors": ["src/dwz.rs: dwz, dwz_rating_period, e_value, new_rating, expected_score"]}
{"id": "C106", "title": "Accuracy of USCF games and rating periods in double precision", "statement": "With powf accurate to 2^-50, the f64 ratings after uscf() and uscf_rating_period() are finite and within 2e-9 of the exact USCF update: the provisional formula up to 8 past games, the effective number of games, K factor and bonus above, and the floor of 100 for uscf().", "quantifier": "all f64 ratings in [0,4000], all numbers of past games, bonus thresholds in [0,1000], every outcome; rating periods of 1 to 1000 games", "why_tests_cant": "The update goes through two minima, two square roots, a quotient and a bonus that is switched on by a comparison of computed values; rounding at these switches is not sampled by tests.", "anchors": ["src/uscf.rs: uscf, uscf_rating_period, new_rating, new_rating_provisional, effective_game_number, e_value"]}
{"id": "C107", "title": "Accuracy of Sticko in double precision", "statement": "With powf, ln and hypot accurate to 2^-50, the f64 results of sticko() are finite and within 2e-8 (ratings) and 1e-8 (deviations) of the exact Stephenson update; after a rating period of n games the ratings are within 2n^2 e-8 and the deviations within n e-8; expected_score and expected_score_rating_period are within 2e-12 of the exact expected score, with the advantage added or subtracted according to the flag.", "quantifier": "all f64 ratings in [-9000,9000], deviations in [1,350], h in [0,100], beta in [-1,1], lambda in [-100,100], gamma in [-1000,1000], c in [0,1000], every outcome; rating periods of 1 to 1000 games", "why_tests_cant": "The update chains a logarithm, a power, three square roots and reciprocals of tiny numbers; that no combination of inputs magnifies the rounding errors needs an argument over all of them.", "anchors": ["src/sticko.rs: sticko, sticko_rating_period, expected_score, expected_score_rating_period, new_rating, new_deviation, g_value, e_value, d_value"]}
{"id": "C108", "title": "No inflation: when results follow the expected scores the mean rating stays", "statement": "If player one wins, draws and loses with probabilities whose mean score is the value returned by expected_score, then the mean new rating of each player is the old rating: elo, fifa (without the knockout and penalty flags), ingo, weng_lin, every member of a Weng-Lin team, and TrueSkill players with the model's own win, draw and loss probabilities. It holds for DWZ players of at least 20 years rated 1300 or more and for USCF players with more than 8 games above the floor. Elsewhere the mean moves: Glicko favourites drift down and underdogs up (expected_score uses both deviations, the update only the opponent's), EGF players gain exactly the bonus or more, Sticko, Glicko-Boost and Glicko-2 drift like Glicko (Glicko-2: without draws), weak DWZ players never drift down, juniors drift up below 2000 and down above, knockout FIFA games always inflate, provisional USCF players drift.", "quantifier": "all ratings, deviations, ages, indexes, configurations and outcome probabilities within the stated conditions", "why_tests_cant": "A statement about the mean over outcome distributions for all inputs; unit tests check single outcomes.", "anchors": ["src/elo.rs: elo, expected_score", "src/fifa.rs: fifa, expected_score", "src/ingo.rs: ingo, expected_score", "src/weng_lin.rs: weng_lin, weng_lin_two_teams, expected_score, expected_score_two_teams", "src/trueskill/mod.rs: trueskill", "src/dwz.rs: dwz, expected_score", "src/uscf.rs: uscf, expected_score", "src/egf.rs: egf, expected_score", "src/glicko.rs: glicko, expected_score", "src/sticko.rs: sticko, expected_score", "src/glicko_boost.rs: glicko_boost, expected_score", "src/glicko2.rs: glicko2, expected_score"]}
{"id": "C109", "title": "Does the order of games within a rating period matter?", "statement": "uscf_rating_period and egf_rating_period give the same rating for every permutation of the results. elo_rating_period does not: with two different results against the same opponent, playing the worse result first always ends strictly higher. (For Glicko, Glicko-2, Sticko, Glicko-Boost, DWZ and Ingo see C29, C41, C33, C35, C22 and C24.)", "quantifier": "all ratings, game counts and handicaps; all lists of games and permutations; for Elo every rating, every positive k and every pair of different results", "why_tests_cant": "Quantifies over all permutations of all lists; the refutation holds for every rating.", "anchors": ["src/uscf.rs: uscf_rating_period", "src/egf.rs: egf_rating_period", "src/elo.rs: elo_rating_period"]}
{"id": "C110", "title": "Only differences of ratings matter; Weng-Lin and TrueSkill do not depend on the unit", "statement": "Adding the same number to all ratings adds it to all new ratings and changes no deviation, uncertainty or volatility: elo, fifa, ingo, glicko, sticko, glicko2 games and rating periods (Glicko-2 needs the same number of iterations), weng_lin and trueskill games, and two teams of equal size. Multiplying all ratings, uncertainties, beta (and tau) by a positive factor multiplies the new ratings and uncertainties of weng_lin and trueskill by it.", "quantifier": "all ratings, positive deviations and uncertainties, configurations, outcomes, teams and lists of games; all shifts and positive factors", "why_tests_cant": "A symmetry of the update over all inputs and all shifts.", "anchors": ["src/elo.rs: elo, elo_rating_period", "src/fifa.rs: fifa, fifa_rating_period", "src/ingo.rs: ingo, ingo_rating_period", "src/glicko.rs: glicko, glicko_rating_period", "src/sticko.rs: sticko, sticko_rating_period", "src/glicko2.rs: glicko2, glicko2_rating_period", "src/weng_lin.rs: weng_lin, weng_lin_two_teams", "src/trueskill/mod.rs: trueskill, trueskill_two_teams"]}
{"id": "C111", "title": "Repeated draws bring Elo and FIFA ratings together", "statement": "The ratings after n draws against a fixed opponent converge to the opponent's rating as n grows, whatever the two ratings, exactly when k ln 10 <= 3200 (k up to about 1389), without overshooting when k ln 10 <= 1600; two players who keep drawing with each other both converge to their mean when k ln 10 <= 1600, staying in order when k ln 10 <= 800. Draws of a FIFA team against a fixed opponent behave like the first case with 4800 and 2400. Above these bounds some ratings alternate for ever between two values: around the opponent's rating, or by swapping places with the other player.", "quantifier": "all ratings, all k and importances within the bounds, all numbers of games", "why_tests_cant": "A limit statement about unboundedly many games.", "anchors": ["src/elo.rs: elo, elo_rating_period", "src/fifa.rs: fifa_rating_period"]}
{"id": "C112", "title": "Farming one opponent: Elo and FIFA ratings grow without bound, but only logarithmically", "statement": "With d the lead over the opponent and f = 10^(d/400), c = k ln 10/400, after n wins against the same opponent f lies between f0 + n c f0/(1+f0) and f0 + n c e^c, where f0 belongs to the initial lead; the rating rises with every win and exceeds every bound. The same for FIFA with 600 instead of 400.", "quantifier": "all ratings, every positive k or importance, all numbers of wins", "why_tests_cant": "Bounds the rating after any number of games; no finite set of tests shows logarithmic growth.", "anchors": ["src/elo.rs: elo_rating_period", "src/fifa.rs: fifa_rating_period"]}
{"id": "C113", "title": "Accuracy of Elo, FIFA, EGF and Ingo rating periods in double precision", "statement": "In IEEE-754 double precision, with libm functions accurate to a few units in the last place: an Elo or FIFA rating period of n games (ratings within +-10000, k or importances between 0 and 1000 adding up to at most 8000) ends within n * 2e-11 of the exact updates applied one after the other, knockout and penalty rules included; an EGF period of at most 1000 games within (n+1) * 2e-10 of the rating plus the exact sum of the changes; an Ingo period of 1 to 1000 games within 2e-9 of the exact tournament formula. Rounding errors add up, they are not amplified.", "quantifier": "all ratings, configurations, opponents and results in the stated ranges, every period length", "why_tests_cant": "Errors accumulate over the games of a period; tests compare a few periods with a tolerance.", "anchors": ["src/elo.rs: elo_rating_period", "src/fifa.rs: fifa_rating_period", "src/egf.rs: egf_rating_period", "src/ingo.rs: ingo_rating_period"]}
{"id": "C114", "title": "Every game adds certainty, and uncertain ratings move more", "statement": "Glicko: adding one game anywhere in a rating period, whatever its result, strictly lowers the deviation after the period. Of two players with the same rating and the same games the one with the larger deviation (below the cap of 350 after c is added) moves strictly further in the same direction and keeps the larger deviation. Of two opponents of equal deviation the one rated closer leaves the smaller deviation; of two opponents rated exactly like the player the one of smaller deviation does, while for ratings far enough apart the opponent of larger deviation does. Weng-Lin: of two players with the same rating the one with the larger uncertainty moves strictly further in the same direction after the same game, for every outcome. USCF periods of players with more than 8 games: with more games on record the rating changes in the same direction by no more. DWZ periods: a larger index never gives a larger change. Sticko: adding one game to a non-empty period raises the new variance by at most h.", "quantifier": "all finite ratings, positive deviations, configurations, opponents, results and period lengths (exact arithmetic)", "why_tests_cant": "Tests check single updates; these are comparisons between any two updates, over a continuum of inputs and all period lengths.", "anchors": ["src/glicko.rs: glicko_rating_period, glicko", "src/weng_lin.rs: weng_lin", "src/uscf.rs: uscf_rating_period", "src/dwz.rs: dwz_rating_period", "src/sticko.rs: sticko_rating_period"]}
{"id": "C115", "title": "Glicko-2 in double precision follows Glickman's formulas", "statement": "In IEEE-754 double precision, whenever the two loops stop, a Glicko-2 game and a rating period of up to 100 games return a finite volatility that solves Glickman's equation up to tolerance + 1e-7 in ln(sigma'^2), and for that volatility the rating is right to 1e-6 and the deviation to 1e-7. This needs a result that is not extreme: tau^2*Delta^2 <= 10*(phi^2+v), Delta^2 <= 100*(phi^2+v) and Delta^2 not within a relative 1e-7 of phi^2+v. For a game won by the favourite, or drawn within 300 points, these conditions always hold. The expected scores are right to 1e-11 and the deviation after decay to 1e-8.", "quantifier": "all ratings within +-10^4 and at most 800 points apart (any distance for expected scores), deviations 1..350, volatilities 0.01..0.3, tau 0.1..1.2, tolerances from 0.99e-6 (the default included), all results, all libms with relative errors of at most 2^-50", "why_tests_cant": "Rounding errors enter an iterative root search whose path depends on every bit; tests see one path each.", "anchors": ["src/glicko2.rs: glicko2, glicko2_rating_period, new_volatility, new_deviation, new_rating, expected_score, expected_score_rating_period, decay_deviation"]}
{"id": "C116", "title": "Glicko-2's iteration stops in double precision unless the result is an upset", "statement": "In IEEE-754 double precision a Glicko-2 game and a rating period of up to 100 games always return when Glickman's Delta^2 is below phi^2+v (by a relative 1e-7 at least) for every player updated: the bracketing loop stops at its first step and the Illinois loop after finitely many, in spite of rounding. The result does not depend on the fuel and is Glickman's update as in C115. A game won by the favourite, or drawn within 300 points, always meets the condition.", "quantifier": "all ratings within +-10^4 and at most 800 points apart, deviations 1..350, volatilities 0.01..0.3, tau 0.1..0.98, tolerances from 0.99e-6 (the default 0.000_001 as a double is just below 1e-6), all results meeting the condition, all libms with relative errors of at most 2^-50", "why_tests_cant": "Whether a floating-point root search can run for ever is a statement about infinitely many runs of unbounded length; a hanging input may be one in 2^200.", "anchors": ["src/glicko2.rs: new_volatility, f_value, glicko2, glicko2_rating_period"]}
{"id": "C117", "title": "Glicko-2 in double precision returns for every positive tau", "statement": "A Glicko-2 game or rating period returns for every positive system constant tau. Refuted: for tau between 1e-150 and 1e-34 and every result that is no upset (Delta^2 < phi^2+v), the bracketing loop of new_volatility runs for ever. The trial point k*(-tau)+a rounds back to a, and the counter k stops growing at 2^53, so the loop repeats one state. C116 proves that the functions return for tau 0.1..0.98.", "quantifier": "all ratings within +-10^4 and at most 800 points apart, deviations 1..350, volatilities 0.01..0.3, tau 1e-150..1e-34, any tolerance, any fuel, all libms with relative errors of at most 2^-50", "why_tests_cant": "A test of a non-terminating call does not end.", "anchors": ["src/glicko2.rs: new_volatility (bracketing loop, lines 669-682), glicko2, glicko2_rating_period"]}
{"id": "C118", "title": "Weng-Lin team updates and expected scores in double precision are close to the published formulas", "statement": "weng_lin_two_teams, weng_lin_multi_team, expected_score, expected_score_two_teams and expected_score_multi_team, run in double precision, give the values of Weng and Lin's formulas up to small errors. With teams of at most n players and m opposing teams: probabilities within 3e-13*(n^2+3); a player of uncertainty s gets a rating within 3e-13*(n^2+3)*(m*s+1) and an uncertainty within 7e-13*(n^2+3)*(m*s/s'+1)*s of the exact values (s' the exact new uncertainty); multi-team expected scores within 1e-13*(n^2+120); two players within 1e-12.", "quantifier": "all teams of 1..50 players (n <= 50) with ratings within +-500 and uncertainties 0.001..100, up to 51 teams with any ranks in any order, beta 1..100, uncertainty tolerance 9e-7..1, team ratings at most 400 c, all libms whose exp has relative error at most 2^-50", "why_tests_cant": "A test compares a few digits of a few matches; the claim bounds the rounding error of sums, exponentials and square roots for all teams.", "anchors": ["src/weng_lin.rs: weng_lin_two_teams, weng_lin_multi_team, expected_score, expected_score_two_teams, expected_score_multi_team, p_value, small_delta, gamma, eta, new_rating_teams, new_uncertainty_teams"]}
{"id": "C119", "title": "TrueSkill team updates, expected scores and match quality in double precision are close to the exact truncated Gaussian", "statement": "trueskill_two_teams, run in double precision, gives the update of Herbrich, Minka and Graepel with the true normal distribution up to small errors, for a draw margin whose draw probability is within 1.21e-5 of the configured one: in a decided match each player's rating change is within 1.05e-5 of its size plus 3e-12, in a drawn match within 1.87e-5 of its size plus 5e-7*S/c + 3e-12 (S = u^2+tau^2), and the squared uncertainties are within 2.1e-4*S^2/c^2 + 2e-15*S. expected_score_two_teams is within a relative 1.04e-5 (the second score within 3e-11 more) and expected_score_multi_team within a relative 2.1e-5 of the exact values. match_quality and match_quality_two_teams have a relative error of at most 1e-9.", "quantifier": "all teams of 1..n players with ratings within +-M, n <= 50, M <= 1000, n^2 M <= 40000, uncertainties 0.001..100, draw probability 0.01..0.99, beta 1..100, tau at most beta; decided matches with team ratings at most 22 c apart, drawn matches at most 10 c apart and with V1+V2 <= N(1400 dp^2-1)beta^2; 2..30 teams for the multi-team scores; all libms whose exp and ln have relative error at most 2^-50", "why_tests_cant": "A test compares a few digits of a few matches with the code's own numbers; the claim bounds the distance to the true normal distribution, rounding included, for all teams.", "anchors": ["src/trueskill/mod.rs: trueskill_two_teams, expected_score_two_teams, expected_score_multi_team, match_quality, match_quality_two_teams, draw_margin", "src/trueskill/math.rs", "src/trueskill/erf.rs"]}
{"id": "C120", "title": "Glicko-Boost games, rating periods, decay and expected scores in double precision are close to the published formulas", "statement": "glicko_boost and glicko_boost_rating_period, run in double precision, give Glickman's Glicko-Boost update up to small errors: after one game each rating is within 2e-6 and each deviation within 5e-6 of the exact value, after a period of n games within 2e-6*n^2 and 5e-6*n^2, provided the exact standardised performance Z stays n*1e-9 away from the threshold k (or k = 0): at Z = k the published deviation itself jumps by about b1, so no such bound holds there. decay_deviation (and a period without games) leaves the rating and is within 3e-11 of the exact deviation. expected_score and expected_score_rating_period are within 2e-12 of the exact scores with the advantage eta on the player's side.", "quantifier": "all ratings within +-9000, deviations 1..350, rating differences (advantage included) up to 1500 for updates, every outcome and colour, periods of 1..100 games; eta within +-1000, k 0..1000, b 0..1 and 0..1000, alpha within +-40, +-0.01, +-1e-4, +-0.1, +-0.001 (the defaults among them); all libms whose pow, ln, hypot and exp are accurate to a few units in the last place", "why_tests_cant": "A test compares a few digits of a few games with the code's own numbers; the claim bounds the distance to the formulas in exact real numbers for all players, games and settings.", "anchors": ["src/glicko_boost.rs: glicko_boost, glicko_boost_rating_period, decay_deviation, expected_score, expected_score_rating_period, new_deviation, new_rating, q, g_value, e_value, d_value, z_value, boost_rd"]}
{"id": "C121", "title": "Turning one result of a rating period into a better one leaves the player better off", "statement": "Replace one result of a rating period (a loss by a draw or win, a draw by a win) and keep everything else. The rating after the period is then strictly higher in Elo (k ln 10 < 1600), USCF (provisional or not, bonus included), DWZ, Glicko and Sticko (with the same deviation), strictly lower, that is better, in Ingo, and in FIFA and EGF never lower and strictly higher away from their floors (knockout and shoot-out, rating -900). For Elo with k ln 10 > 1600 it is false: draws can follow that undo the gain. For Glicko-Boost it holds when both totals lie on one side of the threshold k and is false across it with the default configuration. For Weng-Lin it is false for every player, first opponent, beta and tolerance below 1. For TrueSkill it is false for every player and every usual configuration: some period of two games ends higher when its first game is lost instead of won; in the last game of a period a win ends strictly higher than a loss.", "quantifier": "all real ratings, deviations, ages, indices and configurations in the stated ranges, all games before and after the changed one", "why_tests_cant": "A test compares two results of one game; the claim is about every position in every period, where acceleration, brake, bonus, floors and thresholds may react to the result, and where later games may undo the gain.", "anchors": ["src/elo.rs: elo_rating_period", "src/fifa.rs: fifa_rating_period", "src/ingo.rs: ingo_rating_period", "src/uscf.rs: uscf_rating_period", "src/dwz.rs: dwz_rating_period", "src/egf.rs: egf_rating_period", "src/glicko.rs: glicko_rating_period", "src/sticko.rs: sticko_rating_period", "src/glicko_boost.rs: glicko_boost_rating_period", "src/weng_lin.rs: weng_lin_rating_period", "src/trueskill/mod.rs: trueskill_rating_period"]}
{"id": "C122", "title": "Finishing higher in a Weng-Lin game of many teams", "statement": "Let one team of weng_lin_multi_team() finish with a better rank and keep all other teams and ranks. No member of the team ends lower; every member ends strictly higher exactly when some other team's rank lies between the new and the old rank (inclusive), and otherwise nothing changes. The members of such other teams end strictly lower, everybody else is unchanged, and all uncertainties stay as they were. The rating change of every player is the sum of the changes that weng_lin_two_teams() gives for the player's team against each other team.", "quantifier": "all numbers and sizes of teams, all ranks (ties included), real ratings, positive uncertainties, all beta and tolerances >= 0", "why_tests_cant": "Ranks enter through pairwise comparisons of all teams; a test fixes one table of results, the claim compares every pair of tables that differ in one team's rank.", "anchors": ["src/weng_lin.rs: weng_lin_multi_team, weng_lin_two_teams"]}
{"id": "C123", "title": "DWZ: younger and less experienced players react at least as strongly", "statement": "Take two players of the same DWZ rating who get the same results against the same opponents in dwz() or dwz_rating_period(), one at most as old as the other and with at most as many rated tournaments. The rating of the younger one moves at least as far, in the same direction (the code's comment: the acceleration factor allows young, over-achieving players to gain rating more quickly).", "quantifier": "all ratings up to 2000, all ages and indices >= 1, all lists of results; above 2000 when the younger player is at least 20 or scores below expectation", "why_tests_cant": "The coefficient has four age and rating dependent branches with caps; a test compares two ages at one rating, the claim compares all pairs of ages at all ratings.", "anchors": ["src/dwz.rs: e_value, dwz, dwz_rating_period"]}
{"id": "C124", "title": "How certain a rating can become over a whole career", "statement": "In glicko_rating_period() with at most m games per period and c > 0 the deviation of a player never falls below F = sqrt(c^2/2 (sqrt(1+4/(k c^2))-1)) with k = m (ln10/400)^2/4, when it starts above F and F^2+c^2 <= 350^2; m draws per period against equal opponents of deviation 0 converge to F geometrically. With the default settings and one glicko() call per game the deviation of a player never falls below 141. Sticko has a floor of the same kind, TrueSkill's uncertainty has one set by tau in decided games (0.69 by default), and Weng-Lin has none: its uncertainty gets below every positive bound.", "quantifier": "all starting ratings and deviations above the floor, all numbers of periods, all opponents and results, all c, h, beta, tau, m", "why_tests_cant": "A test plays finitely many games against chosen opponents; a floor is a statement about every career of every length, and its sharpness a statement about a limit.", "anchors": ["src/glicko.rs: glicko, glicko_rating_period", "src/sticko.rs: sticko_rating_period", "src/trueskill/mod.rs: trueskill_rating_period", "src/weng_lin.rs: weng_lin_rating_period"]}
{"id": "C125", "title": "Elo's and FIFA's forecasts are nearly as good as those of the best fixed strengths", "statement": "Play any sequence of games in a pool with elo() and one k > 0 (or fifa() without knock-out and penalties and one importance), and before each game take expected_score(). For every assignment of fixed strengths u to the players, the total log loss of these forecasts is at most the total log loss of the forecasts made from u, plus ln10/400 * (sum (r-u)^2/(2k) + k * total squared error) (600 instead of 400 for FIFA); a single player's elo_rating_period() satisfies the corresponding bound against the best fixed rating. If the results are random and follow fixed strengths u, the mean total of the squared errors of the forecasts is at most (sum (r-u)^2/k + k n/2) / (3200/ln10 - 2k): whatever the starting ratings are, the ratings learn the strengths up to an error set by k (0.012 per game for k = 32).", "quantifier": "all pools, starting ratings, strengths, schedules of any length, results and k > 0; all chances with the right mean score", "why_tests_cant": "It compares a whole history of forecasts with every possible assignment of strengths; a simulation looks at one schedule and one set of strengths.", "anchors": ["src/elo.rs: elo, elo_rating_period, expected_score", "src/fifa.rs: fifa, expected_score"]}
{"id": "C126", "title": "TrueSkill: a win is better than a draw and a draw better than a loss", "statement": "In trueskill() and trueskill_two_teams(), for the same players, every member of a team ends strictly higher after a win than after a draw and strictly higher after a draw than after a loss, whatever the rating difference is, including the differences for which the code leaves the normal distribution and uses its numeric fallback.", "quantifier": "all ratings, all uncertainties and team sizes with draw margin at least c/30 (draw probability at least 1% and total variance up to n (1400 dp^2 - 1) beta^2), all tau", "why_tests_cant": "The three results use three different formulas with two numeric fallbacks each; a test compares them at chosen differences, never across the switch points for all of them.", "anchors": ["src/trueskill/mod.rs: trueskill, trueskill_two_teams", "src/trueskill/math.rs: v_non_draw, v_draw"]}
{"id": "C127", "title": "Glicko-2: a win is better than a draw and a draw better than a loss", "statement": "In glicko2(), for the same two players, the player's new rating is strictly higher after a win than after a draw and strictly higher after a draw than after a loss, and the opponent's the other way round, although the result also changes the new volatility and so the weight of the game. In glicko2_rating_period(), results that are all at least as good never turn a gain into a loss, and never shrink a gain or enlarge a loss by more than a factor exp(2 convergence_tolerance).", "quantifier": "all ratings, deviations, volatilities and tau, convergence tolerance up to 0.3 for single games, expected odds below 1 + 27/(2 tau^2) (55 to 1 for tau 0.5) or the corresponding bound for a period, whenever the calls return", "why_tests_cant": "The new rating is computed from the result and from a volatility that an iteration finds from the result, so a better result changes two factors in different ways; tests only compare a few games.", "anchors": ["src/glicko2.rs: glicko2, glicko2_rating_period, new_volatility, new_rating"]}
{"id": "C128", "title": "Glicko-2: even a huge upset hardly changes the volatility, and the iteration always ends", "statement": "When tau times the volatility is at most 0.316 (usual values: 0.03), glicko2() returns for every pair of players, result and positive tolerance; the new squared volatility lies between the old one times exp(-(tau sigma)^2/8 - tolerance) and the old one times exp(1.5 (tau sigma)^2 + tolerance), and the rating moves by at most the new variance in rating units. In glicko2_rating_period() with n games the same holds with n tau sigma. This depends on the iteration: Glickman's equation can have a second solution above any bound.", "quantifier": "all ratings, deviations, outcomes, opponents; all volatilities and tau with tau^2 sigma^2 <= 1/10 (n^2 tau^2 sigma^2 <= 1/10 for a period of n games); exact arithmetic", "why_tests_cant": "The equation has several solutions for large upsets and the iteration could end at any of them or not at all; tests only contain ordinary games.", "anchors": ["src/glicko2.rs: glicko2, glicko2_rating_period, new_volatility, f_value"]}
{"id": "C129", "title": "One game or rating period moves a rating by at most an amount fixed by the player's own state", "statement": "Whoever the opponents are and whatever happens: a FIFA rating moves by less than the sum of the importances, a DWZ by less than 800n/(n+5) in n games, an EGF rating (below 3300) by less than n times con plus bonus, an established USCF rating falls by less than nK and rises by less than nK (2nK with the bonus for three games or more), a Glicko rating moves by less than n q min(RD^2+c^2, 350^2), a Glicko-Boost rating by less than n q 350^2, a Glicko-2 rating by at most n(RD^2/173.7178 + 173.7178 sigma'^2), a Weng-Lin rating by less than its uncertainty. The same is expected of Sticko, Ingo, provisional USCF players and TrueSkill.", "quantifier": "all ratings, deviations, ages, game counts, outcomes, opponents, configurations (positive deviations, index and volatility), periods of any length; exact arithmetic", "why_tests_cant": "A maximum over all opponents cannot be tested; the extreme opponents are never in a test.", "anchors": ["src/fifa.rs: fifa_rating_period", "src/dwz.rs: dwz_rating_period", "src/egf.rs: egf_rating_period", "src/uscf.rs: uscf_rating_period, uscf", "src/glicko.rs: glicko_rating_period", "src/glicko_boost.rs: glicko_boost_rating_period", "src/sticko.rs: sticko_rating_period, sticko", "src/glicko2.rs: glicko2_rating_period", "src/weng_lin.rs: weng_lin", "src/trueskill: trueskill", "src/ingo.rs: ingo"]}
{"id": "C130", "title": "The expected scores of three players fit together", "statement": "If player a is expected to score x against b, b is expected to score y against c and a is expected to score z against c, then the odds multiply: z/(1-z) = x/(1-x) * y/(1-y). Holds for Elo, FIFA, USCF, DWZ and EGF (no handicap, ratings below 3300); for Ingo the advantages over 1/2 add up. For Glicko, Glicko-2 and Weng-Lin, where the uncertainties enter, a favourite of a favourite is a favourite. For TrueSkill the same holds when both scores are at least 0.5000001 (the normal distribution is approximated), with 0.4999999 as the bound for z. With uncertainties the odds do not multiply: in Glicko and Weng-Lin every favourite has, for every opponent, a lower rated but more uncertain opponent against whom less is expected.", "quantifier": "all ratings, deviations, ages, game counts and configurations; exact arithmetic", "why_tests_cant": "A relation between three calls for all ratings; tests check single calls.", "anchors": ["src/elo.rs: expected_score", "src/fifa.rs: expected_score", "src/uscf.rs: expected_score", "src/dwz.rs: expected_score", "src/egf.rs: expected_score", "src/ingo.rs: expected_score", "src/glicko.rs: expected_score", "src/glicko2.rs: expected_score", "src/weng_lin.rs: expected_score", "src/trueskill: expected_score"]}
{"id": "C131", "title": "A win raises the expected score in a rematch", "statement": "Take two players, let player one win, and compare expected_score before the game with expected_score of the two updated players: the winner is expected to do better in the rematch than before. Holds for every win in Elo, FIFA (no shoot-out), DWZ, USCF between established players, Weng-Lin, and Glicko with c = 0; for every win (and drawn game) of the lower rated player in Glicko, Glicko-2, Weng-Lin, and for underdog wins in EGF (no handicap, ratings at most 3100) and TrueSkill (up to the 2e-7 error of the approximated normal distribution when the order of the ratings is turned).", "quantifier": "all ratings, deviations, volatilities, game counts and configurations in the stated ranges; exact arithmetic", "why_tests_cant": "Relates the update function to the prediction function for all inputs: rating differences and uncertainties change at the same time, and the failures lie where a favourite meets a far weaker opponent.", "anchors": ["src/elo.rs: elo, expected_score", "src/fifa.rs: fifa, expected_score", "src/dwz.rs: dwz, expected_score", "src/uscf.rs: uscf, expected_score", "src/ingo.rs: ingo, expected_score", "src/egf.rs: egf, expected_score", "src/glicko.rs: glicko, expected_score", "src/glicko2.rs: glicko2, expected_score", "src/weng_lin.rs: weng_lin, expected_score", "src/trueskill/mod.rs: trueskill, expected_score"]}
{"id": "C132", "title": "Moving two players to another system keeps the favourite", "statement": "Convert two players of one system with From/Into and ask the new system for expected_score. Elo and DWZ give identical forecasts. In every other conversion the higher rated player stays the favourite: Elo to USCF changes the forecast by at most 0.016 (up for players up to 2000, down above), Elo to FIFA lowers the favourite's forecast, by at most 1/8, Elo to Ingo gives 1/2 plus 1/800 per rating point, Glicko to Glicko-2 changes it by at most 1.2e-8 whatever the deviations, and Weng-Lin to TrueSkill (equal beta) raises it by at most 0.12 and lowers it by at most 1e-6, the error of the approximated normal distribution.", "quantifier": "all pairs of ratings, deviations and uncertainties, every positive beta; exact arithmetic", "why_tests_cant": "Relates two modules through the conversion between them for all inputs: the scale constants (400 against 173.7178, 400 against 600, 1.02 against 0.94) must fit together, which no test of a single module can show.", "anchors": ["src/elo.rs: From, expected_score", "src/uscf.rs: From, expected_score", "src/fifa.rs: From, expected_score", "src/ingo.rs: From, expected_score", "src/dwz.rs: From, expected_score", "src/glicko2.rs: From, expected_score", "src/glicko.rs: expected_score", "src/weng_lin.rs: From, expected_score", "src/trueskill/mod.rs: From, expected_score"]}
{"id": "C133", "title": "A draw moves each rating towards the opponent's", "statement": "After a drawn game the lower rated player has strictly gained and the higher rated one strictly lost, and two equally rated players keep their ratings: elo, fifa (no knockout, no shoot-out), dwz, uscf (provisional or not, ratings of at least 100), ingo, glicko, glicko2, sticko without gamma and beta, weng_lin and every member of the teams in weng_lin_two_teams and trueskill_two_teams (comparing the sums of the ratings; draw probability at least 0.01, uncertainties up to 5000 beta). When all teams tie in weng_lin_multi_team, the strongest team loses and the weakest gains. In glicko_boost the first player counts as eta points stronger. (TrueSkill players: C87.) In egf the lower rated player gains, but the bonus can let both gain.", "quantifier": "all ratings, deviations, volatilities, ages, game counts, team sizes and configurations in the stated ranges; exact arithmetic", "why_tests_cant": "The deviations of the two players differ and in Glicko, Glicko-2 and Glicko-Boost enter the two updates differently, so the signs of the two changes are separate facts for a continuum of inputs.", "anchors": ["src/elo.rs: elo", "src/fifa.rs: fifa", "src/dwz.rs: dwz", "src/uscf.rs: uscf", "src/ingo.rs: ingo", "src/egf.rs: egf", "src/glicko.rs: glicko", "src/glicko2.rs: glicko2", "src/sticko.rs: sticko", "src/glicko_boost.rs: glicko_boost", "src/weng_lin.rs: weng_lin, weng_lin_two_teams, weng_lin_multi_team", "src/trueskill/mod.rs: trueskill_two_teams"]}
{"id": "C134", "title": "The same result against a less certain opponent counts less", "statement": "Let two opponents have the same rating, the second a larger deviation (uncertainty). A player rated no higher than them who wins (or, rated lower, draws) gains in both cases, and strictly less from the less certain one; a player rated no lower who loses (or, rated higher, draws) loses strictly less to the less certain one. Glicko and Sticko without gamma and beta as long as RD^2 + c^2 <= 347^2; glicko_boost (RD at most 347, opponents shifted by eta) unless the win is boosted; weng_lin always; trueskill for decided games within 26 standard deviations. It is false for a Glicko player with RD 350 (equal opponents with RD 1 and RD 30) and, in Glicko and weng_lin, for favourites: for any two deviations there is a lower rated opponent whose defeat brings more when the opponent is less certain.", "quantifier": "all ratings, deviations and configurations in the stated ranges; exact arithmetic", "why_tests_cant": "The opponent's deviation enters the weight, the expected score and the information of the game, with opposite effects; which one wins is a statement about a continuum and changes within 1% of the default deviation.", "anchors": ["src/glicko.rs: glicko", "src/sticko.rs: sticko", "src/glicko_boost.rs: glicko_boost", "src/weng_lin.rs: weng_lin", "src/trueskill.rs: trueskill"]}
{"id": "C135", "title": "Who pays for a result", "statement": "When two players have the same deviation (in Glicko-2 also the same volatility) a game moves exactly as many points to one as it takes from the other, whatever the ratings and the result, and both keep the same new deviation (and volatility): glicko, glicko2, and sticko for any colour advantage gamma and any lambda if beta = 0; a positive beta creates points in every game. In glicko_boost (deviation at most 350) the sum of the ratings is kept unless one player is boosted, and an upset win that is boosted creates points (as long as RD < 1/sqrt(1/RD^2 + q^2/4) + b1). When the deviations differ (RD^2 + c^2 <= 347^2) and the favourite does not win, the player with the larger deviation moves strictly further, so the sum of the ratings moves the way of the less certain player (glicko; the sum also in sticko with gamma = beta = 0 and any lambda). When the favourite wins this is false: for any two deviations there is a lower rated, more certain opponent who loses more points than the less certain favourite gains.", "quantifier": "all ratings, deviations, volatilities, results and configurations in the stated ranges; exact arithmetic, for every fuel that lets glicko2 return", "why_tests_cant": "The two updates are computed separately, in Glicko-2 with two separate root searches; that they cancel for all inputs is not visible from samples, and the comparison for unequal deviations depends on three effects of opposite sign.", "anchors": ["src/glicko.rs: glicko", "src/glicko2.rs: glicko2", "src/sticko.rs: sticko", "src/glicko_boost.rs: glicko_boost"]}
{"id": "C136", "title": "Which team is expected to do best", "statement": "expected_score_multi_team of TrueSkill, any number of non-empty teams of any sizes: if all teams have the same total variance (sum of the squared uncertainties), a team with the higher sum of ratings has an expected score that is at most 5e-7 below that of a team with a lower sum; it is strictly higher if the lead is at least 1/1000 of the standard deviation of a pairing and no third team is rated in between. Without the condition it is false: for every two ratings mB < mA there are uncertainties and a third team such that the lower rated B gets the higher expected score. (In Weng-Lin the expected scores always follow the sums of the ratings: C45.)", "quantifier": "all numbers of teams and players, ratings, uncertainties and beta > 0; exact arithmetic with the code's polynomial approximation of the normal distribution", "why_tests_cant": "The score of a team is a normalised sum over all other teams of an approximated distribution function that is not monotone at 0; that the orders agree for all teams is a statement about all of these sums.", "anchors": ["src/trueskill/mod.rs: expected_score_multi_team"]}
{"id": "C137", "title": "What makes a match of several TrueSkill teams fair", "statement": "match_quality_multi_team with at least three non-empty teams, any non-negative weights and teams of positive variance: keeping the players' uncertainties and weights, replacing every team's weighted rating sum m by k + lam*m with |lam| <= 1 never lowers the quality, and for |lam| < 1 (and a positive quality) it leaves the quality unchanged exactly when all sums were equal already; so the quality is largest exactly for equally strong teams and does not change when all teams get stronger by the same amount. Among equally strong teams lower uncertainties never lower the quality. Among unequal teams they can: for any two uncertainties s < s' and beta > 0 there are three players, one of them stronger, whose match is better with s'.", "quantifier": "all numbers of teams and players, ratings, uncertainties, weights and beta; exact arithmetic", "why_tests_cant": "The code computes the quality with matrix products, a recursive determinant and an inverse; that the result is monotone in this sense is a fact about all matrices that arise.", "anchors": ["src/trueskill/mod.rs: match_quality_multi_team", "src/trueskill/matrix.rs"]}
{"id": "C138", "title": "What the first DWZ depends on", "statement": "get_first_dwz gives the same rating or the same error for any order of the results. If two lists of results both give a rating, and game by game the second has an opponent at least as strong and a result at least as good, its first rating is not lower; it is strictly higher if some opponent is strictly stronger, or if some result is strictly better and there are at most 50 games. But an additional win is not always worth having: for every list that gives a rating and every outcome of one more game there is an opponent weak enough that the game lowers the first rating and one strong enough that it raises it.", "quantifier": "all numbers of games, opponent ratings, outcomes and ages; exact arithmetic", "why_tests_cant": "The rating goes through a percentage rounded to an integer, a table of 101 entries and a revision below 800; tests only show some rows of the table.", "anchors": ["src/dwz.rs: get_first_dwz"]}
{"id": "C139", "title": "The same result against the same opponent, for ever", "statement": "Play n games against an opponent whose rating does not change and let n grow. In Ingo the rating after n equal results is exactly l + (r - l)*(D/(D+1))^n with l the opponent's rating for draws, 50 points better for wins and 50 worse for losses: it settles at l, getting closer with every game without reaching or passing it, so beating one opponent is never worth more than a lead of 50. In Glicko (any c, any deviations) and Weng-Lin (any beta, kappa in (0,1]) the rating of a player who keeps drawing settles at the opponent's rating in the same sense, although the player's uncertainty shrinks all the time. In USCF (ratings of at least 100, provisional or established) it converges to the opponent's rating and never passes it. In DWZ (any ages and positive indices) it settles at the opponent's rating, and in sticko with beta = gamma = 0 < lambda <= 10 too, each draw taking away at least lambda percent of the distance.", "quantifier": "all ratings, deviations, ages, numbers of earlier games and configurations, infinitely many games; exact arithmetic", "why_tests_cant": "It is a statement about a limit; a finite number of games cannot show that the shrinking steps add up to the whole distance.", "anchors": ["src/ingo.rs: ingo", "src/uscf.rs: uscf", "src/dwz.rs: dwz", "src/sticko.rs: sticko", "src/glicko.rs: glicko", "src/weng_lin.rs: weng_lin"]}
{"id": "C140", "title": "Farming one opponent in Glicko, Glicko-2, Weng-Lin and TrueSkill", "statement": "A player who beats the same opponent (of unchanged rating) again and again gains with every single win and passes every rating bound in the end, even where the uncertainty shrinks with every game (Glicko with c = 0, Weng-Lin, TrueSkill with dynamics factor 0; for TrueSkill the dynamics factor may be anything with tau^2 <= 2 beta^2, and the uncertainty stays positive throughout). In Glicko-2 this holds for every infinite career in which each glicko2 call returns, and such a career exists whenever exp((ro - r)/173.7178) < 1 + 27/(2 tau^2), in particular for every player who starts at or above the opponent. In Glicko and Weng-Lin only logarithmically: in Glicko the odds 10^(g(RDo)*(x_n - ro)/400) after n wins are at most the initial odds plus 400*n; in Weng-Lin the odds exp((x_n - mo)/c), with c = sqrt(s^2 + so^2 + 2 beta^2) of the first game, are at most the initial odds plus 3*n.", "quantifier": "all ratings, deviations, configurations and numbers of wins; exact arithmetic", "why_tests_cant": "Unboundedness concerns infinitely many games with ever smaller gains; no finite run of games shows it.", "anchors": ["src/glicko.rs: glicko", "src/glicko2.rs: glicko2", "src/weng_lin.rs: weng_lin", "src/trueskill/mod.rs: trueskill"]}
{"id": "C141", "title": "One more team in a game, one more player in a team", "statement": "When one more team takes part in a weng_lin_multi_team game (at any position of the list, all ranks of the others unchanged), every player of a team that finishes ahead of it ends strictly higher than without it, every player of a team that finishes behind it strictly lower, a team that ties with it ends higher or lower according to whether the newcomer is stronger or weaker, and no uncertainty is larger than without it. Adding a player to a team: in expected_score_two_teams of weng_lin and trueskill a player rated at least 0 raises the expected score of an underdog (in trueskill as long as it stays an underdog), and a player rated at most 0 lowers that of a favourite. But a favourite can lose from a player with a positive rating: for every favourite team and every uncertainty of the newcomer there is a positive rating with which the expected score falls.", "quantifier": "all teams, sizes, ranks, ratings, uncertainties and configurations; exact arithmetic", "why_tests_cant": "The update of a team sums over all opponents and the expected score divides by a joint uncertainty; that an additional term has the same effect in every game cannot be seen from examples.", "anchors": ["src/weng_lin.rs: weng_lin_multi_team, expected_score_two_teams", "src/trueskill/mod.rs: expected_score_two_teams"]}
{"id": "C142", "title": "Uncertainty pulls the expected score towards one half", "statement": "In glicko, glicko2, sticko and glicko_boost a larger sum of the two squared deviations gives the favourite a strictly smaller expected_score (favourite: the player rated higher, after the advantage gamma or eta is added), but it stays above 1/2, and as either deviation grows it approaches 1/2 for any two ratings. The same for teams in expected_score_two_teams of weng_lin and trueskill (same team ratings and sizes, larger total variance); as the total variance grows the expected score of any two team ratings approaches 1/2 (in trueskill: comes within any distance above 5e-8 of it); in trueskill the favourite stays above 0.4999999 only: for every favourite there is an uncertainty from which on its expected score is below 1/2.", "quantifier": "all ratings, deviations, uncertainties, teams and configurations with beta > 0; exact arithmetic", "why_tests_cant": "A statement about all pairs of deviations and a limit; tests compare a handful of expected scores.", "anchors": ["src/glicko.rs: expected_score", "src/glicko2.rs: expected_score", "src/sticko.rs: expected_score", "src/glicko_boost.rs: expected_score", "src/weng_lin.rs: expected_score_two_teams", "src/trueskill/mod.rs: expected_score, expected_score_two_teams"]}
{"id": "C143", "title": "Players who stay away", "statement": "n empty rating periods in a row: glicko and sticko keep the rating and give the deviation min(sqrt(RD^2 + n*c^2), 350), glicko2 keeps rating and volatility and gives min(sqrt(RD^2 + n*(173.7178*sigma)^2), 350); the cap is reached exactly when the sum of squares reaches 350^2. In glicko_boost, whatever the configuration, the deviation grows strictly with every empty period until it is 350, and gets there after finitely many. After any number of idle periods (c not 0, RD below 350) the glicko expected score of a favourite is strictly smaller than before and still above 1/2.", "quantifier": "all ratings, deviations up to 350, configurations and numbers of periods; exact arithmetic", "why_tests_cant": "Concerns arbitrarily long absences; the growth in glicko_boost depends on rating and deviation through five parameters.", "anchors": ["src/glicko.rs: glicko_rating_period, decay_deviation", "src/sticko.rs: sticko_rating_period, decay_deviation", "src/glicko2.rs: glicko2_rating_period, decay_deviation", "src/glicko_boost.rs: glicko_boost_rating_period, decay_deviation"]}
{"id": "C144", "title": "Many equal games against one opponent in one rating period", "statement": "A rating period of n games against the same opponent, all with the same result: the rating after it is r + (l - r)*n/(n + m), so it moves on with every further game, towards l and never to or past it. Glicko: l = r + (s - E)/(q g E (1 - E)), m = 1/(RD'^2 q^2 g^2 E (1-E)) and the deviation is RD'*sqrt(m/(n+m)), for every n including 0; sticko: the same with gamma, beta and the constant shift by lambda; glicko_boost with b0 >= 0 < b1: the rating lies strictly between r and the l of Glicko (opponent shifted by eta) and tends to l, whether or not the boost applies; glicko2: whenever the period returns, the rating lies strictly between r and l = r + 173.7178(s - E)/(g E (1 - E)), at a distance from l of at most |l - r|/(1 + n phi^2 g^2 E (1-E)); dwz: l = r + 800(s - E), m the development coefficient; ingo: l 50 points off the opponent (the opponent itself for draws), m = D; provisional uscf players: l = opponent +400/0/-400, m the games played so far, and one game at a time gives the same rating; established uscf players who do not do better than expected: l = r + 800(s - E), m the effective number of games; those who do better gain with every game (the bonus never reverses that) and less than 1600(s - E) in all. Egf: n times the change of one game, without limit. In ingo the same games one after the other move the rating strictly further than in one period (n >= 2). In glicko and glicko2 enough draws in one period carry a player past the opponent: whoever started higher ends lower than the opponent. The same in dwz for players at most 50 points apart.", "quantifier": "all ratings, deviations, configurations, results and numbers of games; exact arithmetic", "why_tests_cant": "Concerns rating periods of every length and a limit; tests use periods of a few games.", "anchors": ["src/glicko.rs: glicko_rating_period", "src/sticko.rs: sticko_rating_period", "src/glicko_boost.rs: glicko_boost_rating_period", "src/glicko2.rs: glicko2_rating_period", "src/dwz.rs: dwz_rating_period", "src/ingo.rs: ingo_rating_period", "src/uscf.rs: uscf_rating_period", "src/egf.rs: egf_rating_period"]}
{"id": "C145", "title": "How a Weng-Lin team shares its result, and what one large game does", "statement": "In weng_lin_multi_team every member of a team moves by the same amount per unit of its own squared uncertainty (so equally uncertain team mates keep their distance and the less certain one moves further, in the same direction), by less than (number of opponent teams)*(own uncertainty), and the uncertainty is multiplied by sqrt(max(1 - sigma^2*f, kappa)) with one f for the team. When n+1 equal players (m, s) meet in one game and n >= 4*(c/s)^3 with c = sqrt(2 s^2 + 2 beta^2), every player's uncertainty becomes exactly s*sqrt(kappa), whatever the ranks, and the winner's rating rises by n*s^2/(2c), without limit: with the default rating and configuration 17 players are enough, the winner's rating goes from 25 to more than 66 and every uncertainty from 8.33 to 0.0083.", "quantifier": "all teams with positive uncertainties, ranks and configurations with kappa >= 0; exact arithmetic", "why_tests_cant": "Tests rate a few teams; the effect of the size of the field is a statement about all games.", "anchors": ["src/weng_lin.rs: weng_lin_multi_team"]}
{"id": "C146", "title": "A Weng-Lin game of many teams adds up its two-team games", "statement": "Rate a game with weng_lin_multi_team and, separately, rate the two-team game of one team against each of the others with weng_lin_two_teams (win, draw or loss by comparing the ranks), every time from the old ratings. Then each member's rating change in the multi-team game is exactly the sum of the changes in the two-team games, and the lost fraction of the squared uncertainty is the sum of the lost fractions, until the floor kappa (at most 3/4) is reached.", "quantifier": "all games of teams with positive uncertainties, all ranks including ties, all configurations with 0 <= kappa <= 3/4; exact arithmetic", "why_tests_cant": "Relates two functions for every number of teams; tests compare single outputs.", "anchors": ["src/weng_lin.rs: weng_lin_multi_team, weng_lin_two_teams"]}
{"id": "C147", "title": "The starting rating is forgotten", "statement": "Give two Elo players different starting ratings and let them play the same games (against opponents whose ratings stay within any bounds) with the same results, in any order and for ever. If k*ln 10 < 1600 the gap between them shrinks with every game, never changes sign and tends to 0, whatever the results are: in the long run the arbitrary initial rating has no influence. The same for FIFA outside knock-out matches (importance*ln 10 < 2400). In ingo every rating period of n games multiplies the gap by exactly D/(D + n), and for provisional uscf players with N earlier games by exactly N/(N + n): a player's rating before the first game does not matter at all. In knock-out matches it is false: losing them leaves every rating where it is for ever.", "quantifier": "all starting ratings, all infinite sequences of opponents with bounded ratings and of results, all k (importance) up to the bound; exact arithmetic", "why_tests_cant": "A limit over infinitely many games with arbitrary results.", "anchors": ["src/elo.rs: elo_rating_period", "src/fifa.rs: fifa_rating_period", "src/ingo.rs: ingo_rating_period", "src/uscf.rs: uscf_rating_period"]}
{"id": "C148", "title": "Forecasts and results agree in the long run, whatever the results", "statement": "Before every game ask expected_score for the player's forecast, then rate the game. After n games the points scored and the sum of the forecasts differ by at most (|r| + 400*log10(10^(|r|/400) + n*k*(ln 10/400)*10^((B+k)/400)))/k in Elo, if the opponents' ratings stay within [-B, B]: the difference grows only logarithmically, so the average forecast error tends to 0 for every sequence of results, even one chosen by an adversary. The same for FIFA outside knock-out matches, with 600 for 400. In Ingo the difference stays below 0.21*(2*|r| + B + 50) for ever.", "quantifier": "all starting ratings, all k > 0, all infinite sequences of opponents with bounded ratings and of results; exact arithmetic", "why_tests_cant": "A statement about arbitrary infinite sequences of results and a limit.", "anchors": ["src/elo.rs: elo_rating_period, expected_score", "src/fifa.rs: fifa_rating_period, expected_score", "src/ingo.rs: ingo, expected_score"]}
{"id": "C149", "title": "The later result counts more", "statement": "Play a fixed set of wins, draws and losses against one Elo opponent in one rating period (k*ln 10 <= 1600): of all orders, losses first, then draws, then wins gives the highest final rating and wins first, then draws, then losses the lowest. More generally (k*ln 10 < 1600) take two games next to each other anywhere in a period with arbitrary other games: if both are against the same opponent and the second brings more points, or if the first is scored below and the second above what expected_score said before the two games (whoever the opponents are), exchanging them lowers the final rating strictly. The first statement also holds for FIFA outside knock-out matches (importance*ln 10 <= 2400). In ingo, games played one after the other: exchanging two games changes the final rating by exactly the difference of the two performances divided by (1+D)^2 and multiplied by D/(1+D) for every later game, always in favour of the later performance.", "quantifier": "all ratings, all lists of results, all positions and other games, all k (importance) up to the bound; exact arithmetic", "why_tests_cant": "Compares all orders of a list of results of any length; tests can compare a few orders of short lists.", "anchors": ["src/elo.rs: elo_rating_period, expected_score", "src/fifa.rs: fifa_rating_period", "src/ingo.rs: ingo"]}
{"id": "C150", "title": "The same results in one rating period or in several", "statement": "For elo, fifa, weng_lin and trueskill it makes no difference whether a list of results is rated in one rating period or divided into any number of consecutive periods (empty ones included), down to the last bit and in any arithmetic. For provisional uscf players it makes no difference either, as long as all periods but the last end with at most 8 games. In ingo it does: dividing a period into two gives exactly the weighted average of the rating from one period and the average performance in the second part, the latter with weight n1*n2/((D+n1)*(D+n2)); so dividing always moves the rating towards the later performance. In egf even games that are all won are worth strictly less in two periods than in one (as long as the rating stays below 3300).", "quantifier": "all players, configurations, lists of results and divisions; elo, fifa, weng_lin and trueskill in any arithmetic (also f64), the others in exact arithmetic", "why_tests_cant": "Quantifies over all divisions of result lists of any length; tests compare a few.", "anchors": ["src/elo.rs: elo_rating_period", "src/fifa.rs: fifa_rating_period", "src/weng_lin.rs: weng_lin_rating_period", "src/trueskill/mod.rs: trueskill_rating_period", "src/uscf.rs: uscf_rating_period", "src/ingo.rs: ingo_rating_period", "src/egf.rs: egf_rating_period"]}
