"""Edits aimed at the accuracy theorems C103-C107 and at the order, drift,
symmetry and long-run theorems C108-C112."""
M = []
def m(name, file, old, new, claim, *expect, **kw):
    M.append(dict(name=name, file=file, old=old, new=new, claim=claim, expect=list(expect), **kw))
E, F, U, G, W, T, D, S, L, G2, I = ("ModelElo.v", "ModelFifa.v", "ModelUscf.v", "ModelEgf.v", "ModelWengLin.v", "ModelTS.v",
  "ModelDwz.v", "ModelSticko.v", "ModelGlicko.v", "ModelGlicko2.v", "ModelIngo.v")
# sequential and simultaneous evaluation confused
m("y-elo-simul", E, "mkElo (fold_left (elo_period_step config) results (elo_rating player)).",
  "mkElo (elo_rating player + fsum (map (fun r => elo_period_step config (elo_rating player) r - elo_rating player) results)).",
  "an Elo period is sequential; it depends on the order", "C109", "C113", "C111", "C112")
m("y-egf-seq", G, "mkEgf (egf_rating player + rating_change).",
  "mkEgf (fold_left (fun r x => egf_period_step (mkEgf r) (egf_con r) (egf_bonus r) r x) results (egf_rating player)).",
  "the order of EGF games does not matter", "C109", "C113")
m("y-uscf-first", U, "let avg_opponent_rating := fsum (map (fun r => uscf_rating (fst r)) results) / flen results in",
  "let avg_opponent_rating := match results with cons r _ => uscf_rating (fst r) | nil => #0 end in",
  "the order of USCF games does not matter", "C109", "C106")
m("y-fifa-last", F, "mkFifa (fold_left fifa_period_step results (fifa_rating player)).",
  "mkFifa (fold_left (fun _ r => fifa_period_step (fifa_rating player) r) results (fifa_rating player)).",
  "every game of a FIFA period counts", "C113", "C111", "C112")
m("y-uscf-floor", U, "mkUscf (uscf_new_rating (uscf_rating player) (uscf_games player) len score exp_sum config)",
  "mkUscf (fmax (uscf_new_rating (uscf_rating player) (uscf_games player) len score exp_sum config) #100)",
  "no claim about drift or order breaks (a floor in the period); C09's refutation does", "C09")
# translation
m("y-elo-floor", E, "(mkElo one_new_elo, mkElo two_new_elo).", "(mkElo (fmax one_new_elo #100), mkElo (fmax two_new_elo #100)).",
  "shifting all Elo ratings shifts the results; no drift", "C110", "C108")
m("y-fifa-pct", F, "let new_rating1 := ffma (fifa_importance config) (outcome1 - one_expected) (fifa_rating player_one) in",
  "let new_rating1 := ffma (fifa_importance config) (outcome1 - one_expected) (fifa_rating player_one * flit 999 1000) in",
  "shifts, drift", "C110", "C108")
m("y-sticko-lambda", S, "let lambda2 := (st_lambda config / #100) * (st_rating player_one - st_rating player_two) in",
  "let lambda2 := (st_lambda config / #100) * st_rating player_one in", "Sticko depends on rating differences only", "C110", "C107")
m("y-sticko-plambda", S, "* ((fsum (map (fun r : StickoRating F * Outcomes * bool => st_rating (fst (fst r))) results) / matches)",
  "* ((fsum (map (fun r : StickoRating F * Outcomes * bool => st_rating (fst (fst r))) results))",
  "Sticko's bonus uses the mean opponent", "C110", "C107")
m("y-g2-center", G2, "Some (mkGlicko2 (ffma new_rating g2_scale #1500) (new_deviation * g2_scale) new_volatility)",
  "Some (mkGlicko2 (ffma new_rating g2_scale #1000) (new_deviation * g2_scale) new_volatility)",
  "Glicko-2 periods convert back to the same centre", "C39")
m("y-g2-asym", G2, "let player_two_rating := (g2_rating player_two - #1500) / g2_scale in\n    let player_one_deviation := g2_deviation player_one / g2_scale in\n    let player_two_deviation := g2_deviation player_two / g2_scale in\n    let outcome1",
  "let player_two_rating := g2_rating player_two / g2_scale in\n    let player_one_deviation := g2_deviation player_one / g2_scale in\n    let player_two_deviation := g2_deviation player_two / g2_scale in\n    let outcome1",
  "both Glicko-2 ratings are centred", "C39")
m("y-gl-e-abs", L, "frecip (#1 + (fpow #10 (- g * (rating - opponent_rating) / #400))).",
  "frecip (#1 + (fpow #10 (- (g * rating - opponent_rating) / #400))).", "Glicko depends on rating differences only", "C110", "C108")
m("y-ingo-dev", I, "ingo_performance", "ingo_performance", "", count=99) if False else None
# scale
m("y-wl-tol-abs", W, "fsqrt (fpowi player_uncertainty 2 * fmax (#1 - eta) uncertainty_tolerance).",
  "fsqrt (fmax (fpowi player_uncertainty 2 * (#1 - eta)) uncertainty_tolerance).", "the tolerance is relative", "C110", "C42")
m("y-wl-beta1", W, "fsqrt (ffma #2 (fpowi beta 2) (usq1 + usq2)).", "fsqrt (ffma #2 beta (usq1 + usq2)).", "Weng-Lin teams do not depend on the unit", "C110")
m("y-ts-tau-unit", T, "let variance := ffma uncertainty uncertainty (fpowi dynamics_factor 2) in", "let variance := ffma uncertainty uncertainty dynamics_factor in",
  "TrueSkill does not depend on the unit", "C110", "C103")
m("y-ts-margin-unit", T, "#0 #1 * fsqrt total_players * beta.", "#0 #1 * fsqrt total_players * fmax beta #1.", "the draw margin is proportional to beta", "C110")
m("y-ts-total2", T, "let c := fsqrt (ffma total_players (fpowi (ts_beta config) 2) (uncertainty_one_sum + uncertainty_two_sum)) in",
  "let c := fsqrt (ffma #2 (fpowi (ts_beta config) 2) (uncertainty_one_sum + uncertainty_two_sum)) in",
  "every member of a team adds beta^2", "C50")
# drift
m("y-wl-team-eta", W, "let team_two_small_delta := wl_small_delta team_two_uncertainty_sq c p2 outcome2 in",
  "let team_two_small_delta := wl_small_delta team_two_uncertainty_sq c p1 outcome2 in", "no drift of team two", "C108")
m("y-egf-nobonus", G, "fmax (ffma con (score - exp_score) rating + bonus) (#(-900)).", "fmax (ffma con (score - exp_score) rating) (#(-900)).",
  "EGF drifts up by the bonus", "C108", "C13")
m("y-dwz-a-all", D, "if (age <? 20)%N && (score >=? expected_score) then rating / #2000 else #1 in", "if (score >=? expected_score) then rating / #2000 else #1 in",
  "established DWZ players do not drift", "C108", "C105")
m("y-ingo-perf", I, "ffma #100 score (#(-50))", "ffma #90 score (#(-45))", "Ingo does not drift", "C108")
m("y-ts-vdraw-sign", T, "let x := pdf (- draw_c - diff_c_abs) #0 #1 - pdf (draw_c - diff_c_abs) #0 #1 in", "let x := pdf (- draw_c - diff_c_abs) #0 #1 + pdf (draw_c - diff_c_abs) #0 #1 in",
  "TrueSkill does not drift", "C108", "C103")
m("y-gl-exp-own", L, "let g := gl_g_value q (fhypot (gl_deviation player_one) (gl_deviation player_two)) in", "let g := gl_g_value q (gl_deviation player_two) in",
  "expected_score uses both deviations (so favourites drift)", "C108", "C75")
m("y-fifa-ko-all", F, "if fifa_knockout config && (fifa_rating player_one >? new_rating1) then fifa_rating player_one", "if (fifa_rating player_one >? new_rating1) then fifa_rating player_one",
  "ordinary FIFA games do not inflate", "C108")
m("y-uscf-kprov", U, "ffma (fofZ (wins - losses)) #400", "ffma (fofZ (wins - losses)) #800", "provisional formula", "C10", "C106")
# long runs
m("y-elo-k-decay", E, "let exp := frecip (#1 + fpow #10 ((elo_rating opponent - player_rating) / #400)) in\n    let outcome := to_chess_points result in\n    ffma (elo_k config)",
  "let exp := frecip (#1 + fpow #10 ((elo_rating opponent - player_rating) / #400)) in\n    let outcome := to_chess_points result in\n    ffma (fmin (elo_k config) #100)",
  "k is not capped: large k oscillates", "C111", "C112")
m("y-fifa-400", F, "let exp := frecip (#1 + fpow #10 (- (player_rating - fifa_rating opponent) / #600)) in", "let exp := frecip (#1 + fpow #10 (- (player_rating - fifa_rating opponent) / #400)) in",
  "FIFA periods use 600", "C112", "C111")
# accuracy
m("y-first-ratio", D, "ftoZ (fround ((points / flen results) * #100))", "ftoZ (fround ((points * #100) / flen results))",
  "nothing breaks except the refutation C104 (a repair)", "C104")
m("y-first-floor", D, "ftoZ (fround ((points / flen results) * #100))", "ftoZ ((points / flen results) * #100)", "percentages are rounded", "C104", "C21")
m("y-dwz-150", D, "fexpm1 ((#1300 - rating) / #150)", "fexpm1 ((#1300 - rating) / #160)", "brake of weak players", "C105")
m("y-dwz-per", D, "ffma (#800 / (dwz_e_value (dwz_rating player) (dwz_age player) points expected_points (dwz_index player)\n                    + flen results))",
  "ffma (#800 / (dwz_e_value (dwz_rating player) (dwz_age player) points expected_points (dwz_index player)\n                    + #1))", "DWZ periods divide by E + n", "C105")
m("y-uscf-ne", U, "(flit 739 100000000)", "(flit 739 10000000)", "effective number of games", "C106")
m("y-uscf-boost4", U, "N.min played_games 4", "N.max played_games 4", "bonus threshold of long periods", "C106", "C12")
m("y-sticko-hmatches", S, "(st_h config * matches)", "(st_h config)", "h counts once per game", "C107", "C33")
m("y-sticko-beta", S, "g * (s - e + st_beta config)", "g * (s - e) + st_beta config", "the bonus is weighted by g", "C107", "C33")
m("y-sticko-gamma-exp", S, "let gamma := if snd o then st_gamma config else - st_gamma config in", "let gamma := st_gamma config in", "colours count in expectations", "C107", "C76")
m("y-ts-exp-denom", T, "fsqrt (ffma u2 u2 (ffma #2 (fpowi beta 2) (fpowi u1 2))).", "fsqrt (ffma u2 u2 (ffma #1 (fpowi beta 2) (fpowi u1 2))).", "expected scores use 2 beta^2", "C103", "C86")
m("y-ts-mult-c", T, "let dev_multiplier := variance / fpowi c 2 in", "let dev_multiplier := variance / c in", "the variance shrinks by w s^2/c^2", "C103", "C50")
M = [x for x in M if x]
MUTANTS = M
