"""Wrong programs aimed at C139-C143: long runs, one more team or player, uncertainty
and inactivity.  Only the property files named in [only] are checked."""
M = []
def m(name, file, old, new, claim, only, *expect):
    M.append(dict(name=name, file=file, old=old, new=new, claim=claim, only=only, expect=list(expect)))
G, G2, B, S, W, T = "ModelGlicko.v", "ModelGlicko2.v", "ModelBoost.v", "ModelSticko.v", "ModelWengLin.v", "ModelTS.v"
P, I, F, O, E = ["PropsPull"], ["PropsIdle"], ["PropsFarm"], ["PropsMore"], ["PropsEvenly"]
m("x-gl-exp-one", G, "let g := gl_g_value q (fhypot (gl_deviation player_one) (gl_deviation player_two)) in", "let g := gl_g_value q (gl_deviation player_two) in", "the player's own deviation counts in the forecast", P + I, "C142", "C143")
m("x-gl-exp-noG", G, "let exp_one := frecip (#1 + fpow #10 (- g * (gl_rating player_one - gl_rating player_two) / #400)) in", "let exp_one := frecip (#1 + fpow #10 (- (gl_rating player_one - gl_rating player_two) / #400)) in", "uncertainty pulls the forecast to one half", P, "C142")
m("x-g2-exp-diff", G2, "(g2_g_value (fhypot player_two_deviation player_one_deviation)) in", "(g2_g_value (player_two_deviation - player_one_deviation)) in", "a larger deviation lowers the favourite's forecast", P, "C142")
m("x-g2-decay-uncapped", G2, "(fmin (new_player_deviation * g2_scale) #350)", "(new_player_deviation * g2_scale)", "the deviation never exceeds 350", I, "C143")
m("x-g2-decay-unscaled", G2, "(fmin (new_player_deviation * g2_scale) #350)", "(fmin (fhypot (g2_deviation player) (g2_volatility player)) #350)", "the volatility is on the Glicko-2 scale", I, "C143")
m("x-g2-decay-vol", G2, "(fmin (new_player_deviation * g2_scale) #350) (g2_volatility player)", "(fmin (new_player_deviation * g2_scale) #350) (g2_volatility player * #2)", "inactivity keeps the volatility", I, "C143")
m("x-st-decay-h", S, "(st_pre_deviation (st_deviation player) (st_c config))", "(st_pre_deviation (st_deviation player) (st_h config))", "inactivity grows the deviation by c", I, "C143")
m("x-st-exp-gamma", S, "(- g * (st_rating player_one + st_gamma config - st_rating player_two) / #400)", "(- g * (st_rating player_one - st_gamma config - st_rating player_two) / #400)", "the advantage belongs to the first player", P, "C142")
m("x-gb-decay-none", B, "mkBoost (gb_rating player) (gb_end_deviation (gb_rating player) (gb_deviation player) config).", "player.", "an idle player becomes uncertain", I, "C143")
m("x-gb-exp-eta", B, "let exp_one := frecip (#1 + fpow #10 (- g * (gb_rating player_one + gb_eta config - gb_rating player_two) / #400)) in", "let exp_one := frecip (#1 + fpow #10 (- g * (gb_rating player_one - gb_rating player_two) / #400)) in", "the favourite is found after the advantage is added", P, "C142")
m("x-wl-usq-sum", W, "fsum (map (fun p => fpowi (wl_uncertainty p) 2) team).", "fpowi (fsum (map wl_uncertainty team)) 2.", "the total variance of a team matters", P, "C142")
m("x-wl-c-one", W, "let c := wl_c_teams (wl_beta config) (wl_team_uncertainty_sq team_one) (wl_team_uncertainty_sq team_two) in\n    wl_p_value", "let c := wl_c_teams (wl_beta config) (wl_team_uncertainty_sq team_one) (wl_team_uncertainty_sq team_one) in\n    wl_p_value", "the other team's uncertainty counts as well", P + O, "C142", "C141")
m("x-wl-inner-after", W, "if Nat.eqb i q then acc", "if Nat.leb i q then acc", "every other team counts", O, "C141")
m("x-wl-inner-avg", W, "(omega + small_delta, large_delta + eta)) infos (#0, #0).", "(small_delta, eta)) infos (#0, #0).", "the effects of all opponents add up", O, "C141")
m("x-wl-inner-tie", W, "| Eq => flit 5 10\n    | Lt => #0", "| Eq => #1\n    | Lt => #0", "a tie with a weaker team costs points", O, "C141")
m("x-ts-exp-mean", T, "    let delta := ts_team_rating team_one - ts_team_rating team_two in\n    let denom := fsqrt (ts_team_uncertainty_sq team_two\n                        + ffma", "    let delta := ts_team_rating team_one / flen team_one - ts_team_rating team_two / flen team_two in\n    let denom := fsqrt (ts_team_uncertainty_sq team_two\n                        + ffma", "the strength of a team is the sum of its ratings", P + O, "C141")
m("x-ts-exp-nobeta", T, "    let denom := fsqrt (ts_team_uncertainty_sq team_two\n                        + ffma player_count (fpowi (ts_beta config) 2) (ts_team_uncertainty_sq team_one)) in\n    let exp_one", "    let denom := fsqrt (ts_team_uncertainty_sq team_one\n                        + ffma player_count (fpowi (ts_beta config) 2) (ts_team_uncertainty_sq team_one)) in\n    let exp_one", "both teams' uncertainty counts", P, "C142")
m("x-ts-vfall", T, "if norm <? ts_tiny then - diff_c + draw_c\n    else pdf (diff_c - draw_c) #0 #1 / norm.", "if norm <? ts_tiny then #0\n    else pdf (diff_c - draw_c) #0 #1 / norm.", "every win gains points", F, "C140")
m("x-ts-new-c", T, "let mean_multiplier := ffma uncertainty uncertainty (fpowi dynamics_factor 2) / c in", "let mean_multiplier := fmin (ffma uncertainty uncertainty (fpowi dynamics_factor 2) / c) (fpowi uncertainty 4) in", "repeated wins pass every bound", F, "C140")
m("x-gl-cap-rating", G2, "Some (mkGlicko2 (ffma new_rating1 g2_scale #1500)", "Some (mkGlicko2 (fmin (ffma new_rating1 g2_scale #1500) #4000)", "ratings have no ceiling", F, "C140")
m("x-wl-cap", W, "let new_rating1 := wl_new_rating (wl_rating player_one) (wl_uncertainty player_one) c p1 outcome1 in", "let new_rating1 := fmin (wl_new_rating (wl_rating player_one) (wl_uncertainty player_one) c p1 outcome1) #100 in", "ratings have no ceiling", F + E, "C140", "C139")
MUTANTS = M
