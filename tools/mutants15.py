"""Wrong programs aimed at C149 (later results), C139 (draws for ever) and the Glicko-Boost parts of C134 and C135."""
M = []
def m(name, file, old, new, claim, only, *expect):
    M.append(dict(name=name, file=file, old=old, new=new, claim=claim, expect=list(expect), only=only))
R, V, W, U = ["PropsRecent"], ["PropsEvenly"], ["PropsWho"], ["PropsUncertain"]
m("l-elo-initial", "ModelElo.v", "mkElo (fold_left (elo_period_step config) results (elo_rating player)).", "mkElo (fold_left (fun x r => x + (elo_period_step config (elo_rating player) r - elo_rating player)) results (elo_rating player)).", "later results count more", R, "C149")
m("l-elo-reverse", "ModelElo.v", "mkElo (fold_left (elo_period_step config) results (elo_rating player)).", "mkElo (fold_right (fun r x => elo_period_step config x r) (elo_rating player) results).", "games are rated in the order given", R, "C149_elo_later")
m("l-fifa-half", "ModelFifa.v", "let exp := frecip (#1 + fpow #10 (- (player_rating - fifa_rating opponent) / #600)) in\n    let outcome := fifa_outcome1 config result in\n    let new_rating", "let exp := flit 5 10 in\n    let outcome := fifa_outcome1 config result in\n    let new_rating", "matches are rated one after the other with current ratings", R, "C149_fifa")
m("l-ingo-dev2", "ModelIngo.v", "let new_rating1 := ffma perf1 #1 (ingo_rating player_one * development1) / (#1 + development1) in", "let new_rating1 := ffma perf1 #1 (ingo_rating player_one * development2) / (#1 + development2) in", "the weight of a game is fixed by the player's own age", R, "C149_ingo")
m("l-dwz-exp2", "ModelDwz.v", "(dwz_e_value (dwz_rating player_one) (dwz_age player_one) outcome1 exp1 (dwz_index player_one))\n                outcome1 exp1 #1 in", "(dwz_e_value (dwz_rating player_one) (dwz_age player_one) outcome1 exp1 (dwz_index player_one))\n                outcome1 exp2 #1 in", "draws move the player towards the opponent", V, "C139_dwz")
m("l-st-pull", "ModelSticko.v", "    let lambda1 := (st_lambda config / #100) * (st_rating player_two - st_rating player_one) in", "    let lambda1 := (st_lambda config / #100) * (st_rating player_one - st_rating player_two) in", "each draw takes away lambda percent of the distance", V, "C139_sticko")
m("l-gb-colour2", "ModelBoost.v", "    let colour1 := #1 in\n    let colour2 := #(-1) in\n    let g1 := gb_g_value q (gb_deviation player_two) in", "    let colour1 := #1 in\n    let colour2 := #1 in\n    let g1 := gb_g_value q (gb_deviation player_two) in", "equally certain players exchange points", W, "C135_equal_boost")
m("l-gb-absz", "ModelBoost.v", "    if (z >? gb_k config) && negb (gb_k config =? #0) then", "    if (fabs z >? gb_k config) && negb (gb_k config =? #0) then", "only over-achievers are boosted, so a loser loses less to a less certain opponent", U, "C134_uncertain_boost")
m("l-gb-absz2", "ModelBoost.v", "    if (z >? gb_k config) && negb (gb_k config =? #0) then", "    if (z >? gb_k config) then", "k = 0 switches the boost off", W, "C135_equal_boost")
m("l-gb-own-g", "ModelBoost.v", "    let g1 := gb_g_value q (gb_deviation player_two) in\n    let g2 := gb_g_value q (gb_deviation player_one) in\n    let e1 := gb_e_value", "    let g1 := gb_g_value q (gb_deviation player_one) in\n    let g2 := gb_g_value q (gb_deviation player_two) in\n    let e1 := gb_e_value", "a less certain opponent counts less", U, "C134_uncertain_boost")
m("l-gb-decay-none", "ModelBoost.v", "mkBoost (gb_rating player) (gb_end_deviation (gb_rating player) (gb_deviation player) config).", "mkBoost (gb_rating player) (gb_deviation player + #0).", "an idle player becomes uncertain", ["PropsIdle"], "C143")
MUTANTS = M
