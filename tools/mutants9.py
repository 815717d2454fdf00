"""Wrong programs aimed at C134-C139: uncertainty of the opponent, who pays, expected
order of several teams, the first DWZ and long runs of equal results."""
M = []
def m(name, file, old, new, claim, *expect):
    M.append(dict(name=name, file=file, old=old, new=new, claim=claim, expect=list(expect)))
I, D, G, T = "ModelIngo.v", "ModelDwz.v", "ModelGlicko.v", "ModelTS.v"
m("y-ingo-off", I, "ffma #100 score (#(-50))", "ffma #100 score (#(-60))", "draws settle at the opponent's rating", "C23", "C139")
m("y-ingo-dev", I, "let development1 := ingo_age_to_devcoefficent (ingo_age player_one) in", "let development1 := ingo_age_to_devcoefficent (ingo_age player_two) in", "the player's own age sets the speed", "C23", "C139")
m("y-dwz-rev", D, "if new_rating <=? #800 then #700 + new_rating / #8 else new_rating", "if new_rating <=? #800 then #700 - new_rating / #8 else new_rating", "better results never give a lower first DWZ", "C21", "C138")
m("y-dwz-trunc", D, "ftoZ (fround ((points / flen results) * #100))", "(2 * ftoZ (fround ((points / flen results) * #50)))%Z", "among 50 games every better result counts", "C21", "C138")
m("y-dwz-last", D, "let average_rating := fsum (map (fun r => dwz_rating (fst r)) results) / flen results in", "let average_rating := match results with nil => #0 | cons r _ => dwz_rating (fst r) end in", "the order of the results does not matter", "C21", "C138")
m("y-dwz-sign", D, "fabs temp + average_rating", "temp + average_rating", "a score above one half is worth more than the average", "C21", "C138")
m("y-gl-g-own", G, "let g1 := gl_g_value q (gl_deviation player_two) in", "let g1 := gl_g_value q (gl_deviation player_one) in", "results against uncertain opponents count less", "C26", "C134", "C139")
m("y-gl-d-swap", G, "let d1 := gl_d_value q g1 e1 in", "let d1 := gl_d_value q g2 e1 in", "players of equal deviation exchange points", "C26", "C134", "C135")
m("y-ts-count", T, "                            + ffma player_count (fpowi (ts_beta config) 2) (ts_team_uncertainty_sq team_one)", "                            + ffma (fofZ (Z.of_nat (length team_one))) (fpowi (ts_beta config) 2) (ts_team_uncertainty_sq team_one)", "of two equally uncertain teams the stronger is expected to do better", "C136", "C54")
m("y-ts-self", T, "if Nat.eqb i j then nil", "if Nat.leb i j then nil", "every pair of teams is compared in both directions", "C136", "C54")
MUTANTS = M
