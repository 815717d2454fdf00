"""Edits aimed at the comparison properties C94-C96 and the double precision properties C66, C97, C98."""
M = []
def m(name, file, old, new, claim, *expect, **kw):
    M.append(dict(name=name, file=file, old=old, new=new, claim=claim, expect=list(expect), **kw))
G, S, B = "ModelGlicko.v", "ModelSticko.v", "ModelBoost.v"
m("x-gl-nocap", G, "fmin (fhypot deviation c) #350.", "fhypot deviation c.", "deviations stay within [0,350] for infinite c", "C97")
m("x-gl-c-squared", G, "fmin (fhypot deviation c) #350.", "fmin (fsqrt (deviation - c)) #350.", "no NaN for c larger than the deviation", "C97")
m("x-gl-swap-out", G, "let outcome2 := #1 - outcome1 in", "let outcome2 := outcome1 in", "the loser does not gain", "C98")
m("x-gl-e-nan", G, "frecip (#1 + (fpow #10 (- g * (rating - opponent_rating) / #400))).", "(fpow #10 (g * (rating - opponent_rating) / #400)) / (#1 + (fpow #10 (g * (rating - opponent_rating) / #400))).", "no overflow to inf/inf for large gaps", "C97", "C98")
m("x-gl-exp-nan", G, "let exp_one := frecip (#1 + fpow #10 (- g * (gl_rating player_one - gl_rating player_two) / #400)) in", "let exp_one := fpow #10 (g * (gl_rating player_one - gl_rating player_two) / #400) / (#1 + fpow #10 (g * (gl_rating player_one - gl_rating player_two) / #400)) in", "expectations are never NaN", "C66")
m("x-st-nocap", S, "fmin (fsqrt (frecip (frecip (ffma old_deviation old_deviation h) + frecip d))) #350.", "fsqrt (frecip (frecip (ffma old_deviation old_deviation h) + frecip d)).", "a negative h cannot produce a NaN deviation", "C97")
m("x-st-lambda", S, "let lambda1 := (st_lambda config / #100) * (st_rating player_two - st_rating player_one) in", "let lambda1 := (st_lambda config / #100) * (st_rating player_one - st_rating player_two) in", "lambda pulls the underdog up", "C98")
m("x-st-beta", S, "(score - e + beta) old_rating", "(score - e - beta) old_rating", "beta rewards activity", "C98")
m("x-gb-sqrt-cap", B, "Definition gb_z_value (g e score : F) : F := (g * (score - e)) / fsqrt (fpowi g 2 * e * (#1 - e)).", "Definition gb_z_value (g e score : F) : F := (score - e) / fsqrt (e * (#1 - e)).", "z does not depend on g (still true: g cancels over the reals)")
F = "ModelFifa.v"
m("x-fi-o2", F, "    else #1 - fifa_outcome1 config outcome.", "    else fifa_outcome1 config outcome.", "the loser does not gain", "C98")
m("x-fi-knock", F, "if fifa_knockout config && (fifa_rating player_two >? new_rating2) then fifa_rating player_two", "if fifa_knockout config && (new_rating2 >? fifa_rating player_two) then fifa_rating player_one", "the winner of a knock-out keeps their own rating", "C98")
U = "ModelUscf.v"
m("x-us-k", U, "let k := #800 / (ne + fofN played_games) in", "let k := #800 / (ne - fofN played_games) in", "K is positive and finite", "C97", "C98")
m("x-us-sqrt", U, "(fpowi (#2569 - rating) 2)", "(#2569 - rating)", "effective game number is a number for every rating", "C97")
m("x-us-swap", U, "(Z_of_bool (outcome_eqb outcome LOSS)) (Z_of_bool (outcome_eqb outcome WIN))", "(Z_of_bool (outcome_eqb outcome WIN)) (Z_of_bool (outcome_eqb outcome LOSS))", "provisional loser does not get the winner's bonus", "C10")
D = "ModelDwz.v"
m("x-dw-clamp", D, "if e <=? #5 then #5", "if e <=? #(-5) then #5", "E is at least 5", "C17")
m("x-dw-b", D, "else if e >=? #150 then #150", "else if e >=? finf then #150", "E is at most 150, also when the brake overflows", "C97")
m("x-dw-sign", D, "then fexpm1 ((#1300 - rating) / #150) else #0 in", "then fexpm1 ((rating - #1300) / #150) else #0 in", "the brake is non-negative", "C97")
E = "ModelEgf.v"
m("x-eg-con", E, "fpow ((#3300 - rating) / #200) (flit 16 10).", "fpow ((#2300 - rating) / #200) (flit 16 10).", "con is a number for all ratings below 3300", "C97")
m("x-eg-beta", E, "#(-7) * fln (#3300 - h - rating).", "#(-7) * fln (#3300 - #2 * h - rating).", "beta is a number with 9 handicap stones at 2399", "C66", "C97")
m("x-eg-bonus", E, "fln1p (fexp ((#2300 - rating) / #80)) / #5.", "fln (fexp ((#2300 - rating) / #80)) / #5.", "the bonus is not negative", "C97")
m("x-gl-94", G, "let g1 := gl_g_value q (gl_deviation player_two) in", "let g1 := gl_g_value q (gl_rating player_two) in", "a stronger opponent is worth more", "C94")
m("x-el-94", "ModelElo.v", "frecip (#1 + fpow #10 ((elo_rating player_two - elo_rating player_one) / #400)) in", "frecip (#1 + fpow #10 ((elo_rating player_one - elo_rating player_two) / #400)) in", "a stronger opponent is worth more", "C94", "C95")
m("x-ig-94", "ModelIngo.v", "average_rating - ffma #100 score (#(-50)).", "ffma #100 score (#(-50)) - average_rating.", "a stronger opponent is worth more", "C94", "C95")
m("x-us-95", U, "(if rating <? #2355", "(if rating >? #2355", "the same result keeps players in order", "C95")
m("x-gb-96", B, "ffma (ffma (z - gb_k config) (gb_b0 config) #1) deviation (gb_b1 config).", "fmax deviation (ffma (ffma (z - gb_k config) (gb_b0 config) #1) deviation (gb_b1 config)).", "(repairs the boost: the refutation must fail or the counterexample is another effect)", "C96")
MUTANTS = M
