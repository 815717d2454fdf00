"""Wrong programs aimed at C148 (calibration) and the Sticko and Glicko-Boost parts of C95 (order)."""
M = []
def m(name, file, old, new, claim, only, *expect):
    M.append(dict(name=name, file=file, old=old, new=new, claim=claim, expect=list(expect), only=only))
C, O = ["PropsCalib"], ["PropsOrderSt"]
m("k-elo-forecast-scale", "ModelElo.v", "let exp_one := frecip (#1 + fpow #10 ((elo_rating player_two - elo_rating player_one) / #400)) in", "let exp_one := frecip (#1 + fpow #10 ((elo_rating player_two - elo_rating player_one) / #200)) in", "forecasts of expected_score and results agree in the long run", C, "C148")
m("k-elo-clamp", "ModelElo.v", "    let outcome2 := #1 - outcome1 in\n    let one_new_elo := ffma (elo_k config) (outcome1 - one_expected) (elo_rating player_one) in", "    let outcome2 := #1 - outcome1 in\n    let one_new_elo := fmax (elo_rating player_one) (ffma (elo_k config) (outcome1 - one_expected) (elo_rating player_one)) in", "losses are charged against the forecast", C, "C148")
m("k-elo-doublewin", "ModelElo.v", "    let one_new_elo := ffma (elo_k config) (outcome1 - one_expected) (elo_rating player_one) in", "    let one_new_elo := ffma (elo_k config) (outcome1 * outcome1 - one_expected) (elo_rating player_one) in", "draws count as half a point", C, "C148")
m("o-st-no-pull", "ModelSticko.v", "    let lambda1 := (st_lambda config / #100) * (st_rating player_two - st_rating player_one) in", "    let lambda1 := (st_lambda config / #100) * (st_rating player_one - st_rating player_two) in", "the lambda term pulls towards the opponent", O, "C95_order_sticko")
m("o-st-percent", "ModelSticko.v", "    let lambda1 := (st_lambda config / #100) * (st_rating player_two - st_rating player_one) in", "    let lambda1 := (st_lambda config / #10) * (st_rating player_two - st_rating player_one) in", "lambda is a percentage", O, "C95_order_sticko")
m("o-st-square", "ModelSticko.v", "(score - e + beta) old_rating + lambda.", "(score - e + beta) (#1000) + lambda.", "the new rating builds on the old one", O, "C95_order_sticko")
m("o-gb-never", "ModelBoost.v", "    if (z >? gb_k config) && negb (gb_k config =? #0) then", "    if (z >? gb_k config) && (gb_k config =? #0) then", "exceptional results are boosted", O, "C95_order_boost")
m("o-gb-b1", "ModelBoost.v", "ffma (ffma (z - gb_k config) (gb_b0 config) #1) deviation (gb_b1 config).", "ffma (ffma (z - gb_k config) (gb_b0 config) #1) deviation #0.", "the boost adds b1 to the deviation", O, "C95_order_boost")
MUTANTS = M
