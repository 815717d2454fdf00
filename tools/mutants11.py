"""Wrong programs aimed at C144: many games in one rating period."""
M = []
def m(name, file, old, new, claim, *expect):
    M.append(dict(name=name, file=file, old=old, new=new, claim=claim, expect=list(expect), only=["PropsSweep"]))
G, S, D, I, U, E = "ModelGlicko.v", "ModelSticko.v", "ModelDwz.v", "ModelIngo.v", "ModelUscf.v", "ModelEgf.v"
m("v-gl-mean-m", G, "          g * (s - e)) results) in\n      let pre", "          g * (s - e)) results) / flen results in\n      let pre", "every further game counts", "C144")
m("v-gl-d-mean", G, "      let d_sq := frecip (fpowi q 2 * fsum (map (fun r =>", "      let d_sq := frecip (fpowi q 2 / flen results * fsum (map (fun r =>", "the change has a limit", "C144")
m("v-gl-nil", G, "    | nil => glicko_decay_deviation player config", "    | nil => player", "no games: only the deviation grows", "C144")
m("v-gl-dev-noc", G, "let new_deviation := fsqrt (frecip (frecip (fpowi pre_deviation 2) + frecip d_sq)) in\n      mkGlicko", "let new_deviation := fsqrt (frecip (frecip (fpowi (gl_deviation player) 2) + frecip d_sq)) in\n      mkGlicko", "the deviation falls from the widened one", "C144")
m("v-st-lam-sum", S, "results) / matches)\n           - st_rating player) in", "results))\n           - st_rating player) in", "lambda counts once, whatever the number of games", "C144")
m("v-st-h-rating", S, "ffma (q / (frecip (fpowi pre_deviation 2) + frecip d_sq)) m (st_rating player) + lambda in\n      mkSticko", "ffma (q / (frecip (ffma pre_deviation pre_deviation (st_h config * matches)) + frecip d_sq)) m (st_rating player) + lambda in\n      mkSticko", "h does not change the rating", "C144")
m("v-dwz-one", D, "                    + flen results))\n", "                    + #1))\n", "a period never moves a rating by 800 points", "C144")
m("v-dwz-index", D, "    mkDwz new_rating (usize_add (dwz_index player) 1) (dwz_age player).\n\n  (** dwz.rs:436", "    mkDwz new_rating (usize_add (dwz_index player) (N.of_nat (length results))) (dwz_age player).\n\n  (** dwz.rs:436", "a period is one evaluation", "C144")
m("v-ingo-one", I, "                      / (flen results + development) in", "                      / (#1 + development) in", "the rating is an average of performance and old rating", "C144")
m("v-ingo-noweight", I, "let new_rating := ffma performance (flen results) (ingo_rating player * development)\n                      / (flen results + development) in", "let new_rating := (performance + ingo_rating player * development)\n                      / (#1 + development) in", "longer periods weigh more", "C144")
m("v-uscf-avg", U, "let avg_opponent_rating := fsum (map (fun r => uscf_rating (fst r)) results) / flen results in", "let avg_opponent_rating := fsum (map (fun r => uscf_rating (fst r)) results) in", "the average opponent counts", "C144")
m("v-uscf-games", U, "               (usize_add (uscf_games player) len)\n      else", "               (usize_add (uscf_games player) 1)\n      else", "every game is counted", "C144")
m("v-uscf-exp", U, "let exp_sum := fsum (map (fun r => uscf_e_value (uscf_rating player) (uscf_rating (fst r))) results) in", "let exp_sum := fsum (map (fun r => uscf_e_value (uscf_rating player) (uscf_rating (fst r))) results) / flen results in", "the expected score of all games counts", "C144")
m("v-egf-last", E, "fold_left (egf_period_step player con bonus) results #0 in", "fold_left (egf_period_step player con bonus) (firstn 10 results) #0 in", "every game of a period counts", "C144")
MUTANTS = M
