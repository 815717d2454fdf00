"""Wrong programs aimed at C144 (Glicko-Boost), C145 and C146."""
M = []
def m(name, file, old, new, claim, only, *expect):
    M.append(dict(name=name, file=file, old=old, new=new, claim=claim, expect=list(expect), only=only))
W, B = "ModelWengLin.v", "ModelBoost.v"
SP = ["PropsShare", "PropsPairs"]
m("u-wl-first", W, "        (omega + small_delta, large_delta + eta)) infos (#0, #0).", "        (small_delta, large_delta + eta)) infos (#0, #0).", "the changes of all two-team games add up", SP, "C145", "C146")
m("u-wl-eta-last", W, "        (omega + small_delta, large_delta + eta)) infos (#0, #0).", "        (omega + small_delta, eta)) infos (#0, #0).", "the uncertainty falls with every opponent team", SP, "C145", "C146")
m("u-wl-self", W, "      if Nat.eqb i q then acc\n", "      if Nat.leb i q then acc\n", "every opponent team counts", SP, "C145", "C146")
m("u-wl-avgshare", W, "wl_new_rating_teams (wl_rating player) player_uncertainty_sq team_uncertainty_sq omega)\n", "wl_new_rating_teams (wl_rating player) #1 (flen team) omega)\n", "team mates share by their variance", SP, "C145", "C146")
m("u-wl-udiff", W, "      fmax (ffma (player_uncertainty_sq / team_uncertainty_sq) (- large_delta) #1) uncertainty_tolerance in\n    fsqrt (player_uncertainty_sq", "      fmax (ffma #1 (- large_delta) #1) uncertainty_tolerance in\n    fsqrt (player_uncertainty_sq", "the variance share scales the uncertainty change", SP, "C145", "C146")
m("u-wl-tie0", W, "    | Eq => flit 5 10\n    | Lt => #0\n", "    | Eq => #0\n    | Lt => #0\n", "tied teams score like a drawn two-team game", SP, "C146")
m("u-wl-rank-swap", W, "let score := wl_rank_score rank_two rank_one in", "let score := wl_rank_score rank_one rank_two in", "the lower rank wins the two-team game", SP, "C145", "C146")
m("u-wl-oneopp", W, "wl_c_teams (wl_beta config) usq_i usq_q in\n        let '(p, _) := wl_p_value rating_i rating_q c in", "wl_c_teams (wl_beta config) usq_i usq_i in\n        let '(p, _) := wl_p_value rating_i rating_q c in", "c is that of the two-team game", SP, "C146")
m("u-gb-dev-old", B, "let new_rating := ffma (fpowi new_deviation 2 * q) m (gb_rating player) in", "let new_rating := ffma (fpowi (gb_deviation player) 2 * q) m (gb_rating player) in", "many games in one period have a limit", ["PropsSweep"], "C144_boost")
m("u-gb-nocolour", B, "          let e := gb_e_value g (gb_rating player) (gb_rating opp) (gb_eta config) (gb_colour white) in\n          let s", "          let e := gb_e_value g (gb_rating player) (gb_rating opp) (gb_eta config) #1 in\n          let s", "the colour shifts the opponent", ["PropsSweep"], "C144_boost")
MUTANTS = M
