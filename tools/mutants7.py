"""Edits aimed at the double-precision theorems C113-C120: Glicko-2's volatility
iteration, Glicko-Boost, Weng-Lin and TrueSkill teams."""
M = []
def m(name, file, old, new, claim, *expect, **kw):
    M.append(dict(name=name, file=file, old=old, new=new, claim=claim, expect=list(expect), **kw))
G2, B, W, T = "ModelGlicko2.v", "ModelBoost.v", "ModelWengLin.v", "ModelTS.v"
# Glicko-2
m("x-g2-abs", G2, "if fabs (b - a) >? tol then", "if b - a >? tol then", "the iteration stops only when the bracket is short", "C115")
m("x-g2-start0", G2, "else g2_bracket fuel #1 a", "else g2_bracket fuel #0 a", "the bracketing search starts at a - tau", "C115")
m("x-g2-tau1", G2, "/ fpowi tau 2 in", "/ tau in", "the prior of the volatility has variance tau^2", "C115", "C117")
m("x-g2-f2", G2, "/ (#2 * fpowi (deviation_square + v + fexp x) 2) in", "/ (fpowi (deviation_square + v + fexp x) 2) in", "f is Glickman's function", "C115")
m("x-g2-fv", G2, "(delta_square - deviation_square - v - fexp x)", "(delta_square - deviation_square - fexp x)", "f is Glickman's function", "C115")
m("x-g2-root", G2, "| Some a => Some (fexp (a / #2))", "| Some a => Some (fexp a)", "the volatility is the exponential of half the root", "C115")
m("x-g2-noswap", G2, "then g2_illinois fuel' b fb c fc", "then g2_illinois fuel' a fa c fc", "the bracket keeps a change of sign", "C115", "C116")
m("x-g2-pre", G2, "let pre_deviation := fhypot deviation new_volatility in", "let pre_deviation := deviation in", "the volatility widens the deviation before the update", "C115")
m("x-g2-lnD", G2, "then Some (fln (delta_squared - deviation_squared - v))", "then Some (fln (delta_squared - deviation_squared))", "the upper end of the bracket is ln(Delta^2-phi^2-v)", "C115")
# Glicko-Boost
m("x-gb-k0", B, "if (z >? gb_k config) && negb (gb_k config =? #0) then", "if (z >? gb_k config) then", "k = 0 switches the boost off", "C120")
m("x-gb-old", B, "gb_boost_rd z after_deviation config", "gb_boost_rd z old_deviation config", "the boost is applied to the updated deviation", "C120")
m("x-gb-colour", B, "if white then #1 else #(-1).", "if white then #(-1) else #1.", "the advantage belongs to the first mover", "C120")
m("x-gb-alpha2", B, "(ffma (gb_alpha2 config * deviation) (rating / #1000)", "(ffma (gb_alpha2 config) (rating / #1000)", "the growth of the deviation is exp of the published polynomial", "C120")
m("x-gb-alpha4", B, "(fpowi (rating / #1000) 2)", "(fpowi rating 2)", "the rating enters the polynomial in thousands", "C120")
m("x-gb-perq", B, "let new_rating := ffma (fpowi new_deviation 2 * q) m (gb_rating player) in", "let new_rating := ffma (fpowi new_deviation 2) m (gb_rating player) in", "the rating moves by q RD^2 sum g(s-E)", "C120")
m("x-gb-perz", B, "let z := m / fsqrt d_sum in", "let z := m / fsqrt d_sq in", "Z is the standardised performance", "C120")
m("x-gb-b", B, "ffma (ffma (z - gb_k config) (gb_b0 config) #1) deviation (gb_b1 config).", "ffma (ffma z (gb_b0 config) #1) deviation (gb_b1 config).", "the boost grows with Z - k", "C120")
m("x-gb-eta2", B, "(gb_rating player_two) (gb_rating player_one) (gb_eta config) colour2", "(gb_rating player_two) (gb_rating player_one) (gb_eta config) colour1", "the second player suffers the advantage", "C120")
m("x-gb-exp", B, "(gb_rating player + gb_eta config - gb_rating (fst o))", "(gb_rating player - gb_eta config - gb_rating (fst o))", "the expected score counts the advantage for the player", "C120")
# Weng-Lin teams
m("x-wl-delta2", W, "wl_small_delta team_two_uncertainty_sq c p2 outcome2 in", "wl_small_delta team_two_uncertainty_sq c p1 outcome2 in", "each team is compared with its own probability", "C118")
m("x-wl-etap", W, "let team_one_eta := wl_eta team_one_uncertainty_sq c p1 (wl_gamma team_one_uncertainty_sq c) in", "let team_one_eta := wl_eta team_one_uncertainty_sq c p1 (wl_gamma team_two_uncertainty_sq c) in", "gamma is the team's own sqrt(U)/c", "C118")
m("x-wl-multic", W, "let c := fsqrt (ffma #2 (fpowi (wl_beta config) 2) (fsum uncertainties_sq)) in", "let c := fsqrt (ffma #2 (wl_beta config) (fsum uncertainties_sq)) in", "beta enters c squared", "C118")
m("x-wl-rank", W, "    | Gt => #1\n    | Eq => flit 5 10\n    | Lt => #0", "    | Gt => #0\n    | Eq => flit 5 10\n    | Lt => #1", "the better placed team wins", "C118")
# TrueSkill teams
m("x-ts-c2", T, "let c := fsqrt (ffma total_players (fpowi (ts_beta config) 2) (uncertainty_one_sum + uncertainty_two_sum)) in", "let c := fsqrt (ffma #2 (fpowi (ts_beta config) 2) (uncertainty_one_sum + uncertainty_two_sum)) in", "every player adds beta^2 to c^2", "C119")
m("x-ts-margin2", T, "ts_draw_margin (ts_draw_probability config) (ts_beta config) total_players in\n      let rating_one_sum", "ts_draw_margin (ts_draw_probability config) (ts_beta config) #2 in\n      let rating_one_sum", "the draw margin grows with the number of players", "C119")
m("x-ts-mult", T, "ts_update_team config v w c rank_multiplier2 team_two).", "ts_update_team config v w c rank_multiplier1 team_two).", "the losers lose", "C119")
m("x-ts-qual", T, "(#2 * (ffma total_players (fpowi (ts_beta config) 2) uncertainty_one_sum + uncertainty_two_sum))) in", "(ffma total_players (fpowi (ts_beta config) 2) uncertainty_one_sum + uncertainty_two_sum)) in", "the match quality of two teams is the published one", "C119")
m("x-ts-exp2", T, "let denom := fsqrt (ts_team_uncertainty_sq team_two\n                        + ffma player_count (fpowi (ts_beta config) 2) (ts_team_uncertainty_sq team_one)) in\n    let exp_one", "let denom := fsqrt (ts_team_uncertainty_sq team_two\n                        + ffma #2 (fpowi (ts_beta config) 2) (ts_team_uncertainty_sq team_one)) in\n    let exp_one", "every player adds beta^2 to the denominator", "C119")
MUTANTS = M
