"""Wrong programs aimed at C150 (dividing a rating period)."""
M = []
def m(name, file, old, new, claim, *expect):
    M.append(dict(name=name, file=file, old=old, new=new, claim=claim, expect=list(expect), only=["PropsSplit"]))
m("d-elo-initial", "ModelElo.v", "mkElo (fold_left (elo_period_step config) results (elo_rating player)).", "mkElo (fold_left (fun x r => x + (elo_period_step config (elo_rating player) r - elo_rating player)) results (elo_rating player)).", "dividing an Elo period makes no difference", "C150_sequential_split")
m("d-wl-firstu", "ModelWengLin.v", "fold_left (wl_period_step config) results (wl_rating player, wl_uncertainty player) in", "fold_left (fun s r => (fst (wl_period_step config (fst s, wl_uncertainty player) r), snd (wl_period_step config s r))) results (wl_rating player, wl_uncertainty player) in", "every game uses the current uncertainty", "C150_sequential_split")
m("d-uscf-past", "ModelUscf.v", "mkUscf (uscf_new_rating_provisional (uscf_rating player) (uscf_games player) len\n                  avg_opponent_rating wins losses)\n               (usize_add (uscf_games player) len)", "mkUscf (uscf_new_rating_provisional (uscf_rating player) (uscf_games player) len\n                  avg_opponent_rating wins losses)\n               (usize_add (uscf_games player) 1)", "every game of a period is counted", "C150_uscf_split")
m("d-ingo-once", "ModelIngo.v", "let new_rating := ffma performance (flen results) (ingo_rating player * development)\n                      / (flen results + development) in", "let new_rating := ffma performance #1 (ingo_rating player * development)\n                      / (#1 + development) in", "every game of an Ingo period has the same weight", "C150_ingo_split")
m("d-egf-sequential", "ModelEgf.v", "    let con := egf_con (egf_rating player) in\n    let bonus := egf_bonus (egf_rating player) in\n    let rating_change := fold_left (egf_period_step player con bonus) results #0 in\n    mkEgf (egf_rating player + rating_change).", "    mkEgf (fold_left (fun x r => x + egf_period_step (mkEgf x) (egf_con x) (egf_bonus x) #0 r) results (egf_rating player)).", "all games of an EGF period use the rating before it", "C150_egf_split")
MUTANTS = M
