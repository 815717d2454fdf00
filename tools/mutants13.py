"""Wrong programs aimed at C147: the starting rating is forgotten."""
M = []
def m(name, file, old, new, claim, *expect):
    M.append(dict(name=name, file=file, old=old, new=new, claim=claim, expect=list(expect), only=["PropsForget"]))
m("f-elo-initial", "ModelElo.v", "mkElo (fold_left (elo_period_step config) results (elo_rating player)).", "mkElo (fold_left (fun x r => x + (elo_period_step config (elo_rating player) r - elo_rating player)) results (elo_rating player)).", "every game uses the current rating, so the starting rating is forgotten", "C147")
m("f-elo-sign", "ModelElo.v", "((elo_rating opponent - player_rating) / #400)) in\n    let outcome := to_chess_points result in\n    ffma", "((player_rating - elo_rating opponent) / #400)) in\n    let outcome := to_chess_points result in\n    ffma", "the gap between two players shrinks", "C147")
m("f-elo-half", "ModelElo.v", "    ffma (elo_k config) (outcome - exp) player_rating.", "    ffma (elo_k config) (outcome - flit 5 10) player_rating.", "the gap between two players shrinks", "C147")
m("f-fifa-flat", "ModelFifa.v", "let exp := frecip (#1 + fpow #10 (- (player_rating - fifa_rating opponent) / #600)) in\n    let outcome := fifa_outcome1 config result in\n    let new_rating", "let exp := frecip (#1 + fpow #10 (- (fifa_rating opponent - fifa_rating opponent) / #600)) in\n    let outcome := fifa_outcome1 config result in\n    let new_rating", "the gap between two teams shrinks", "C147")
m("f-fifa-ko", "ModelFifa.v", "if negb (fifa_knockout config && (player_rating >? new_rating)) then new_rating\n    else player_rating.", "if negb (player_rating >? new_rating) then new_rating\n    else player_rating.", "outside knock-out matches teams lose points", "C147")
m("f-ingo-nodev", "ModelIngo.v", "                      / (flen results + development) in", "                      / (development + #1) in", "a period of n games multiplies the gap by D/(D+n)", "C147")
MUTANTS = M
