M = []
def m(name, file, old, new, claim, *expect, **kw):
    M.append(dict(name=name, file=file, old=old, new=new, claim=claim, expect=list(expect), **kw))
# --- Elo
m("elo-scale","ModelElo.v","let exp_one := frecip (#1 + fpow #10 ((elo_rating player_two - elo_rating player_one) / #400)) in","let exp_one := frecip (#1 + fpow #10 ((elo_rating player_two - elo_rating player_one) / #600)) in","expected score uses 400 points per factor 10","C01","C03","C63")
m("elo-swap-exp","ModelElo.v","let exp_one := frecip (#1 + fpow #10 ((elo_rating player_two - elo_rating player_one) / #400)) in","let exp_one := frecip (#1 + fpow #10 ((elo_rating player_one - elo_rating player_two) / #400)) in","the stronger player is favoured","C01","C03","C05")
m("elo-outcome2","ModelElo.v","(outcome2 - two_expected) (elo_rating player_two)","(outcome1 - two_expected) (elo_rating player_two)","zero sum","C01","C02")
m("elo-period-static","ModelElo.v","mkElo (fold_left (elo_period_step config) results (elo_rating player)).","mkElo (fold_left (fun a r => a + (elo_period_step config (elo_rating player) r - elo_rating player)) results (elo_rating player)).","period updates the rating after every game","C05")
m("elo-period-rev","ModelElo.v","fold_left (elo_period_step config) results","fold_left (elo_period_step config) (rev results)","period plays the games in order","C05")
m("elo-default-k","ModelElo.v","mkEloConfig #32","mkEloConfig #24","default k","C80")
m("elo-draw","ModelLib.v","| DRAW => flit 5 10","| DRAW => flit 4 10","a draw scores one half","C65","C01")
# --- FIFA
m("fifa-600","ModelFifa.v","(fifa_rating player_one - fifa_rating player_two) / #600","(fifa_rating player_one - fifa_rating player_two) / #400","FIFA uses 600","C06","C63")
m("fifa-ko-or","ModelFifa.v","if fifa_knockout config && (fifa_rating player_two >? new_rating2)","if fifa_knockout config && (fifa_rating player_one >? new_rating1)","knock-out protects each team","C07")
m("fifa-ko-period","ModelFifa.v","if negb (fifa_knockout config && (player_rating >? new_rating)) then new_rating\n    else player_rating","new_rating","knock-out protects in the period too","C07","C70")
m("fifa-ko-always","ModelFifa.v","if fifa_knockout config && (fifa_rating player_one >? new_rating1)","if (fifa_rating player_one >? new_rating1)","without knock-out points are lost","C06")
m("fifa-pen-period","ModelFifa.v","    let outcome := fifa_outcome1 config result in","    let outcome := to_chess_points result in","penalties count in the period","C08","C70")
m("fifa-pen-fixed","ModelFifa.v","      if outcome_eqb outcome WIN then flit 75 100 else flit 5 10\n    else #1 - fifa_outcome1 config outcome.","      if outcome_eqb outcome LOSS then flit 75 100 else flit 5 10\n    else #1 - fifa_outcome1 config outcome.","(repairs the penalty finding)","C08")
# --- Ingo
m("ingo-sign","ModelIngo.v","average_rating - ffma #100 score (#(-50))","average_rating + ffma #100 score (#(-50))","better score gives better (lower) performance","C23","C71","C24")
m("ingo-age","ModelIngo.v","if (age <=? 20)%N then #10","if (age <? 20)%N then #10","coefficient 10 up to age 20","C23")
m("ingo-n","ModelIngo.v","/ (flen results + development) in","/ (#1 + development) in","period divides by number of games plus coefficient","C24")
m("ingo-age-keep","ModelIngo.v","mkIngo new_rating2 (ingo_age player_two)).","mkIngo new_rating2 (ingo_age player_one)).","age unchanged","C23")
m("ingo-expected","ModelIngo.v","let exp_one := flit 5 10 + (ingo_rating player_two - ingo_rating player_one) / #100 in","let exp_one := flit 5 10 + (ingo_rating player_one - ingo_rating player_two) / #100 in","lower Ingo number is favoured","C25","C63")
m("ingo-conv","ModelIngo.v","mkElo (ffma #8 (- ingo_rating i) #2840)","mkElo (ffma #8 (- ingo_rating i) #2480)","Elo/Ingo round trip","C61")
# --- USCF
m("uscf-floor","ModelUscf.v","(Z_of_bool (outcome_eqb outcome LOSS)) (Z_of_bool (outcome_eqb outcome WIN))\n       else\n         uscf_new_rating (uscf_rating player_two) (uscf_games player_two) 1 outcome2 e2 config) #100 in","(Z_of_bool (outcome_eqb outcome LOSS)) (Z_of_bool (outcome_eqb outcome WIN))\n       else\n         uscf_new_rating (uscf_rating player_two) (uscf_games player_two) 1 outcome2 e2 config) #0 in","rating floor 100","C09")
m("uscf-prov-9","ModelUscf.v","if (uscf_games player <=? 8)%N then","if (uscf_games player <? 8)%N then","8 games are still provisional","C10")
m("uscf-wins-losses","ModelUscf.v","ffma (fofZ (wins - losses)) #400","ffma (fofZ (wins + losses)) #400","losses count negative","C10")
m("uscf-games","ModelUscf.v","mkUscf new_rating2 (usize_add (uscf_games player_two) 1)).","mkUscf new_rating2 (uscf_games player_two)).","games counter grows by one","C11")
m("uscf-games-period","ModelUscf.v","        mkUscf (uscf_new_rating (uscf_rating player) (uscf_games player) len score exp_sum config)\n               (usize_add (uscf_games player) len)","        mkUscf (uscf_new_rating (uscf_rating player) (uscf_games player) len score exp_sum config)\n               (usize_add (uscf_games player) 1)","games counter grows by the number of games","C11")
m("uscf-bonus-2","ModelUscf.v","if (played_games <? 3)%N then #0","if (played_games <? 2)%N then #0","no bonus for fewer than three games","C12")
m("uscf-bonus-min","ModelUscf.v","(fofN (N.min played_games 4))","(fofN (N.max played_games 4))","bonus threshold uses max(games,4) as in the USCF rules? the code takes min","C12")
m("uscf-effn","ModelUscf.v","(fmin (fofN past_games) #50).","(fmin (fofN past_games) #60).","effective number of games at most 50","C10", )
m("uscf-score-e","ModelUscf.v","ffma k (score - e) rating + boost","ffma k (e - score) rating + boost","winning raises the rating","C72","C10")
m("uscf-conv","ModelUscf.v","if uscf_rating u >? #2060 then","if uscf_rating u >? #2000 then","USCF/Elo round trip at the branch","C61")
# --- EGF
m("egf-floor","ModelEgf.v","(#(-900))","(#(-1900))","EGF floor","C14")
m("egf-handicap-side","ModelEgf.v","then (fabs (egf_handicap config), #0)\n    else (#0, fabs (egf_handicap config))","then (#0, fabs (egf_handicap config))\n    else (fabs (egf_handicap config), #0)","handicap side","C13","C16")
m("egf-con-exp","ModelEgf.v","(flit 16 10)","(flit 26 10)","con exponent","C13")
m("egf-bonus-80","ModelEgf.v","(#2300 - rating) / #80","(#2300 - rating) / #180","bonus formula","C13")
m("egf-period-compound","ModelEgf.v","    rating_change + (egf_new_rating (egf_rating player) con outcome exp1 bonus - egf_rating player).","    rating_change + (egf_new_rating (egf_rating player) con outcome exp1 bonus).","period sums changes","C73")
m("egf-mirror","ModelEgf.v","    let outcome2 := #1 - outcome1 in\n    let new_rating1 := egf_new_rating (egf_rating player_one) con1","    let outcome2 := #1 - outcome1 in\n    let new_rating1 := egf_new_rating (egf_rating player_one) con2","player one's own con","C13","C16")
# --- DWZ
m("dwz-age-20","ModelDwz.v","let j := if (age <=? 20)%N then #5","let j := if (age <=? 25)%N then #5","j for juniors","C17")
m("dwz-min5","ModelDwz.v","if e <=? #5 then #5","if e <=? #4 then #4","coefficient at least 5","C17")
m("dwz-cap30","ModelDwz.v","if e >=? fmin #30 (#5 * fofN index) then fmin #30 (#5 * fofN index) else e","if e >=? fmin #50 (#5 * fofN index) then fmin #50 (#5 * fofN index) else e","coefficient at most 30","C17")
m("dwz-index","ModelDwz.v","mkDwz r2 (usize_add (dwz_index player_two) 1) (dwz_age player_two)).","mkDwz r2 (dwz_index player_two) (dwz_age player_two)).","index grows by one","C19")
m("dwz-first-4","ModelDwz.v","if Nat.ltb (length results) 5 then","if Nat.ltb (length results) 4 then","at least five games","C20")
m("dwz-first-zero","ModelDwz.v","|| (points =? #0) then","|| (points =? #1) then","all losses rejected","C20")
m("dwz-first-table","ModelDwz.v","(Z.abs (p - 100))","(Z.abs (p - 99))","table lookup mirrored","C21")
m("dwz-first-bonus","ModelDwz.v","#700 + new_rating / #8","#600 + new_rating / #8","low first ratings are lifted to 700 + r/8","C21")
m("dwz-table-value","ModelDwz.v","[-728; -614; -555;","[-728; -641; -555;","probability table","C21")
m("dwz-index-first","ModelDwz.v","Ok (mkDwz new_rating 1 player_age)","Ok (mkDwz new_rating 0 player_age)","first index is 1","C19","C21")
m("dwz-800","ModelDwz.v","ffma (#800 / (e + matches_played)) (score - expected_score) old_rating.","ffma (#800 / (e - matches_played)) (score - expected_score) old_rating.","update formula","C18")
MUTANTS = M
