M = []
def m(name, file, old, new, claim, *expect, **kw):
    M.append(dict(name=name, file=file, old=old, new=new, claim=claim, expect=list(expect), **kw))
# --- Glicko
G = "ModelGlicko.v"
m("gl-q",G,"Definition gl_q : F := fln #10 / #400.","Definition gl_q : F := fln #2 / #400.","q = ln(10)/400","C26","C29")
m("gl-g-3",G,"#3 * fpowi q 2 * fpowi opponent_deviation 2","#2 * fpowi q 2 * fpowi opponent_deviation 2","g(RD) has the factor 3 q^2/pi^2","C26","C29","C75")
m("gl-g-own",G,"let g1 := gl_g_value q (gl_deviation player_two) in","let g1 := gl_g_value q (gl_deviation player_one) in","g uses the opponent's deviation","C26","C29")
m("gl-e-sign",G,"frecip (#1 + (fpow #10 (- g * (rating - opponent_rating) / #400))).","frecip (#1 + (fpow #10 (g * (rating - opponent_rating) / #400))).","the stronger player is expected to win","C26","C29")
m("gl-dev-nodecay",G,"let player_two_new_deviation := gl_new_deviation player_two_pre_deviation d2 in","let player_two_new_deviation := gl_new_deviation (gl_deviation player_two) d2 in","the deviation is inflated by c before the match","C26","C62")
m("gl-cap",G,"fmin (fhypot deviation c) #350.","fhypot deviation c.","deviation capped at 350","C26","C27","C30","C68")
m("gl-cap-max",G,"fmin (fhypot deviation c) #350.","fmax (fhypot deviation c) #350.","deviation capped at 350","C26","C27","C30","C68")
m("gl-decay-add",G,"fmin (fhypot deviation c) #350.","fmin (deviation + c) #350.","variances add, not deviations","C26","C30")
m("gl-period-empty",G,"| nil => glicko_decay_deviation player config","| nil => player","inactivity raises the deviation","C29")
m("gl-period-score",G,"          g * (s - e)) results) in","          (s - e)) results) in","period weights each game by g","C29")
m("gl-period-dsq",G,"          fpowi g 2 * e * (#1 - e)) results)) in","          g * e * (#1 - e)) results)) in","d^2 uses g squared","C29")
m("gl-exp-own",G,"let g := gl_g_value q (fhypot (gl_deviation player_one) (gl_deviation player_two)) in","let g := gl_g_value q (gl_deviation player_two) in","expected score uses both deviations","C75","C63")
m("gl-ci",G,"(ffma (flit 196 100) (- gl_deviation player) (gl_rating player),","(ffma (flit 196 100) (gl_deviation player) (gl_rating player),","lower bound is below the rating","C31")
m("gl-ci-2",G,"     ffma (flit 196 100) (gl_deviation player) (gl_rating player)).","     ffma (flit 2 1) (gl_deviation player) (gl_rating player)).","upper bound uses 1.96","C31")
m("gl-default-c",G,"(flit 632 10)","(flit 623 10)","default c = 63.2","C80")
# --- Sticko
S = "ModelSticko.v"
m("st-h-period",S,"(st_h config * matches)","(st_h config)","h counts once per game in the period","C33")
m("st-adv-sign",S,"let colour2 := #(-1) in","let colour2 := #1 in","the second player suffers the advantage","C33")
m("st-lambda",S,"let lambda2 := (st_lambda config / #100) * (st_rating player_one - st_rating player_two) in","let lambda2 := (st_lambda config / #100) * (st_rating player_two - st_rating player_one) in","lambda pulls towards the opponent","C33")
m("st-beta",S,"(score - e + beta) old_rating","(score - e - beta) old_rating","beta rewards activity","C33")
m("st-cap",S,"fmin (fsqrt (frecip (frecip (ffma old_deviation old_deviation h) + frecip d))) #350.","fsqrt (frecip (frecip (ffma old_deviation old_deviation h) + frecip d)).","deviation capped at 350 after a match","C33","C68")
m("st-colour",S,"if white then #1 else #(-1).","if white then #(-1) else #1.","flag true means advantage","C33")
m("st-exp-gamma",S,"if snd o then st_gamma config else - st_gamma config in","if snd o then st_gamma config else st_gamma config in","without the advantage gamma is subtracted","C76")
m("st-psys-flag",S,"(map (fun r => (fst r, snd r, true)) rs) config.","(map (fun r => (fst r, snd r, false)) rs) config.","the trait passes true","C60")
m("st-lambda-mean",S,"results) / matches)\n           - st_rating player) in","results))\n           - st_rating player) in","lambda uses the mean opponent rating","C33")
# --- Glicko-Boost
B = "ModelBoost.v"
m("gb-k-ge",B,"if (z >? gb_k config) && negb (gb_k config =? #0) then","if (z >? gb_k config) then","k = 0 disables the boost","C35")
m("gb-k-lt",B,"if (z >? gb_k config) && negb (gb_k config =? #0) then","if (z <? gb_k config) && negb (gb_k config =? #0) then","boost for exceptional performance only","C35")
m("gb-boost",B,"ffma (ffma (z - gb_k config) (gb_b0 config) #1) deviation (gb_b1 config).","ffma (ffma (z - gb_k config) (gb_b1 config) #1) deviation (gb_b0 config).","b0 multiplies, b1 adds","C35")
m("gb-end-missing",B,"(mkBoost new_rating1 end_deviation1, mkBoost new_rating2 end_deviation2).","(mkBoost new_rating1 end_deviation1, mkBoost new_rating2 new_deviation2).","both deviations grow at the end of the period","C35","C62")
m("gb-end-old-rating",B,"let end_deviation1 := gb_end_deviation new_rating1 new_deviation1 config in","let end_deviation1 := gb_end_deviation (gb_rating player_one) new_deviation1 config in","the growth uses the new rating","C35")
m("gb-alpha",B,"(ffma (gb_alpha2 config * deviation) (rating / #1000)","(ffma (gb_alpha2 config) (rating / #1000)","alpha2 multiplies deviation times rating","C35")
m("gb-rate-old-dev",B,"let new_rating := ffma (fpowi new_deviation 2 * q) m (gb_rating player) in","let new_rating := ffma (fpowi (gb_deviation player) 2 * q) m (gb_rating player) in","the period uses the new deviation for the rating","C35")
m("gb-eta-default",B,"mkBoostConfig #30 ","mkBoostConfig #0 ","default eta 30","C80")
m("gb-exp-fix",B,"frecip (#1 + fpow #10 (- g * (gb_rating player + gb_eta config - gb_rating (fst o)) / #400))) opponents.","frecip (#1 + fpow #10 (- g * (gb_rating player + (if snd o then gb_eta config else - gb_eta config) - gb_rating (fst o)) / #400))) opponents.","(repairs the colour finding: the refutation must fail)","C36")
# --- Glicko-2
H = "ModelGlicko2.v"
m("g2-scale",H,"flit 1737178 10000.","flit 1737187 10000.","scale 173.7178","C39","C41")
m("g2-f-sign",H,"fexp x * (delta_square - deviation_square - v - fexp x)","fexp x * (delta_square - deviation_square + v - fexp x)","Glickman's f","C38")
m("g2-f-sq",H,"let j := (x - fln (fpowi volatility 2)) / fpowi tau 2 in","let j := (x - fln (fpowi volatility 2)) / tau in","f divides by tau squared","C37","C38")
m("g2-bracket",H,"(k + #1) a delta_squared","(k - #1) a delta_squared","bracket search goes downwards","C37","C38")
m("g2-bracket-start",H,"else g2_bracket fuel #1 a","else g2_bracket fuel #0 a","bracket search starts at k=1","C38")
m("g2-illinois-swap",H,"then g2_illinois fuel' b fb c fc","then g2_illinois fuel' a fa c fc","the bracket keeps a sign change","C38")
m("g2-illinois-half",H,"else g2_illinois fuel' a (fa / #2) c fc","else g2_illinois fuel' a fa c fc","Illinois halves (affects speed only)")
m("g2-exp",H,"| Some a => Some (fexp (a / #2))","| Some a => Some (fexp a)","volatility is exp(A/2)","C38")
m("g2-dev",H,"let pre_deviation := fhypot deviation new_volatility in\n    frecip (fsqrt","let pre_deviation := deviation in\n    frecip (fsqrt","the new volatility inflates the deviation","C39","C41")
m("g2-rating",H,"ffma (fpowi new_deviation 2 * g_value) (outcome - e_value) rating.","ffma (new_deviation * g_value) (outcome - e_value) rating.","rating moves by phi'^2","C39")
m("g2-decay-vol",H,"(fmin (new_player_deviation * g2_scale) #350)","(new_player_deviation * g2_scale)","decay caps at 350","C41","C68")
m("g2-p2-vol",H,"(fpowi player_two_deviation 2) v2 (g2_tau config)","(fpowi player_one_deviation 2) v2 (g2_tau config)","each player's own deviation is used","C62")
m("g2-tol",H,"mkGlicko2Config (flit 5 10) (flit 1 1000000).","mkGlicko2Config (flit 5 10) (flit 1 100000).","default tolerance","C80")
# --- Weng-Lin
W = "ModelWengLin.v"
m("wl-p-two",W,"let exp_one := e1 / (e1 + e2) in","let exp_one := e2 / (e1 + e2) in","the stronger side is favoured","C42","C45")
m("wl-c",W,"fsqrt (ffma #2 (fpowi beta 2) (ffma u1 u1 (fpowi u2 2))).","fsqrt (ffma #1 (fpowi beta 2) (ffma u1 u1 (fpowi u2 2))).","c^2 = 2 beta^2 + s1^2 + s2^2","C42","C43")
m("wl-eta-2",W,"fpowi (player_uncertainty / c_value) 3","fpowi (player_uncertainty / c_value) 2","eta uses the cube","C42","C43")
m("wl-tol-min",W,"fmax (#1 - eta) uncertainty_tolerance","fmin (#1 - eta) uncertainty_tolerance","tolerance is a lower bound","C42")
m("wl-rank-flip",W,"match mto_cmp rank_two rank_one with","match mto_cmp rank_one rank_two with","lower rank wins","C43","C46")
m("wl-self",W,"if Nat.eqb i q then acc","if false then acc","a team does not play itself","C43","C44","C77")
m("wl-empty-team",W,"else if existsb (fun t => is_empty (fst t)) teams_and_ranks then map fst teams_and_ranks","else if forallb (fun t => is_empty (fst t)) teams_and_ranks then map fst teams_and_ranks","any empty team leaves all unchanged","C44")
m("wl-teams-share",W,"ffma (player_uncertainty_sq / team_uncertainty_sq) omega player_rating.","ffma #1 omega player_rating.","players share by variance","C43","C77")
m("wl-multi-c",W,"let exps := map (fun rating => fexp (rating / c)) ratings in","let exps := map (fun rating => fexp rating) ratings in","scaling by c","C45")
m("wl-multi-sum",W,"let sum := fold_left fadd exps #0 in","let sum := fold_left fadd exps #1 in","scores sum to 1","C45")
m("wl-two-empty",W,"if is_empty team_one || is_empty team_two then (team_one, team_two)","if is_empty team_one && is_empty team_two then (team_one, team_two)","an empty team leaves both unchanged","C44")
m("wl-period-fixed",W,"let c := wl_c_players (wl_beta config) player_uncertainty (wl_uncertainty opponent) in","let c := wl_c_players (wl_beta config) (wl_uncertainty opponent) (wl_uncertainty opponent) in","c uses the current uncertainty","C48")
m("wl-delta-large",W,"(omega + small_delta, large_delta + eta)) infos (#0, #0).","(omega + small_delta, eta)) infos (#0, #0).","eta is summed over the opponents","C46")
m("wl-gamma",W,"Definition wl_gamma (team_uncertainty_sq c_value : F) : F := fsqrt team_uncertainty_sq / c_value.","Definition wl_gamma (team_uncertainty_sq c_value : F) : F := #1 / c_value.","gamma = sigma/c","C43")
# --- TrueSkill closed form
T = "ModelTS.v"
m("ts-v-sign",T,"else pdf (diff_c - draw_c) #0 #1 / norm.","else pdf (diff_c + draw_c) #0 #1 / norm.","v at t - eps","C50","C53")
m("ts-w",T,"      v * (v + diff_c - draw_c).","      v * (v - diff_c + draw_c).","w = v (v + t - eps)","C50")
m("ts-delta",T,"WIN | DRAW => r1 - r2 | LOSS => r2 - r1 end.","WIN | DRAW | LOSS => r1 - r2 end.","winner minus loser","C50","C62")
m("ts-rank-mult",T,"(#1, #(-1)) | LOSS => (#(-1), #1) end.","(#1, #(-1)) | LOSS => (#1, #(-1)) end.","the winner gains","C50")
m("ts-dyn",T,"let mean_multiplier := ffma uncertainty uncertainty (fpowi dynamics_factor 2) / c in","let mean_multiplier := fpowi uncertainty 2 / c in","dynamics factor enters the rating step","C50")
m("ts-unc",T,"let dev_multiplier := variance / fpowi c 2 in","let dev_multiplier := variance / c in","variance over c squared","C50")
m("ts-margin-players",T,"let draw_margin := ts_draw_margin (ts_draw_probability config) (ts_beta config) total_players in","let draw_margin := ts_draw_margin (ts_draw_probability config) (ts_beta config) #2 in","margin scales with all players","C51","C84","C59")
m("ts-margin-beta",T,"#0 #1 * fsqrt total_players * beta.","#0 #1 * total_players * beta.","margin scales with sqrt(n)","C59")
m("ts-teams-c",T,"let c := fsqrt (ffma total_players (fpowi (ts_beta config) 2) (uncertainty_one_sum + uncertainty_two_sum)) in","let c := fsqrt (ffma #2 (fpowi (ts_beta config) 2) (uncertainty_one_sum + uncertainty_two_sum)) in","c counts beta^2 per player","C84")
m("ts-quality",T,"let a := fsqrt ((#2 * fpowi (ts_beta config) 2)\n","let a := ((#2 * fpowi (ts_beta config) 2)\n","quality has the square root","C55")
m("ts-exp-denom",T,"fsqrt (ffma u2 u2 (ffma #2 (fpowi beta 2) (fpowi u1 2))).","(ffma u2 u2 (ffma #2 (fpowi beta 2) (fpowi u1 2))).","the expected score divides by the standard deviation","C54")
m("ts-exp-delta",T,"    let delta := ts_rating player_one - ts_rating player_two in\n    let denom := ts_denom","    let delta := ts_rating player_two - ts_rating player_one in\n    let denom := ts_denom","higher rating gives higher expectation","C54","C63")
m("ts-multi-exp",T,"      if Nat.eqb i j then nil\n      else\n        let delta","      if false then nil\n      else\n        let delta","a team is not compared with itself","C54")
m("ts-rank-3",T,"(#(-3)) (ts_rating player).","(#(-2)) (ts_rating player).","rank is mu - 3 sigma","C59")
m("ts-weight-neg",T,"if w <? #0 then Some j","if w <=? #0 then Some j","weight 0 is accepted","C49")
m("ts-weight-idx",T,"else first_negative (S j) ws'","else first_negative j ws'","the offending player is reported","C49")
m("ts-weight-len",T,"if negb (Nat.eqb (length ws) (length team)) then Some (PlayerAmount i)","if Nat.ltb (length ws) (length team) then Some (PlayerAmount i)","too many weights are rejected","C49")
m("ts-weight-default",T,"Ok (map (fun team => repeat #1 (length team)) teams)","Ok (map (fun team => repeat #0 (length team)) teams)","default weight 1","C49","C84")
m("ts-period-static",T,"let c := ts_c_players (ts_beta config) player_uncertainty (ts_uncertainty opponent) in\n    let rating_delta := ts_rating_delta result player_rating (ts_rating opponent) in","let c := ts_c_players (ts_beta config) player_uncertainty (ts_uncertainty opponent) in\n    let rating_delta := ts_rating_delta result (ts_rating opponent) player_rating in","delta is winner minus loser in the period","C57")
m("ts-cdf",T,"flit 5 10 * erfc (- (x - mu) / (sigma * fsqrt2)).","flit 5 10 * erfc ((x - mu) / (sigma * fsqrt2)).","cdf increases","C54","C50")
m("ts-erfc-neg",T,"if x <? #0 then #2 - r else r.","if x <? #0 then #1 - r else r.","erfc(-x) = 2 - erfc(x)","C54")
m("ts-tau-default",T,"(#25 / #300).","(#25 / #30).","default dynamics factor","C80")
m("ts-vdraw-sign",T,"if diff_c <? #0 then - x / norm else x / norm.","x / norm.","a draw moves the ratings together","C50")
m("ts-psys",T,"Definition ts_psys_rate (config : TrueSkillConfig F) (p : TrueSkillRating F) rs := trueskill_rating_period p rs config.","Definition ts_psys_rate (config : TrueSkillConfig F) (p : TrueSkillRating F) rs := trueskill_rating_period p (rev rs) config.","the trait delegates","C60")
# --- TrueSkill factor graph
R = "ModelTSGraph.v"
m("tg-sort",R,"if (key x <=? key y)%N then x :: y :: l'","if (key y <=? key x)%N then x :: y :: l'","teams sorted by rank ascending","C53","C84")
m("tg-nounsort",R,"          Ok (map snd unsorted)","          Ok groups","results are returned in input order","C83")
m("tg-diff-sign",R,"children [#1; #(-1)])).","children [#1; #1])).","difference of the performances","C53","C84")
m("tg-prior-tau",R,"let sigma := fhypot (g_sigma (pf_val f)) (pf_dynamic f) in","let sigma := g_sigma (pf_val f) in","dynamics factor inflates the prior","C53")
m("tg-div",R,"mkG (g_pi a - g_pi b) (g_tau a - g_tau b).","mkG (g_pi a - g_pi b) (g_tau a + g_tau b).","division of Gaussians","C53")
m("tg-lik",R,"    frecip (ffma (lf_variance f) (g_pi g) #1).","    frecip (ffma (lf_variance f) (g_pi g) #2).","likelihood message","C53")
m("tg-draw",R,"let is_draw := N.eqb (mto_rank r1) (mto_rank r2) in","let is_draw := negb (N.eqb (mto_rank r1) (mto_rank r2)) in","equal ranks are draws","C53","C84")
m("tg-margin",R,"let size := fsum [flen t1; flen t2] in","let size := flen t1 in","margin uses both teams' sizes","C53","C84")
m("tg-trunc-denom",R,"let tau := ffma pi_sqrt v (g_tau div) / denom in","let tau := ffma pi_sqrt v (g_tau div) in","truncation divides tau","C53")
m("tg-nolik",R,"    do _ <- for_each perf_layer lik_up;\n","","the result reaches the ratings","C53")
m("tg-last-up",R,"do _ <- sum_up (nth (team_diff_len - 1) team_diff_layer sum_default) 1;","do _ <- sum_up (nth (team_diff_len - 1) team_diff_layer sum_default) 0;","the last team gets its message","C53","C84")
m("tg-groups",R,"(slice layer (team_start sizes t) (nth t sizes O)))","(slice layer (team_start sizes t) (S (nth t sizes O))))","team sizes are preserved","C52","C53")
m("tg-empty",R,"else if existsb (fun t => is_empty (fst t)) teams_and_ranks then Ok (map fst teams_and_ranks)","else if existsb (fun t => is_empty (fst t)) teams_and_ranks then Ok nil","input with an empty team returned unchanged","C52")
m("tg-weights-order",R,"let flattened_weights := concat sorted_weights in","let flattened_weights := concat weights in","weights follow their team through the sorting","C83")
m("tg-msys",R,"match trueskill_multi_team teams_and_ranks config None with","match trueskill_multi_team teams_and_ranks config (Some nil) with","the trait uses default weights","C60")
m("tg-iters",R,"do _ <- iterate_sweeps 10 team_diff_layer trunc_layer min_delta;","do _ <- iterate_sweeps 0 team_diff_layer trunc_layer min_delta;","at least one sweep is done","C53")
m("tg-sweep-back",R,"for_fold (rev (seq 1 len1)) (fun delta x =>","for_fold (seq 1 len1) (fun delta x =>","the backward sweep goes backwards (three or more teams)","C53")
m("tg-zero-fix",R,"      if coeff =? #0 then #0\n      else if Nat.eqb (fst x) index","      if Nat.eqb (fst x) index","zero coefficient is special-cased")
# --- TrueSkill matrices
X = "ModelTSMatrix.v"
m("tm-rot-sign",X,"w1 ++ map fneg w2","w1 ++ w2","rows are differences of neighbours","C56","C85")
m("tm-minor",X,"if Nat.ltb i row then i else S i","if Nat.leb i row then i else S i","the minor drops the row","C56","C85")
m("tm-adj",X,"mat_det (m_rows m - 1) (mat_minor m j i)","mat_det (m_rows m - 1) (mat_minor m i j) + #0 * mat_get m 0 0","(transposed cofactors; same for symmetric matrices)")
m("tm-det-sign",X,"mat_det n' (mat_minor m 0 i) * fpowi (#(-1)) (Z.of_nat i)","mat_det n' (mat_minor m 0 i)","alternating signs","C56","C85")
m("tm-beta",X,"let a_ta := mat_scale ra (fpowi beta 2) in","let a_ta := mat_scale ra beta in","beta squared","C56")
m("tm-half",X,"(flit (-5) 10)","(flit 5 10)","exponent is negative","C56")
m("tm-usq",X,"map (fun p => fpowi (ts_uncertainty p) 2) team","map (fun p => ts_uncertainty p) team","variances","C56")
m("tm-pad",X,"repeat #0 (total - (prev + length w1) - length w2)","repeat #0 (total - (prev + length w1))","rows have one entry per player","C56","C85")
# --- conversions
C = "ModelConv.v"
m("cv-swap",C,"mkGlicko (g2_rating g) (g2_deviation g).","mkGlicko (g2_deviation g) (g2_rating g).","conversion keeps rating and deviation","C61")
m("cv-vol",C,"Definition glicko2_from_sticko (s : StickoRating F) : Glicko2Rating F :=\n    mkGlicko2 (st_rating s) (st_deviation s) (g2_volatility glicko2_new).","Definition glicko2_from_sticko (s : StickoRating F) : Glicko2Rating F :=\n    mkGlicko2 (st_rating s) (st_deviation s) #0.","default volatility","C61")
MUTANTS = M
