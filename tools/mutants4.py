"""Edits of the factor graph, aimed at the many-team properties C99 and C100, and survivors of the automatic sweep."""
M = []
def m(name, file, old, new, claim, *expect, **kw):
    M.append(dict(name=name, file=file, old=old, new=new, claim=claim, expect=list(expect), **kw))
T, Q = "ModelTSGraph.v", "ModelTSMatrix.v"
m("y-delta-neg", T, "let pi_delta := fabs (g_pi (v_gaussian v) - g_pi other) in", "let pi_delta := fneg (g_pi (v_gaussian v) - g_pi other) in", "the change of a message is its absolute difference", "C100", tightened=["C100"])
m("y-delta-sqrt", T, "(fabs (g_tau (v_gaussian v) - g_tau other)) (fsqrt pi_delta).", "(fabs (g_tau (v_gaussian v) - g_tau other)) (fabs pi_delta).", "the change of the precision enters with its root", "C100", tightened=["C100"])
m("y-delta-tau", T, "fmax (fabs (g_tau (v_gaussian v) - g_tau other)) (fsqrt pi_delta).", "fsqrt pi_delta.", "convergence also looks at the mean", "C100")
m("y-sweep-start", T, "        ret (fmax delta d)) #0;\n", "        ret (fmax delta d)) #1;\n", "sweeping stops when nothing changes", "C100", tightened=["C100"])
m("y-sweep-forget", T, "        do _ <- sum_up (nth x diffs sum_default) 0;\n        ret (fmax delta d)) delta", "        do _ <- sum_up (nth x diffs sum_default) 0;\n        ret d) delta", "a change anywhere keeps the loop going", "C100")
m("y-sweep-forward", T, "for_fold (rev (seq 1 len1))", "for_fold (seq 1 len1)", "the second half of a sweep runs upwards", "C100")
m("y-sweep-first", T, "for_fold (rev (seq 1 len1))", "for_fold (rev (seq 0 len1))", "the upward pass leaves out the first comparison and includes the last", "C100")
m("y-sweep-last", T, "do delta <- for_fold (seq 0 len1)", "do delta <- for_fold (seq 0 (S len1))", "the downward pass leaves out the last comparison", "C100")
m("y-sweep-up-side", T, "        do _ <- sum_up (nth x diffs sum_default) 1;\n", "        do _ <- sum_up (nth x diffs sum_default) 0;\n", "downwards the lower team is told", "C100")
m("y-nine", T, "iterate_sweeps 10 team_diff_layer", "iterate_sweeps 9 team_diff_layer", "up to ten sweeps", "C100")
m("y-tolerance", T, "Definition ts_min_delta : F := flit 1 10000.", "Definition ts_min_delta : F := flit 1 1000.", "sweeps run until no message changes by more than 1e-4", "C100")
m("y-stop-lt", T, "if delta <=? min_delta then ret tt else", "if delta <? min_delta then ret tt else", "sweeping stops at equality too", "C100")
m("y-final-first", T, "do _ <- sum_up (nth 0 team_diff_layer sum_default) 0;", "do _ <- sum_up (nth 0 team_diff_layer sum_default) 1;", "the best team is told about its win", "C100", "C99")
m("y-final-last", T, "do _ <- sum_up (nth (team_diff_len - 1) team_diff_layer sum_default) 1;", "do _ <- sum_up (nth (team_diff_len - 2) team_diff_layer sum_default) 1;", "the worst team is told about its loss", "C100", "C99")
m("y-margin-size", T, "let size := fsum [flen t1; flen t2] in", "let size := fsum [flen t1; flen t1] in", "the draw margin is that of both teams' sizes", "C100")
m("y-draw-skip", T, "let is_draw := N.eqb (mto_rank r1) (mto_rank r2) in", "let is_draw := N.leb (mto_rank r2) (N.succ (mto_rank r1)) in", "neighbours draw only with equal ranks", "C100", "C53")
m("y-pair-skip", T, "let '(t2, r2) := nth (S x) teams_and_ranks (nil, mto_new 0) in", "let '(t2, r2) := nth (S (S x)) teams_and_ranks (nil, mto_new 0) in", "each team is compared with the next one", "C100")
m("y-stable", T, "if (key x <=? key y)%N then x :: y :: l'", "if (key x <? key y)%N then x :: y :: l'", "tied teams keep their input order", "C100")
m("y-wsort", T, "let flattened_weights := concat sorted_weights in", "let flattened_weights := concat weights in", "weights travel with their team when sorting", "C83", "C100")
m("y-unsort", T, "Ok (map snd unsorted)", "Ok groups", "teams come back in input order", "C83", "C100")
m("y-team-slice", T, "let coeffs := slice weights start stop in", "let coeffs := slice weights 0 (stop - start) in", "every team has its own weights", "C100")
m("y-diff-child", T, "let children := [2 * n + x; 2 * n + x + 1]%nat in", "let children := [2 * n; 2 * n + x + 1]%nat in", "comparison x is between the teams x and x+1", "C100")
m("y-perf-once", T, "do _ <- for_each perf_layer lik_up;\n", "", "players hear the result", "C99", "C100")
m("y-dyn-twice", T, "let sigma := fhypot (g_sigma (pf_val f)) (pf_dynamic f) in", "let sigma := fhypot (fhypot (g_sigma (pf_val f)) (pf_dynamic f)) (pf_dynamic f) in", "tau^2 is added once", "C99", "C100")
m("y-q-empty", Q, "    if is_empty teams then Ok #0\n", "    if is_empty teams then Ok #1\n", "the quality of a match of nobody is 0", "C56", tightened=["C56_ts_quality_multi_empty"])
m("y-q-empty-team", Q, "    else if existsb is_empty teams then Ok #0\n", "    else if existsb is_empty teams then Ok #1\n", "the quality of a match with an empty team is 0", "C56", tightened=["C56_ts_quality_multi_empty"])
MUTANTS = M
