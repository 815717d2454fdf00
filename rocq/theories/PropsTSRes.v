(** TrueSkill: the better the result, the better the rating. *)
From Coq Require Import ZArith NArith List Bool Reals Lra Lia.
From Verif Require Import Arith XR ModelLib ModelTS Spec SpecTS SpecInTS ProofTS ProofTSRes.
Import Spec ListNotations.
Local Open Scope R_scope.

(** C126: a win is better than a draw and a draw better than a loss, for every
    rating difference. *)
Theorem C126_trueskill_results : forall m1 s1 m2 s2 dp beta tau, 0 < s1 -> 0 < s2 ->
  0.01 <= dp <= 1 -> 0 < beta -> s1 ^ 2 + s2 ^ 2 <= 2 * (1400 * dp ^ 2 - 1) * beta ^ 2 ->
  exists w1 d1 l1 w2 d2 l2 u1 u2 u3 u4 u5 u6,
    trueskill (ts_in (m1, s1)) (ts_in (m2, s2)) WIN (ts_cfg dp beta tau) = (mkTS (Fin w1) u1, mkTS (Fin w2) u2) /\
    trueskill (ts_in (m1, s1)) (ts_in (m2, s2)) DRAW (ts_cfg dp beta tau) = (mkTS (Fin d1) u3, mkTS (Fin d2) u4) /\
    trueskill (ts_in (m1, s1)) (ts_in (m2, s2)) LOSS (ts_cfg dp beta tau) = (mkTS (Fin l1) u5, mkTS (Fin l2) u6) /\
    l1 < d1 < w1 /\ w2 < d2 < l2.
Proof. exact C126_player_proof. Qed.
Print Assumptions C126_trueskill_results.
Theorem C126_trueskill_results_teams : forall t1 t2 dp beta tau, wl_ok t1 -> wl_ok t2 ->
  let n := INR (length t1 + length t2) in
  0.01 <= dp <= 1 -> 0 < beta -> side_var t1 + side_var t2 <= n * (1400 * dp ^ 2 - 1) * beta ^ 2 ->
  let after o := trueskill_two_teams (tst_in t1) (tst_in t2) o (ts_cfg dp beta tau) in
  let rating l i x := exists u, nth_error l i = Some (mkTS (Fin x) u) in
  (forall i, (i < length t1)%nat -> exists w d l, rating (fst (after WIN)) i w /\ rating (fst (after DRAW)) i d /\ rating (fst (after LOSS)) i l /\ l < d < w) /\
  (forall i, (i < length t2)%nat -> exists w d l, rating (snd (after WIN)) i w /\ rating (snd (after DRAW)) i d /\ rating (snd (after LOSS)) i l /\ w < d < l).
Proof. exact C126_teams_proof. Qed.
Print Assumptions C126_trueskill_results_teams.

Example C126_case : 0 < 25/3 /\ 0.01 <= 0.1 <= 1 /\ 0 < 25/6 /\ (25/3) ^ 2 + (25/3) ^ 2 <= 2 * (1400 * 0.1 ^ 2 - 1) * (25/6) ^ 2.
Proof. lra. Qed.
Example C126_teams_case : let t1 := [(25, 25/3); (30, 4)] in let t2 := [(20, 2)] in
  wl_ok t1 /\ wl_ok t2 /\ side_var t1 + side_var t2 <= INR (length t1 + length t2) * (1400 * 0.1 ^ 2 - 1) * (25/6) ^ 2.
Proof. cbn. repeat split; try discriminate; try (repeat constructor; cbn; lra); try lra. Qed.
