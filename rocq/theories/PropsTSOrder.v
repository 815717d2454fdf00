(** TrueSkill: comparing two decided games - stronger opponents and higher-rated players. *)
From Coq Require Import ZArith NArith List Bool Reals Lra Lia.
From Verif Require Import Arith XR ModelLib ModelTS Spec SpecTS SpecInTS MathTS ProofTS MathTSMono ProofTSOrder.
Import ListNotations.
Local Open Scope R_scope.

(** C94: the same result against a stronger opponent is worth more, when both games lie on the same side of the draw
    margin (x: the winner's lead beyond the margin) and on the same side of the asymptote; in general up to 2e-7
    standardised points; and false across the margin for every player and configuration. *)
Theorem C94_stronger_trueskill_partial : forall m s m2 m2' s2 o dp beta tau e, 0 < s -> 0 < s2 -> o <> DRAW -> m2 < m2' ->
  ts_draw_margin (Fin dp) (Fin beta) (Fin 2) = Fin e ->
  let c := sqrt (2 * beta ^ 2 + s ^ 2 + s2 ^ 2) in
  let x := ((match o with WIN => m - m2 | _ => m2 - m end) - e) / c in
  let x' := ((match o with WIN => m - m2' | _ => m2' - m end) - e) / c in
  (x <= 0 /\ x' <= 0 \/ 0 < x /\ 0 < x') -> (Phi x < tiny /\ Phi x' < tiny \/ tiny <= Phi x /\ tiny <= Phi x') -> exists a b,
  ts_rating (fst (trueskill (ts_in (m, s)) (ts_in (m2, s2)) o (ts_cfg dp beta tau))) = Fin a /\
  ts_rating (fst (trueskill (ts_in (m, s)) (ts_in (m2', s2)) o (ts_cfg dp beta tau))) = Fin b /\ a < b.
Proof. exact C94_ts_proof. Qed.
Print Assumptions C94_stronger_trueskill_partial.
Theorem C94_stronger_trueskill_almost_partial : forall m s m2 m2' s2 o dp beta tau e, 0 < s -> 0 < s2 -> o <> DRAW -> m2 < m2' ->
  ts_draw_margin (Fin dp) (Fin beta) (Fin 2) = Fin e ->
  let c := sqrt (2 * beta ^ 2 + s ^ 2 + s2 ^ 2) in
  tiny <= Phi (((match o with WIN => m - m2' | _ => m2 - m end) - e) / c) -> exists a b,
  ts_rating (fst (trueskill (ts_in (m, s)) (ts_in (m2, s2)) o (ts_cfg dp beta tau))) = Fin a /\
  ts_rating (fst (trueskill (ts_in (m, s)) (ts_in (m2', s2)) o (ts_cfg dp beta tau))) = Fin b /\ a < b + 0.0000002 * (s ^ 2 + tau ^ 2) / c.
Proof. exact C94_ts_almost_proof. Qed.
Print Assumptions C94_stronger_trueskill_almost_partial.
Theorem C94_stronger_trueskill_refuted : forall m s s2 dp beta tau, 0 < s -> 0 < s2 -> exists m2 m2' a b, m2 < m2' /\
  ts_rating (fst (trueskill (ts_in (m, s)) (ts_in (m2, s2)) WIN (ts_cfg dp beta tau))) = Fin a /\
  ts_rating (fst (trueskill (ts_in (m, s)) (ts_in (m2', s2)) WIN (ts_cfg dp beta tau))) = Fin b /\ b < a.
Proof. exact C94_ts_refuted_proof. Qed.
Print Assumptions C94_stronger_trueskill_refuted.
(* Whatever the margin e is: a win by someone 10 + e ahead and by someone 5 + e ahead. *)
Example C94_ts_case : exists e, ts_draw_margin (Fin 0.1) (Fin (25 / 6)) (Fin 2) = Fin e /\
  let c := sqrt (2 * (25 / 6) ^ 2 + (25 / 3) ^ 2 + 3 ^ 2) in
  (0 < (30 + e - 20 - e) / c /\ 0 < (30 + e - 25 - e) / c) /\ tiny <= Phi ((30 + e - 20 - e) / c) /\ tiny <= Phi ((30 + e - 25 - e) / c).
Proof.
  pose proof (draw_margin_eval 0.1 (25 / 6) 2 ltac:(lra)) as He. eexists. split; [exact He|]. clear He.
  generalize (unit_margin 0.1 * sqrt 2 * (25 / 6)). intros e c. assert (0 < c) by (apply sqrt_lt_R0; lra).
  assert (0 < (30 + e - 20 - e) / c /\ 0 < (30 + e - 25 - e) / c) as [A B] by (split; apply Rdiv_lt_0_compat; lra). split; [auto|].
  pose proof tiny_small. pose proof (Phi_pos_ge _ (Rlt_le _ _ A)). pose proof (Phi_pos_ge _ (Rlt_le _ _ B)). lra.
Qed.

(** C95: of two players with the same uncertainty the higher-rated one stays higher after the same decided result; false
    for every tau above the bound. *)
Theorem C95_order_trueskill_partial : forall m m' s m2 s2 o dp beta tau, 0 < s -> 0 < s2 -> o <> DRAW -> tau ^ 2 < 2 * beta ^ 2 + s2 ^ 2 -> m' < m -> exists a b,
  ts_rating (fst (trueskill (ts_in (m', s)) (ts_in (m2, s2)) o (ts_cfg dp beta tau))) = Fin a /\
  ts_rating (fst (trueskill (ts_in (m, s)) (ts_in (m2, s2)) o (ts_cfg dp beta tau))) = Fin b /\ a < b.
Proof. exact C95_ts_proof. Qed.
Print Assumptions C95_order_trueskill_partial.
Theorem C95_order_trueskill_refuted : forall s s2 o dp beta tau, 0 < s -> 0 < s2 -> o <> DRAW -> 2 * beta ^ 2 + s2 ^ 2 < tau ^ 2 -> exists m m' m2 a b, m' < m /\
  ts_rating (fst (trueskill (ts_in (m', s)) (ts_in (m2, s2)) o (ts_cfg dp beta tau))) = Fin a /\
  ts_rating (fst (trueskill (ts_in (m, s)) (ts_in (m2, s2)) o (ts_cfg dp beta tau))) = Fin b /\ b < a.
Proof. exact C95_ts_refuted_proof. Qed.
Print Assumptions C95_order_trueskill_refuted.
(* The default configuration (tau = 25/300, beta = 25/6) meets the bound, tau = 7 and an opponent's uncertainty 1 do not. *)
Example C95_ts_case : (25 / 300) ^ 2 < 2 * (25 / 6) ^ 2 + 1 ^ 2 /\ 2 * (25 / 6) ^ 2 + 1 ^ 2 < 7 ^ 2.
Proof. lra. Qed.
