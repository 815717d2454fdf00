(** TrueSkill: comparing two decided games - stronger opponents and higher-rated players. *)
From Coq Require Import ZArith NArith List Bool Reals Lra Lia.
From Verif Require Import Arith XR ModelLib ModelTS Spec SpecTS SpecInTS MathTS ProofTS MathTSMono ProofTSOrder.
Import ListNotations.
Local Open Scope R_scope.

(** C94: the same result against a stronger opponent is worth more, when both games lie on the same side of the draw
    margin (x: the winner's lead beyond the margin) and on the same side of the asymptote; in general up to 2e-7
    standardised points; and false across the margin for every player and configuration. *)
@THM C94_stronger_trueskill_partial C94_ts_proof
@THM C94_stronger_trueskill_almost_partial C94_ts_almost_proof
@THM C94_stronger_trueskill_refuted C94_ts_refuted_proof
(* Whatever the margin e is: a win by someone 10 + e ahead and by someone 5 + e ahead. *)
Example C94_ts_case : exists e, ts_draw_margin (Fin 0.1) (Fin (25 / 6)) (Fin 2) = Fin e /\
  let c := sqrt (2 * (25 / 6) ^ 2 + (25 / 3) ^ 2 + 3 ^ 2) in
  (0 < (30 + e - 20 - e) / c /\ 0 < (30 + e - 25 - e) / c) /\ tiny <= Phi ((30 + e - 20 - e) / c) /\ tiny <= Phi ((30 + e - 25 - e) / c).
Proof.
  pose proof (draw_margin_eval 0.1 (25 / 6) 2 ltac:(lra)) as He. eexists. split; [exact He|]. clear He.
  generalize (unit_margin 0.1 * sqrt 2 * (25 / 6)). intros e c. assert (0 < c) by (apply sqrt_lt_R0; lra).
  assert (0 < (30 + e - 20 - e) / c /\ 0 < (30 + e - 25 - e) / c) as [A B] by (split; apply Rdiv_lt_0_compat; lra). split; [auto|].
  pose proof tiny_small. pose proof (Phi_pos_ge _ (Rlt_le _ _ A)). pose proof (Phi_pos_ge _ (Rlt_le _ _ B)). lra.
Qed.

(** C95: of two players with the same uncertainty the higher-rated one stays higher after the same decided result; false
    for every tau above the bound. *)
@THM C95_order_trueskill_partial C95_ts_proof
@THM C95_order_trueskill_refuted C95_ts_refuted_proof
(* The default configuration (tau = 25/300, beta = 25/6) meets the bound, tau = 7 and an opponent's uncertainty 1 do not. *)
Example C95_ts_case : (25 / 300) ^ 2 < 2 * (25 / 6) ^ 2 + 1 ^ 2 /\ 2 * (25 / 6) ^ 2 + 1 ^ 2 < 7 ^ 2.
Proof. lra. Qed.
