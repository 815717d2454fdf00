(** TrueSkill: drawn games - the variance correction and the closed form of trueskill_multi_team. *)
From Coq Require Import ZArith NArith List Bool Reals Lra Lia.
From Verif Require Import Arith XR ModelLib ModelWengLin ModelTS ModelTSGraph Spec SpecTS SpecInTS MathTS MathTSAcc ProofTS ProofTSTwo ProofTSTwoTop ProofTSAcc ProofTSDraw ProofTSDraw2.
Import ListNotations.
Local Open Scope R_scope.

(** C58: the uncertainty after a draw. *)
@THM C58_ts_draw_partial C58_draw_player_proof
@THM C58_ts_draw_team_partial C58_draw_proof
@THM C58_ts_draw_refuted C58_draw_refuted_proof
(** The default configuration with fresh players. *)
Example C58_draw_case : 0.01 <= 0.1 <= 1 /\ (25/3) ^ 2 + (25/3) ^ 2 <= 2 * (1400 * 0.1 ^ 2 - 1) * (25/6) ^ 2 /\ (25/300) ^ 2 <= 2 * (25/6) ^ 2 /\
  let t1 := [(25, 25/3); (30, 4)] in let t2 := [(20, 3)] in
  wl_ok t1 /\ wl_ok t2 /\ side_var t1 + side_var t2 <= INR (length t1 + length t2) * (1400 * 0.1 ^ 2 - 1) * (25/6) ^ 2 /\
  (25/3) ^ 2 + (25/300) ^ 2 < INR (length t1 + length t2) * (25/6) ^ 2 + side_var t1 + side_var t2.
Proof.
  split; [lra|]. split; [lra|]. split; [lra|]. cbv zeta. unfold wl_ok.
  repeat split; try discriminate; try (repeat constructor; cbn; lra).
  all: unfold side_var, Rsum; cbn; lra.
Qed.

(** C53: drawn games of two teams. *)
@THM C53_ts_graph_two_drawn_partial C53_draw_proof
(** Evenly matched teams qualify. *)
Example C53_drawn_case : forall e c, 0 < c -> c <= 30 * e -> 1 / 30 <= e / c /\ tiny <= drawnorm 0 (e / c).
Proof.
  intros e c Hc H. assert (K : 1 / 30 <= e / c) by (apply Rmult_le_reg_r with c; auto; unfold Rdiv; rewrite (Rmult_assoc e), Rinv_l by lra; lra).
  split; auto. apply drawnorm_near; lra.
Qed.

(** C84: drawn games of two teams by both functions. *)
@THM C84_ts_two_team_drawn_partial C84_draw_proof
Example C84_drawn_case : let t1 := [(25, 25/3); (20, 1)] in let t2 := [(45, 3)] in
  Forall (fun p => 0 < snd p) (t1 ++ t2) /\ side_mu t1 - side_mu t2 = 0 /\
  side_var t1 + side_var t2 <= INR (length t1 + length t2) * (1400 * 0.1 ^ 2 - 1) * (25/6) ^ 2.
Proof.
  cbv zeta. split; [repeat constructor; cbn; lra|]. split; [unfold side_mu, Rsum; cbn; lra|]. unfold side_var, Rsum. cbn. lra.
Qed.
