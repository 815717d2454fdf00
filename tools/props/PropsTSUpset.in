(** TrueSkill: decided games - the variance correction, the closed form of trueskill_multi_team and huge upsets. *)
From Coq Require Import ZArith NArith List Bool Reals Lra Lia.
From Verif Require Import Arith XR ModelLib ModelWengLin ModelTS ModelTSGraph Spec SpecTS SpecInTS MathTS ProofTS ProofTSTwo ProofTSTwoTop ProofTSUpset.
Import ListNotations.
Local Open Scope R_scope.

(** C58: the uncertainty after a decided game. *)
@THM C58_ts_decided_partial C58_player_proof
@THM C58_ts_decided_team_partial C58_decided_proof
Example C58_decided_case : 0 < 25/3 /\ LOSS <> DRAW /\ (25/300) ^ 2 <= 2 * (25/6) ^ 2 /\
  let t1 := [(25, 25/3); (30, 4)] in let t2 := [(20, 3)] in
  wl_ok t1 /\ wl_ok t2 /\ (25/3) ^ 2 + (25/300) ^ 2 < INR (length t1 + length t2) * (25/6) ^ 2 + side_var t1 + side_var t2.
Proof.
  split; [lra|]. split; [discriminate|]. split; [lra|]. cbv zeta. unfold wl_ok.
  repeat split; try discriminate; try (repeat constructor; cbn; lra).
Qed.

(** C53: decided games of two teams. *)
@THM C53_ts_graph_two_decided_partial C53_decided_proof
@THM C53_ts_graph_huge_upset_refuted C53_refuted_proof
(** Every game in which the winner was at least as strong by the draw margin qualifies. *)
Example C53_decided_case : forall t e c, 0 < c -> e <= t -> tiny <= Phi (t / c - e / c).
Proof.
  intros t e c Hc H. apply Rle_trans with (1 / 4).
  - pose proof tiny_small. lra.
  - assert (0 <= t / c - e / c). { replace (t / c - e / c) with ((t - e) / c) by (unfold Rdiv; ring). apply Rmult_le_pos; [lra|]. now apply Rlt_le, Rinv_0_lt_compat. }
    pose proof (Phi_pos_ge _ H0). lra.
Qed.

(** C84: decided games of two teams by both functions. *)
@THM C84_ts_two_team_decided_partial C84_decided_proof
Example C84_decided_case : Forall (fun p => 0 < snd p) ([(25, 25/3); (20, 1)] ++ [(30, 3)]) /\ 3%N <> 7%N.
Proof. split; [|discriminate]. repeat constructor; cbn; lra. Qed.
