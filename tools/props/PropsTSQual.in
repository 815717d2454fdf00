(** TrueSkill: match_quality_multi_team. *)
From Coq Require Import ZArith NArith List Bool Reals Lra Lia Permutation.
From Verif Require Import Arith XR ModelLib ModelWengLin ModelTS ModelTSMatrix Spec SpecTS SpecInTS ProofTSQual.
Import ListNotations.
Local Open Scope R_scope.

(** C56: value, range and panics. *)
@THM C56_ts_quality_multi_value C56_value_proof
@THM C56_ts_quality_multi_range C56_range_proof
@THM C56_ts_quality_multi_empty C56_empty_proof
Example C56_empty_case : In [] [[ts_new]; []; [ts_new (F := XR)]].
Proof. right. left. reflexivity. Qed.
@THM C56_ts_quality_multi_panic_refuted C56_panic_proof
@THM C56_ts_quality_two_refuted C56_two_proof
Example C56_case : let l := [[((25, 8), 1); ((30, 2), 0)]; [((20, 3), 1/2)]; [((10, 8), 1)]] in
  (3 <= length l)%nat /\ Forall (fun t => t <> []) l /\ Forall (Forall (fun x : wpl => 0 <= snd x)) l /\ Forall (fun t => 0 < w_var 4 0 t) l.
Proof.
  cbv zeta. repeat split; repeat apply Forall_cons; repeat apply Forall_nil; try discriminate; cbn [snd]; try lra; try (cbn [length]; lia); unfold w_var, Rsum; cbn; lra.
Qed.

(** C85: the order of the teams. *)
@THM C85_ts_quality_multi_order C85_proof
Example C85_case : Permutation [[((25, 8), 1); ((30, 2), 0)]; [((20, 3), 1/2)]; [((10, 8), 1)]] [[((20, 3), 1/2)]; [((10, 8), 1)]; [((25, 8), 1); ((30, 2), 0)]].
Proof. apply perm_trans with [[((20, 3), 1/2)]; [((25, 8), 1); ((30, 2), 0)]; [((10, 8), 1)]]; [apply perm_swap|apply perm_skip, perm_swap]. Qed.
