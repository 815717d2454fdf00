(** Property theorems for Glicko (glicko.rs). *)
From Coq Require Import ZArith NArith List Bool Reals Lra Permutation.
From Verif Require Import Arith XR ModelLib ModelGlicko Spec ProofGlicko.
Import ListNotations.
Local Open Scope R_scope.

(** C26: Glickman's update. *)
@THM C26_glicko_update C26_proof
(* Glickman's paper: 1500/200 against 1400/30; no inflation. *)
Example C26_case : exists p q,
  glicko (mkGlicko (Fin 1500) (Fin 200)) (mkGlicko (Fin 1400) (Fin 30)) WIN (mkGlickoConfig (Fin 0)) = (p, q) /\
  gl_rating p <> Fin 1500.
Proof.
  destruct (C28_proof 1500 200 1400 30 0 ltac:(lra) ltac:(lra)) as (w & d & l & w' & d' & l' & H & B).
  destruct (H WIN) as (p & q & E & Ep & Eq). exists p, q. split; auto. rewrite Ep. intros [= X]. lra.
Qed.

(** C27: the deviation shrinks below the inflated one by playing. *)
@THM C27_glicko_deviation C27_proof
@THM C27_glicko_period_deviation C27_period_proof
Example C27_case : exists (rs : list (R * R * Outcomes)), rs <> [] /\ (0 < 200).
Proof. exists [(1400, 30, WIN); (1550, 100, LOSS)]. split; [discriminate|lra]. Qed.

(** C28: win > draw > loss, for both players; a win raises, a loss lowers. *)
@THM C28_glicko_direction C28_proof

(** C29: rating periods. *)
@THM C29_glicko_period_formula C29_formula_proof
@THM C29_glicko_period_order C29_order_proof
@THM C29_glicko_period_single C29_single_proof
@THM C29_glicko_period_empty C29_empty_proof
Example C29_case :
  Permutation [(1400, 30, WIN); (1550, 100, LOSS); (1700, 300, LOSS)] [(1700, 300, LOSS); (1400, 30, WIN); (1550, 100, LOSS)] /\
  @nil (R * R * Outcomes) <> [(1400, 30, WIN)].
Proof.
  split; [|discriminate]. apply Permutation_sym.
  eapply perm_trans; [apply perm_swap|]. apply perm_skip. apply perm_swap.
Qed.

(** C30: n periods of inactivity. *)
@THM C30_glicko_decay C30_proof
Example C30_case : 0 < 50 <= 350. Proof. lra. Qed.

(** C31: confidence interval. *)
@THM C31_glicko_confidence C31_glicko_proof

(** C75: expected scores. *)
@THM C75_glicko_expected C75_glicko_proof
Example C75_case : (0 <= 50 < 100) /\ (1600 > 1500). Proof. lra. Qed.
