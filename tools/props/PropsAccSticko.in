(** Property theorems in IEEE-754 double precision, continued: Sticko (C107). *)
From Coq Require Import ZArith NArith List Bool Reals Lra Lia.
From Flocq Require Import Core.Raux IEEE754.BinarySingleNaN.
From Verif Require Import Arith B64 SpecB64 SpecAcc ModelLib Spec ModelSticko
  MathB64 ProofB64 ProofB64b ProofB64c ProofB64g ProofAcc ProofAccSticko.
Import Spec ListNotations.
Local Open Scope R_scope.

(** C107: one game, one rating period, the expected scores. *)
@THM C107_f64_sticko_game C107_game_proof
@THM C107_f64_sticko_period C107_period_proof
@THM C107_f64_sticko_expected C107_expected_proof
@THM C107_f64_sticko_expected_period C107_expected_period_proof

(** The correctly rounded libm meets the contracts. *)
Example C107_libm_case : pow10_nonneg libm_rounded /\ pow10_accurate libm_rounded /\ ln10_accurate libm_rounded /\ hypot_accurate libm_rounded.
Proof. exact (conj libm_pow_nonneg (conj libm_pow_accurate (conj libm_ln10_accurate libm_hypot_accurate))). Qed.
(** Ratings 1500 and 2100, deviations 350 and 40, the default configuration but for an advantage of 30 points. *)
Example C107_case : num_in (- (9000)) 9000 (b64_of_Z 1500) /\ num_in (- (9000)) 9000 (b64_of_Z 2100) /\ num_in 1 350 (b64_of_Z 350) /\ num_in 1 350 (b64_of_Z 40) /\
  num_in 0 100 (b64_of_Z 10) /\ num_in (- (1)) 1 (b64_of_Z 0) /\ num_in (- (100)) 100 (b64_of_Z 2) /\ num_in (- (1000)) 1000 (b64_of_Z 30) /\ num_in 0 1000 (b64_of_Z 10).
Proof.
  assert (H : forall z lo hi, (Z.abs z <= 2 ^ 53)%Z -> lo <= IZR z <= hi -> num_in lo hi (b64_of_Z z)).
  { intros z lo hi Hz B. destruct (ext_ofZ z Hz) as [F E]. split; [exact F|]. rewrite <- (ext_fin _ F), E. exact B. }
  repeat match goal with |- num_in _ _ _ => apply H; [vm_compute; discriminate|lra] | |- _ /\ _ => split end.
Qed.
