(** Property theorems in IEEE-754 double precision, continued (C101): how far
    the computed numbers are from the published formulas, evaluated exactly. *)
From Coq Require Import ZArith NArith List Bool Reals Lra Lia.
From Flocq Require Import IEEE754.BinarySingleNaN.
From Verif Require Import Arith B64 SpecB64 SpecAcc ModelLib Spec ModelGlicko ModelFifa ModelWengLin ModelIngo ModelEgf
  MathB64 ProofB64 ProofB64b ProofB64c ProofAcc ProofAcc2 ProofAcc3.
Import ListNotations.
Local Open Scope R_scope.

(** C101 for Glicko: a game, a rating period and the expected score. *)
@THM C101_f64_glicko C101_glicko_proof
@THM C101_f64_glicko_period C101_glicko_period_proof
@THM C101_f64_glicko_expected C101_glicko_expected_proof
(** C101 for FIFA. *)
@THM C101_f64_fifa C101_fifa_proof
(** C101 for Weng-Lin. *)
@THM C101_f64_weng_lin C101_weng_lin_proof
(** C101 for Ingo. *)
@THM C101_f64_ingo C101_ingo_proof
(** C101 for EGF, both ratings (raised by the handicap) up to 3200. *)
@THM C101_f64_egf C101_egf_proof

(** The correctly rounded libm meets the contracts. *)
Example C101_libm_case : pow10_nonneg libm_rounded /\ pow10_accurate libm_rounded /\ ln10_accurate libm_rounded /\
  hypot_accurate libm_rounded /\ exp_accurate libm_rounded /\ ln_accurate libm_rounded /\ ln1p_accurate libm_rounded /\ pow16_accurate libm_rounded.
Proof.
  exact (conj libm_pow_nonneg (conj libm_pow_accurate (conj libm_ln10_accurate (conj libm_hypot_accurate (conj libm_exp_accurate
    (conj libm_ln_accurate (conj libm_ln1p_accurate libm_pow16_accurate))))))).
Qed.
(** Ratings of 1500 and 2000, deviations of 350 and 30, c = 60; importance 50; Weng-Lin ratings 25 and 40,
    uncertainties 8 and 2, beta 4 and tolerance 1; EGF ratings 1500 and 2000 with a handicap of 3. *)
Example C101_case : num_in (- 10 ^ 4) (10 ^ 4) (b64_of_Z 1500) /\ num_in (- 10 ^ 4) (10 ^ 4) (b64_of_Z 2000) /\
  num_in 1 350 (b64_of_Z 350) /\ num_in 1 350 (b64_of_Z 30) /\ num_in 0 1000 (b64_of_Z 60) /\ num_in (- 1000) 1000 (b64_of_Z 50) /\
  num_in (- 500) 500 (b64_of_Z 25) /\ num_in (- 500) 500 (b64_of_Z 40) /\ num_in (/ 1000) 100 (b64_of_Z 8) /\ num_in (/ 1000) 100 (b64_of_Z 2) /\
  num_in 1 100 (b64_of_Z 4) /\ num_in 0 1 (b64_of_Z 1) /\ num_in (-900) 3200 (b64_of_Z 1500) /\ num_in (-900) 3200 (b64_of_Z 2000) /\ num_in (-20) 20 (b64_of_Z 3) /\
  egf_adj (egf_h1 3) 1500 <= 3200 /\ egf_adj (egf_h2 3) 2000 <= 3200.
Proof.
  assert (H : forall z lo hi, (Z.abs z <= 2 ^ 53)%Z -> lo <= IZR z <= hi -> num_in lo hi (b64_of_Z z)).
  { intros z lo hi Hz B. destruct (ext_ofZ z Hz) as [F E]. split; [exact F|]. rewrite <- (ext_fin _ F), E. exact B. }
  repeat match goal with |- num_in _ _ _ => apply H; [vm_compute; discriminate|lra] | |- _ /\ _ => split end;
    unfold egf_adj, egf_h1, egf_h2; destruct (Rlt_dec 3 0); try lra; destruct (Req_EM_T _ 0); lra.
Qed.
