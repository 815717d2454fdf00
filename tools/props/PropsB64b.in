(** Property theorems in IEEE-754 double precision, continued: results are
    numbers in range, and results move ratings the right way, in every system
    but Glicko-2, TrueSkill and Weng-Lin (for which see PropsB64c). *)
From Coq Require Import ZArith NArith List Bool Reals Lra Lia.
From Flocq Require Import IEEE754.BinarySingleNaN.
From Verif Require Import Arith B64 SpecB64 ModelLib ModelFifa ModelUscf ModelEgf ModelDwz ModelIngo ModelGlicko ModelSticko
  ModelBoost Spec ProofB64 ProofB64b ProofB64c ProofB64d ProofB64e ProofB64f ProofB64g.
Import ListNotations.
Local Open Scope R_scope.

(** The correctly rounded libm satisfies every assumption made about libm below. *)
Example libm_case_b : pow10_nonneg libm_rounded /\ ln10_sane libm_rounded /\ hypot_nonneg libm_rounded /\ expm1_nonneg libm_rounded /\
  exp_nonneg libm_rounded /\ exp_normal libm_rounded /\ ln_sane libm_rounded /\ ln1p_sane libm_rounded /\ pow16_sane libm_rounded.
Proof.
  exact (conj libm_pow_nonneg (conj libm_ln10 (conj libm_hypot (conj libm_expm1 (conj libm_exp (conj libm_exp_normal (conj libm_ln (conj libm_ln1p libm_pow16)))))))).
Qed.

(** C66: expected scores are finite and in [0,1]. *)
@THM C66_f64_expected_glicko C66_glicko_proof
@THM C66_f64_expected_sticko C66_sticko_proof
@THM C66_f64_expected_boost C66_boost_proof
@THM C66_f64_expected_egf C66_egf_proof

(** C97: new ratings are finite numbers and new deviations lie in [0, 350]. *)
@THM C97_f64_glicko C97_glicko_proof
@THM C97_f64_glicko_period C97_glicko_period_proof
@THM C97_f64_sticko C97_sticko_proof
@THM C97_f64_boost C97_boost_proof
@THM C97_f64_fifa C97_fifa_proof
@THM C97_f64_uscf C97_uscf_proof
@THM C97_f64_dwz C97_dwz_proof
@THM C97_f64_egf C97_egf_proof
@THM C97_f64_ingo C97_ingo_proof

(** C98: winners do not lose rating points, losers do not gain any. *)
@THM C98_f64_glicko C98_glicko_proof
@THM C98_f64_glicko_period C98_glicko_period_proof
@THM C98_f64_boost C98_boost_proof
@THM C98_f64_sticko C98_sticko_proof
@THM C98_f64_fifa C98_fifa_proof
@THM C98_f64_uscf C98_uscf_proof
@THM C98_f64_dwz C98_dwz_proof

(** Ordinary values meet all the size conditions; infinite deviations are allowed too. *)
Example C97_case :
  (finite (b64_of_Z 1500) /\ le_2 200 (b64_of_Z 1500) /\ le_2 400 (b64_of_Z 1500) /\ le_2 500 (b64_of_Z 1500) /\ le_2 1000 (b64_of_Z 1500)) /\
  (finite (b64_of_Z (-700)) /\ le_2 200 (b64_of_Z (-700))) /\
  is_nan (b64_of_Z 350) = false /\ is_nan (B754_infinity false : B64) = false /\
  (le64 (b64_of_Z (-900)) (b64_of_Z 1500) /\ le64 (b64_of_Z 1500) (b64_of_Z 2399) /\ le64 (Babs (b64_of_Z (-4))) (b64_of_Z 9)) /\
  (Beqb zero64 zero64 = true /\ le64 (b64_of_Z 2800) (b64_of_Z 3299)).
Proof. repeat split; reflexivity. Qed.
Example C98_case :
  le64 zero64 (b64_of_Z 10) /\ le64 (b64_of_Z 100) (b64_of_Z 1500) /\ (8 < 30)%N /\
  (Beqb (b64_of_Z 0) zero64 = true \/ le64 (b64_of_Z 1500) (b64_of_Z 1600)).
Proof. repeat split; try reflexivity. left. reflexivity. Qed.
