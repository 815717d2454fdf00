(** Property theorems in IEEE-754 double precision, continued: Weng-Lin games,
    rating periods, two teams and any number of teams. *)
From Coq Require Import ZArith NArith List Bool Reals Lra Lia.
From Flocq Require Import IEEE754.BinarySingleNaN.
From Verif Require Import Arith B64 SpecB64 ModelLib ModelWengLin Spec ProofB64 ProofB64b ProofB64h.
Import ListNotations.
Local Open Scope R_scope.

(** C66: expected scores of teams are finite and in [0,1]. *)
@THM C66_f64_expected_wl_teams C66_wl_teams_proof
@THM C66_f64_expected_wl_multi C66_wl_multi_proof

(** C97: new ratings are finite numbers; uncertainties stay positive and do not grow. *)
@THM C97_f64_weng_lin C97_weng_lin_proof
@THM C97_f64_weng_lin_period C97_weng_lin_period_proof
@THM C97_f64_weng_lin_teams C97_weng_lin_teams_proof
@THM C97_f64_weng_lin_multi C97_weng_lin_multi_proof

(** C98: winners do not lose rating points, losers do not gain any. *)
@THM C98_f64_weng_lin C98_weng_lin_proof
@THM C98_f64_weng_lin_period C98_weng_lin_period_proof
@THM C98_f64_weng_lin_teams C98_weng_lin_teams_proof
@THM C98_f64_weng_lin_multi C98_weng_lin_multi_proof

(** The correctly rounded libm, beta = 4, uncertainties 8, ratings 25 and 3000 (40 and 20 in teams of three),
    tolerance 2^-20 and a period of ten games meet all the conditions. *)
Example C97_wl_case : exp_normal libm_rounded /\
  num_in (/ 2 ^ 100) (2 ^ 100) (b64_of_Z 4) /\ num_in (/ 2 ^ 100) (2 ^ 100) (b64_of_Z 8) /\ num_in (/ 2 ^ 200) 1 (b64 1 (-20)) /\
  (Rabs (B2R (b64_of_Z 25)) <= 800 * B2R (b64_of_Z 4) /\ Rabs (B2R (b64_of_Z (-3000))) <= 800 * B2R (b64_of_Z 4)) /\
  (B2R (b64_of_Z 8) <= 2 * B2R (b64_of_Z 4) /\ Rabs (B2R (b64_of_Z 25)) + 4 * INR 10 * B2R (b64_of_Z 4) <= 800 * B2R (b64_of_Z 4)) /\
  (INR 3 * Rabs (B2R (b64_of_Z 40)) <= 400 * B2R (b64_of_Z 4) /\ INR 3 * Rabs (B2R (b64_of_Z (-20))) <= 400 * B2R (b64_of_Z 4)).
Proof. exact wl_case_lemma. Qed.
