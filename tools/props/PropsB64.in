(** Property theorems in IEEE-754 double precision: every rounding error,
    overflow, infinity and NaN included. *)
From Coq Require Import ZArith NArith List Bool Reals Lra Lia.
From Flocq Require Import IEEE754.BinarySingleNaN.
From Verif Require Import Arith B64 SpecB64 ModelLib ModelElo ModelFifa ModelUscf ModelEgf ModelDwz ModelGlicko ModelSticko
  ModelBoost ModelGlicko2 ModelWengLin Spec ProofB64 ProofB64b ProofB64c.
Import ListNotations.
Local Open Scope R_scope.

(** The correctly rounded libm satisfies every assumption made about libm below. *)
Example libm_case : pow10_nonneg libm_rounded /\ pow10_unit libm_rounded /\ pow10_accurate libm_rounded
  /\ exp_overflows libm_rounded /\ exp_normal libm_rounded.
Proof.
  exact (conj libm_pow_nonneg (conj libm_pow_unit (conj libm_pow_accurate (conj libm_exp_overflows libm_exp_normal)))).
Qed.

(** C66: expected scores are finite and in [0,1]. *)
@THM C66_f64_expected_elo C66_elo_proof
@THM C66_f64_expected_fifa C66_fifa_proof
@THM C66_f64_expected_uscf C66_uscf_proof
@THM C66_f64_expected_dwz C66_dwz_proof
@THM C66_f64_expected_period C66_period_proof
Example C66_case : finite (b64 1 1023) /\ finite (b64_of_Z (-1500)). Proof. split; reflexivity. Qed.

(** C67: direction of Elo updates. *)
@THM C67_f64_elo_direction C67_elo_proof
@THM C67_f64_elo_draw C67_draw_proof
@THM C67_f64_elo_finite C67_finite_proof
Example C67_case : finite (b64_of_Z 32) /\ le64 zero64 (b64_of_Z 32) /\ le64 (Babs (b64_of_Z (-1200))) (b64 1 1000)
  /\ le64 (b64_of_Z 1000) (b64_of_Z 1200).
Proof. repeat split; reflexivity. Qed.

(** C68: floors and caps for every f64. *)
@THM C68_f64_uscf_floor C68_uscf_proof
@THM C68_f64_egf_floor C68_egf_proof
@THM C68_f64_decay_cap C68_decay_proof
@THM C68_f64_games_cap C68_games_proof
Example C68_case : le64 (b64_of_Z 100) (uscf_rating (fst (uscf (A := B64A libm_rounded)
  (mkUscf B754_nan 30) (mkUscf (B754_infinity false) 30) WIN (mkUscfConfig B754_nan)))).
Proof. exact (proj1 (C68_uscf_proof _ _ _ _ _)). Qed.

(** C69: FIFA knock-out protection for every f64. *)
@THM C69_f64_knockout C69_game_proof
@THM C69_f64_knockout_period C69_period_proof
Example C69_case : Forall (fun r : FifaRating B64 * Outcomes * FifaConfig B64 => fifa_knockout (snd r) = true)
  [(mkFifa (b64_of_Z 1200), LOSS, mkFifaConfig (b64_of_Z 50) true false)].
Proof. repeat constructor. Qed.

(** C47: Weng-Lin expected scores can overflow to NaN, but not for ratings up to 800 beta. *)
@THM C47_wl_f64_refuted C47_refuted_proof
@THM C47_wl_f64_partial C47_partial_proof
Example C47_case : let b := B2R (b64_of_Z 4) in finite (b64_of_Z 4) /\ / 2 ^ 500 <= b <= 2 ^ 500 /\
  0 <= B2R (b64_of_Z 8) <= 2 ^ 500 /\ Rabs (B2R (b64_of_Z 3000)) <= 800 * b.
Proof.
  cbv zeta. rewrite !B2R_ofZ by (vm_compute; discriminate).
  assert (H : 8 <= 2 ^ 500) by (rewrite (pow_IZR 2 500); apply IZR_le; vm_compute; discriminate).
  split; [reflexivity|]. split; [split; [|lra]|split; [lra|rewrite Rabs_pos_eq; lra]].
  apply Rle_trans with (/ 1); [apply Rinv_le_contravar; lra|lra].
Qed.

(** C82: accuracy of Elo. *)
@THM C82_f64_elo_accuracy C82_elo_proof
Example C82_case : Rabs (B2R (b64_of_Z 2800)) <= 10000 /\ Rabs (B2R (b64_of_Z 32)) <= 1000.
Proof. rewrite !B2R_ofZ by (vm_compute; discriminate). rewrite !Rabs_pos_eq; lra. Qed.
