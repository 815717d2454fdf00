(** Property theorems about what all rating systems share: traits, conversions,
    player-swap symmetry, rating-period expectations, constructors, outcomes. *)
From Coq Require Import ZArith NArith List Bool Reals Lra Lia.
From Verif Require Import Arith XR ModelLib ModelElo ModelFifa ModelIngo ModelUscf ModelEgf ModelDwz ModelGlicko ModelSticko
  ModelBoost ModelGlicko2 ModelWengLin ModelConv ModelTS ModelTSGraph Spec SpecIn SpecTS SpecInTS ProofWengLin ProofTS ProofCross.
Import ListNotations.
Local Open Scope R_scope.

(** C60: traits delegate to the module functions. *)
@THM C60_traits_rate C60_rate_proof
@THM C60_traits_period C60_period_proof
@THM C60_traits_expected C60_expected_proof
@THM C60_traits_expected_period C60_expected_period_proof
@THM C60_traits_multi C60_multi_proof
Example C60_case : elo_sys_rate (mkEloConfig (Fin 32)) (mkElo (Fin 1000)) (mkElo (Fin 1200)) WIN
  = elo (mkElo (Fin 1000)) (mkElo (Fin 1200)) WIN (mkEloConfig (Fin 32)).
Proof. reflexivity. Qed.

(** C61: conversions. *)
@THM C61_conversions_elo C61_elo_proof
@THM C61_conversions_formula C61_formula_proof
@THM C61_conversions_mono C61_mono_proof
@THM C61_conversions_glicko C61_glicko_proof
@THM C61_conversions_fields C61_fields_proof
Example C61_case : 1999 < 2001. Proof. lra. Qed.

(** C62: player-swap symmetry. *)
@THM C62_swap_reals C62_reals_proof
@THM C62_swap_glicko C62_glicko_proof
@THM C62_swap_ts_partial C62_ts_proof
Example C62_case : 0 < 25/3 /\ (1 <= 3)%N /\ WIN <> DRAW. Proof. split; [lra|]. split; [discriminate|discriminate]. Qed.

(** C63: rating-period expectations. *)
@THM C63_expected_period C63_proof
@THM C63_expected_period_glicko2 C63_glicko2_proof
Example C63_case : length (elo_expected_score_rating_period (mkElo (Fin 1000)) [mkElo (Fin 900); mkElo (Fin 1200)]) = 2%nat.
Proof. reflexivity. Qed.

(** C64: generic constructor and accessors. *)
@THM C64_rating_read C64_read_proof
@THM C64_rating_default C64_default_proof
Example C64_case : glicko_rating_get (glicko_rating_new (Some (Fin 7)) None) = Fin 7. Proof. reflexivity. Qed.

(** C65: outcomes and ranks. *)
@THM C65_outcomes C65_proof
Example C65_case : mto_cmp (mto_new 1) (mto_new 2) = Lt /\ invert WIN = LOSS. Proof. split; reflexivity. Qed.

(** C80: documented default configurations. *)
@THM C80_default_configs C80_proof

(** C81: constructors. *)
@THM C81_from_tuples C81_proof
@THM C81_from_age C81_age_proof
Example C81_case : uscf_new (F:=XR) 20 = mkUscf (Fin (50 * 20)) 0. Proof. exact (proj2 (proj2 (C81_age_proof 20))). Qed.
