(** Property theorems for Glicko-Boost (glicko_boost.rs). *)
From Coq Require Import ZArith NArith List Bool Reals Lra Permutation.
From Verif Require Import Arith XR ModelLib ModelGlicko ModelBoost Spec ProofBoost.
Import ListNotations.
Local Open Scope R_scope.

(** C34 ("with eta = 0 behaves exactly like Glicko") is false: for two players
    with deviation 350 the new deviation is always strictly larger, whatever the
    alpha parameters and the c of Glicko. *)
@THM C34_boost_glicko_refuted C34_refuted_proof
(** What is true: the ratings agree (Glicko with c = 0), and the deviations
    agree up to the growth that Glicko-Boost applies at the end of a period.
    Missing: equality of the deviations, refuted above. *)
@THM C34_boost_glicko_partial C34_partial_proof
Example C34_case : exists bc, bc_eta bc = 0 /\ bc_k bc = 0 /\ bc_b0 bc = 0 /\ bc_b1 bc = 0 /\ bc_a0 bc <> 0.
Proof. exists (Build_boost_cfg 0 0 0 0 (5733/1000) 1 1 1 1). cbn. repeat split. lra. Qed.

(** C35: the published formulas, range and direction. *)
@THM C35_boost_update C35_game_proof
@THM C35_boost_period C35_period_proof
@THM C35_boost_range C35_range_proof
@THM C35_boost_period_range C35_period_range_proof
@THM C35_boost_order C35_order_proof
Example C35_case : exists bc, 0 <= bc_b0 bc /\ 0 <= bc_b1 bc /\ bc_k bc <> 0.
Proof. exists (Build_boost_cfg 30 (196/100) (20139/100000) (175/10) 1 1 1 1 1). cbn. lra. Qed.

(** C36 is false for opponents met without the advantage: the flag is ignored. *)
@THM C36_boost_expected_colour_refuted C36_refuted_proof
(** C36 for the flag [true].  Missing: the flag [false], refuted above. *)
@THM C36_boost_expected_colour_partial C36_partial_proof

(** C31: confidence interval. *)
@THM C31_boost_confidence C31_boost_proof

(** C75: expected scores are Glicko's with the advantage added to the rating. *)
@THM C75_boost_expected C75_boost_proof
