(** Property theorems for Sticko (sticko.rs). *)
From Coq Require Import ZArith NArith List Bool Reals Lra Permutation.
From Verif Require Import Arith XR ModelLib ModelGlicko ModelSticko Spec ProofSticko.
Import ListNotations.
Local Open Scope R_scope.

(** C32: with h = beta = lambda = gamma = 0 Sticko is Glicko. *)
@THM C32_sticko_glicko_game C32_game_proof
@THM C32_sticko_glicko_period C32_period_proof
@THM C32_sticko_glicko_expected C32_expected_proof

(** C33: the published formulas, range and direction. *)
@THM C33_sticko_update C33_game_proof
@THM C33_sticko_period C33_period_proof
@THM C33_sticko_range C33_range_proof
@THM C33_sticko_direction C33_direction_proof
@THM C33_sticko_order C33_order_proof
(* The crate's default configuration and a two-game period. *)
Example C33_case : 0 < 350 /\ 0 < 50 /\ 0 <= 10 /\ [(1400, 30, WIN, true); (1550, 100, LOSS, false)] <> [].
Proof. repeat split; try lra. discriminate. Qed.
(* The advantage matters: white and black expectations differ. *)
Example C33_colour_case : st_game 30 0 (1400, 30, WIN, true) <> st_game 30 0 (1400, 30, WIN, false).
Proof. unfold st_game. intros [= H]. lra. Qed.

(** C31: confidence interval. *)
@THM C31_sticko_confidence C31_sticko_proof

(** C75: expected scores are Glicko's with the advantage added to the rating. *)
@THM C75_sticko_expected C75_sticko_proof

(** C76: expectations in a rating period respect the colour flags. *)
@THM C76_sticko_expected_colour C76_proof
