(** Property theorems: the order of two Sticko or Glicko-Boost players after the same result (C95). *)
From Coq Require Import ZArith NArith List Bool Reals Lra Lia.
From Verif Require Import Arith XR ModelLib ModelGlicko ModelSticko ModelBoost Spec ProofGlicko ProofBoost2 ProofOrderSt.
Import Spec ListNotations.
Local Open Scope R_scope.

(** C95: two Sticko players who differ in the rating only and get the same result against
    the same opponent stay in order.  Partial: the bonus beta per game is 0 (its default)
    and lambda, the pull towards the opponent, is at most 10 (the default is 2). *)
@THM C95_order_sticko_partial C95_sticko_proof
(** With lambda above 100 the pull reverses the order, whatever the opponent and the result. *)
@THM C95_order_sticko_refuted C95_sticko_refuted_proof

Example C95_sticko_case : 0 < 200 /\ 0 < 200 /\ 0 <= 10 /\ 0 <= 2 <= 10 /\ 1500 < 1600. Proof. repeat split; lra. Qed.
Example C95_sticko_refuted_case : 0 < 200 /\ 0 < 50 /\ 0 <= 10 /\ 100 < 150. Proof. repeat split; lra. Qed.

(** C95: two Glicko-Boost players stay in order as long as the lower one is not boosted: the
    boost is switched off, or the result is no better than expected, or the expected score
    was 1/(1 + k^2) or more.  Partial: deviations up to 350. *)
@THM C95_order_boost_partial C95_boost_proof

(* Default k and eta; a loss, and a win of a player rated 30 points below the opponent. *)
Example C95_boost_case : 0 < 350 <= 350 /\ points LOSS <= gE 1500 (1470 - 30) 350 /\ / (1 + 1.96 ^ 2) <= gE 1500 (1530 - 30) 350.
Proof.
  split; [lra|]. split; [pose proof (gE_range 1500 (1470 - 30) 350); cbn [points]; lra|]. replace (1530 - 30) with 1500 by lra. rewrite gE_self. replace (1 / 2) with (/ 2) by field. apply Rinv_le_contravar; lra.
Qed.

(** Otherwise two Glicko-Boost players of the same deviation who beat the same opponent can
    change places: the one rated just below the boost threshold is boosted and ends higher. *)
@THM C95_order_boost_refuted C95_boost_refuted_proof

(* The default configuration and a deviation of 100. *)
Example C95_boost_refuted_case : 0 < 100 <= 350 /\ 1 <= 1.96 /\ 0 <= 0.20139 /\ 0 <= 17.5 /\ 100 < / sqrt (/ 100 ^ 2 + gq ^ 2 / 4) + 17.5.
Proof.
  repeat split; try lra. pose proof gq_close as B. assert (S : sqrt (/ 100 ^ 2 + gq ^ 2 / 4) <= 0.0105).
  { apply Rle_trans with (sqrt (0.0105 ^ 2)); [apply sqrt_le_1_alt; nra|rewrite sqrt_pow2; lra]. }
  assert (P : 0 < sqrt (/ 100 ^ 2 + gq ^ 2 / 4)) by (apply sqrt_lt_R0; nra). assert (/ 0.0105 <= / sqrt (/ 100 ^ 2 + gq ^ 2 / 4)) by (apply Rinv_le_contravar; lra). lra.
Qed.
