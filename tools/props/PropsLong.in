(** What long runs of games do to Elo and FIFA ratings. *)
From Coq Require Import ZArith NArith List Bool Reals Lra Lia.
From Verif Require Import Arith XR ModelLib ModelElo ModelFifa Spec ProofBoost2 ProofLong.
Import ListNotations.
Local Open Scope R_scope.

(** C109: an Elo period depends on the order of its games: the weaker result first
    always ends higher. *)
@THM C109_elo_order_refuted C109_elo_order_proof
Example C109_elo_case : 0 < 32 /\ points LOSS < points WIN. Proof. cbn; lra. Qed.

(** C111: repeated draws. *)
@THM C111_draws_elo C111_elo_proof
@THM C111_draws_elo_both C111_elo_both_proof
@THM C111_draws_fifa C111_fifa_proof
(** Beyond the bounds some ratings alternate for ever, so the bounds are exact. *)
@THM C111_draws_elo_alternate C111_elo_refuted_proof
@THM C111_draws_elo_both_alternate C111_elo_both_alternate_proof
@THM C111_draws_fifa_alternate C111_fifa_alternate_proof
@THM C111_draws_elo_iff C111_elo_iff_proof
@THM C111_draws_fifa_iff C111_fifa_iff_proof
Example C111_case : 32 * ln 10 < 800 /\ 60 * ln 10 < 2400 /\ 3200 < 1400 * ln 10 /\ 4800 < 2100 * ln 10.
Proof. pose proof ln10_close. lra. Qed.

(** C112: repeated wins against one opponent. *)
@THM C112_farming_elo C112_elo_proof
@THM C112_farming_fifa C112_fifa_proof
(* Starting level with the opponent: after n wins 10^(lead / 400) lies between 1 + n c / 2 and 1 + n c e^c. *)
Example C112_case : Rpower 10 ((1000 - 1000) / 400) = 1 /\ 0.18 < 32 * ln 10 / 400 < 0.19.
Proof. pose proof ln10_close. split; [replace ((1000 - 1000) / 400) with 0 by field; apply Rpower_O; lra|lra]. Qed.
