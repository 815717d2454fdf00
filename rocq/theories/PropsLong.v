(** What long runs of games do to Elo and FIFA ratings. *)
From Coq Require Import ZArith NArith List Bool Reals Lra Lia.
From Verif Require Import Arith XR ModelLib ModelElo ModelFifa Spec ProofBoost2 ProofLong.
Import ListNotations.
Local Open Scope R_scope.

(** C109: an Elo period depends on the order of its games: the weaker result first
    always ends higher. *)
Theorem C109_elo_order_refuted : forall r ro k o o', 0 < k -> points o < points o' -> exists a b,
  elo_rating_period (mkElo (Fin r)) [(mkElo (Fin ro), o); (mkElo (Fin ro), o')] (mkEloConfig (Fin k)) = mkElo (Fin a) /\
  elo_rating_period (mkElo (Fin r)) [(mkElo (Fin ro), o'); (mkElo (Fin ro), o)] (mkEloConfig (Fin k)) = mkElo (Fin b) /\ b < a.
Proof. exact C109_elo_order_proof. Qed.
Print Assumptions C109_elo_order_refuted.
Example C109_elo_case : 0 < 32 /\ points LOSS < points WIN. Proof. cbn; lra. Qed.

(** C111: repeated draws. *)
Theorem C111_draws_elo : forall r ro k, 0 < k -> k * ln 10 <= 3200 -> exists u : nat -> R,
  (forall n, elo_rating_period (mkElo (Fin r)) (repeat (mkElo (Fin ro), DRAW) n) (mkEloConfig (Fin k)) = mkElo (Fin (u n))) /\
  Un_cv u ro /\
  (k * ln 10 <= 1600 -> (r < ro -> forall n, u n < u (S n) < ro) /\ (ro < r -> forall n, ro < u (S n) < u n)) /\
  (r = ro -> forall n, u n = ro).
Proof. exact C111_elo_proof. Qed.
Print Assumptions C111_draws_elo.
Theorem C111_draws_elo_both : forall r1 r2 k, 0 < k -> k * ln 10 <= 1600 -> exists u v : nat -> R,
  (u 0%nat = r1 /\ v 0%nat = r2 /\ forall n, elo (mkElo (Fin (u n))) (mkElo (Fin (v n))) DRAW (mkEloConfig (Fin k)) = (mkElo (Fin (u (S n))), mkElo (Fin (v (S n))))) /\
  Un_cv u ((r1 + r2) / 2) /\ Un_cv v ((r1 + r2) / 2) /\
  (k * ln 10 <= 800 -> r1 < r2 -> forall n, u n < u (S n) < v (S n) /\ v (S n) < v n).
Proof. exact C111_elo_both_proof. Qed.
Print Assumptions C111_draws_elo_both.
Theorem C111_draws_fifa : forall r ro i, 0 < i -> i * ln 10 <= 4800 -> exists u : nat -> R,
  (forall n, fifa_rating_period (mkFifa (Fin r)) (repeat (mkFifa (Fin ro), DRAW, mkFifaConfig (Fin i) false false) n) = mkFifa (Fin (u n))) /\
  Un_cv u ro /\
  (i * ln 10 <= 2400 -> (r < ro -> forall n, u n < u (S n) < ro) /\ (ro < r -> forall n, ro < u (S n) < u n)) /\
  (r = ro -> forall n, u n = ro).
Proof. exact C111_fifa_proof. Qed.
Print Assumptions C111_draws_fifa.
(** Beyond the bounds some ratings alternate for ever, so the bounds are exact. *)
Theorem C111_draws_elo_alternate : forall ro k, 3200 < k * ln 10 -> exists d, 0 < d /\
  forall n, elo_rating_period (mkElo (Fin (ro + d))) (repeat (mkElo (Fin ro), DRAW) n) (mkEloConfig (Fin k)) = mkElo (Fin (ro + (-1) ^ n * d)).
Proof. exact C111_elo_refuted_proof. Qed.
Print Assumptions C111_draws_elo_alternate.
Theorem C111_draws_elo_both_alternate : forall m k, 1600 < k * ln 10 -> exists d, 0 < d /\
  elo (mkElo (Fin (m + d))) (mkElo (Fin (m - d))) DRAW (mkEloConfig (Fin k)) = (mkElo (Fin (m - d)), mkElo (Fin (m + d))) /\
  elo (mkElo (Fin (m - d))) (mkElo (Fin (m + d))) DRAW (mkEloConfig (Fin k)) = (mkElo (Fin (m + d)), mkElo (Fin (m - d))).
Proof. exact C111_elo_both_alternate_proof. Qed.
Print Assumptions C111_draws_elo_both_alternate.
Theorem C111_draws_fifa_alternate : forall ro i, 4800 < i * ln 10 -> exists d, 0 < d /\
  forall n, fifa_rating_period (mkFifa (Fin (ro + d))) (repeat (mkFifa (Fin ro), DRAW, mkFifaConfig (Fin i) false false) n) = mkFifa (Fin (ro + (-1) ^ n * d)).
Proof. exact C111_fifa_alternate_proof. Qed.
Print Assumptions C111_draws_fifa_alternate.
Theorem C111_draws_elo_iff : forall k, 0 < k -> (k * ln 10 <= 3200 <-> forall r ro, exists u : nat -> R,
  (forall n, elo_rating_period (mkElo (Fin r)) (repeat (mkElo (Fin ro), DRAW) n) (mkEloConfig (Fin k)) = mkElo (Fin (u n))) /\ Un_cv u ro).
Proof. exact C111_elo_iff_proof. Qed.
Print Assumptions C111_draws_elo_iff.
Theorem C111_draws_fifa_iff : forall i, 0 < i -> (i * ln 10 <= 4800 <-> forall r ro, exists u : nat -> R,
  (forall n, fifa_rating_period (mkFifa (Fin r)) (repeat (mkFifa (Fin ro), DRAW, mkFifaConfig (Fin i) false false) n) = mkFifa (Fin (u n))) /\ Un_cv u ro).
Proof. exact C111_fifa_iff_proof. Qed.
Print Assumptions C111_draws_fifa_iff.
Example C111_case : 32 * ln 10 < 800 /\ 60 * ln 10 < 2400 /\ 3200 < 1400 * ln 10 /\ 4800 < 2100 * ln 10.
Proof. pose proof ln10_close. lra. Qed.

(** C112: repeated wins against one opponent. *)
Theorem C112_farming_elo : forall r ro k, 0 < k -> exists u : nat -> R,
  (forall n, elo_rating_period (mkElo (Fin r)) (repeat (mkElo (Fin ro), WIN) n) (mkEloConfig (Fin k)) = mkElo (Fin (u n))) /\
  (forall n, u n < u (S n)) /\ (forall M, exists n, M < u n) /\
  let f0 := Rpower 10 ((r - ro) / 400) in let c := k * ln 10 / 400 in
  forall n, f0 + INR n * (c * f0 / (1 + f0)) <= Rpower 10 ((u n - ro) / 400) <= f0 + INR n * (c * exp c).
Proof. exact C112_elo_proof. Qed.
Print Assumptions C112_farming_elo.
Theorem C112_farming_fifa : forall r ro i, 0 < i -> exists u : nat -> R,
  (forall n, fifa_rating_period (mkFifa (Fin r)) (repeat (mkFifa (Fin ro), WIN, mkFifaConfig (Fin i) false false) n) = mkFifa (Fin (u n))) /\
  (forall n, u n < u (S n)) /\ (forall M, exists n, M < u n) /\
  let f0 := Rpower 10 ((r - ro) / 600) in let c := i * ln 10 / 600 in
  forall n, f0 + INR n * (c * f0 / (1 + f0)) <= Rpower 10 ((u n - ro) / 600) <= f0 + INR n * (c * exp c).
Proof. exact C112_fifa_proof. Qed.
Print Assumptions C112_farming_fifa.
(* Starting level with the opponent: after n wins 10^(lead / 400) lies between 1 + n c / 2 and 1 + n c e^c. *)
Example C112_case : Rpower 10 ((1000 - 1000) / 400) = 1 /\ 0.18 < 32 * ln 10 / 400 < 0.19.
Proof. pose proof ln10_close. split; [replace ((1000 - 1000) / 400) with 0 by field; apply Rpower_O; lra|lra]. Qed.
