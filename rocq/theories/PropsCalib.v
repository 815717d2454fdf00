(** Property theorems: forecasts and results agree in the long run (C148). *)
From Coq Require Import ZArith NArith List Bool Reals Lra Lia.
From Verif Require Import Arith XR ModelLib ModelElo ModelFifa ModelIngo Spec ProofCalib ProofCalib2.
Import ListNotations.
Local Open Scope R_scope.

(** C148: points scored minus points forecast after n games, for arbitrary results. *)
Theorem C148_elo_calibrated : forall k B (f : nat -> R * Outcomes) r, 0 < k -> (forall n, Rabs (fst (f n)) <= B) -> exists x e : nat -> R,
  (forall n, elo_rating_period (mkElo (Fin r)) (map (fun i => (mkElo (Fin (fst (f i))), snd (f i))) (seq 0 n)) (mkEloConfig (Fin k)) = mkElo (Fin (x n))) /\
  (forall n, fst (elo_expected_score (mkElo (Fin (x n))) (mkElo (Fin (fst (f n))))) = Fin (e n)) /\
  let S n := Rsum (map (fun i => points (snd (f i)) - e i) (seq 0 n)) in
  (forall n, k * Rabs (S n) <= Rabs r + 400 * ln (Rpower 10 (Rabs r / 400) + INR n * (k * (ln 10 / 400) * Rpower 10 ((B + k) / 400))) / ln 10) /\
  Un_cv (fun n => S n / INR n) 0.
Proof. exact C148_elo_proof. Qed.
Print Assumptions C148_elo_calibrated.
Theorem C148_fifa_calibrated : forall k B (f : nat -> R * Outcomes) r, 0 < k -> (forall n, Rabs (fst (f n)) <= B) -> exists x e : nat -> R,
  (forall n, fifa_rating_period (mkFifa (Fin r)) (map (fun j => (mkFifa (Fin (fst (f j))), snd (f j), mkFifaConfig (Fin k) false false)) (seq 0 n)) = mkFifa (Fin (x n))) /\
  (forall n, fst (fifa_expected_score (mkFifa (Fin (x n))) (mkFifa (Fin (fst (f n))))) = Fin (e n)) /\
  let S n := Rsum (map (fun i => points (snd (f i)) - e i) (seq 0 n)) in
  (forall n, k * Rabs (S n) <= Rabs r + 600 * ln (Rpower 10 (Rabs r / 600) + INR n * (k * (ln 10 / 600) * Rpower 10 ((B + k) / 600))) / ln 10) /\
  Un_cv (fun n => S n / INR n) 0.
Proof. exact C148_fifa_proof. Qed.
Print Assumptions C148_fifa_calibrated.
(** Ingo: the difference stays bounded. *)
Theorem C148_ingo_calibrated : forall a B (f : nat -> R * N * Outcomes) r, (forall n, Rabs (fst (fst (f n))) <= B) -> exists x e : nat -> R,
  (forall n, fold_left (fun p i => fst (ingo p (mkIngo (Fin (fst (fst (f i)))) (snd (fst (f i)))) (snd (f i)))) (seq 0 n) (mkIngo (Fin r) a) = mkIngo (Fin (x n)) a) /\
  (forall n, fst (ingo_expected_score (mkIngo (Fin (x n)) a) (mkIngo (Fin (fst (fst (f n)))) (snd (fst (f n))))) = Fin (e n)) /\
  let S n := Rsum (map (fun i => points (snd (f i)) - e i) (seq 0 n)) in
  (forall n, Rabs (S n) <= 21 / 100 * (2 * Rabs r + B + 50)) /\ Un_cv (fun n => S n / INR n) 0.
Proof. exact C148_ingo_proof. Qed.
Print Assumptions C148_ingo_calibrated.

(* A player who wins every other game against opponents rated 1000 and 2000 in turn. *)
Example C148_case : 0 < 32 /\ forall n : nat, Rabs (fst (if Nat.even n then (1000, WIN) else (2000, LOSS))) <= 2000.
Proof. split; [lra|]. intros n. destruct (Nat.even n); cbn [fst]; apply Rabs_le; lra. Qed.
(* An Ingo player against opponents rated 50 and 300 in turn. *)
Example C148_ingo_case : forall n : nat, Rabs (fst (fst (if Nat.even n then (50, 18%N, WIN) else (300, 40%N, LOSS)))) <= 300.
Proof. intros n. destruct (Nat.even n); cbn [fst]; apply Rabs_le; lra. Qed.
