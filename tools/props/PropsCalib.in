(** Property theorems: forecasts and results agree in the long run (C148). *)
From Coq Require Import ZArith NArith List Bool Reals Lra Lia.
From Verif Require Import Arith XR ModelLib ModelElo ModelFifa ModelIngo Spec ProofCalib ProofCalib2.
Import ListNotations.
Local Open Scope R_scope.

(** C148: points scored minus points forecast after n games, for arbitrary results. *)
@THM C148_elo_calibrated C148_elo_proof
@THM C148_fifa_calibrated C148_fifa_proof
(** Ingo: the difference stays bounded. *)
@THM C148_ingo_calibrated C148_ingo_proof

(* A player who wins every other game against opponents rated 1000 and 2000 in turn. *)
Example C148_case : 0 < 32 /\ forall n : nat, Rabs (fst (if Nat.even n then (1000, WIN) else (2000, LOSS))) <= 2000.
Proof. split; [lra|]. intros n. destruct (Nat.even n); cbn [fst]; apply Rabs_le; lra. Qed.
(* An Ingo player against opponents rated 50 and 300 in turn. *)
Example C148_ingo_case : forall n : nat, Rabs (fst (fst (if Nat.even n then (50, 18%N, WIN) else (300, 40%N, LOSS)))) <= 300.
Proof. intros n. destruct (Nat.even n); cbn [fst]; apply Rabs_le; lra. Qed.
