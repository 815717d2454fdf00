(** Property theorems: the starting rating is forgotten (C147). *)
From Coq Require Import ZArith NArith List Bool Reals Lra Lia.
From Verif Require Import Arith XR ModelLib ModelElo ModelFifa ModelIngo ModelUscf Spec ProofBoost2 ProofForget ProofForget2.
Import ListNotations.
Local Open Scope R_scope.

(** C147: two players with different starting ratings and the same games and results. *)
@THM C147_elo_forgets C147_elo_proof
@THM C147_fifa_forgets C147_fifa_proof
(** Ingo: exactly, whatever the opponents. *)
@THM C147_ingo_forgets C147_ingo_proof
(** Provisional USCF players: exactly, and at once before the first game. *)
@THM C147_uscf_forgets C147_uscf_proof
(** Knock-out matches are an exception: losing them keeps every rating for ever. *)
@THM C147_fifa_knockout_refuted C147_fifa_knockout_proof

(* Starting at 0 or at 3000: any games against opponents rated between -4000 and 4000. *)
Example C147_case : 0 < 32 /\ 32 * ln 10 < 1600 /\ (forall n : nat, Rabs (fst (if Nat.even n then 4000 else -4000, WIN)) <= 4000) /\ 0 < 3000.
Proof. pose proof ln10_close. repeat split; try lra. intros n. cbn [fst]. destruct (Nat.even n); apply Rabs_le; lra. Qed.
Example C147_ingo_case : List.Forall (fun rs : list (R * N * Outcomes) => rs <> []) [[(100, 30%N, WIN); (90, 20%N, LOSS)]; [(120, 40%N, DRAW)]].
Proof. repeat constructor; discriminate. Qed.
Example C147_uscf_case : (3 <= 8)%N /\ [(1400, 20%N, WIN); (1300, 9%N, LOSS)] <> [] /\ (3 + N.of_nat 2 < 2 ^ 64)%N.
Proof. repeat split; try discriminate; lia. Qed.
