(** Property theorems: a Weng-Lin game of many teams and its two-team games (C146). *)
From Coq Require Import ZArith NArith List Bool Reals Lra Lia.
From Verif Require Import Arith XR ModelLib ModelWengLin Spec SpecIn ProofPairs.
Import Spec ListNotations.
Local Open Scope R_scope.

(** C146: [d x] is what the player's team becomes in the two-team game against [x]. *)
@THM C146_sum_of_pairs C146_proof

Example C146_case : 0 <= / 1000000 <= 3 / 4 /\ Forall (fun y => wl_ok (fst y)) ([([(25, 2); (30, 5)], 1%N)] ++ ([(20, 3)], 2%N) :: [([(21, 4)], 2%N)]).
Proof. split; [lra|]. repeat constructor; cbn; try lra; discriminate. Qed.
