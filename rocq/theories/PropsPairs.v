(** Property theorems: a Weng-Lin game of many teams and its two-team games (C146). *)
From Coq Require Import ZArith NArith List Bool Reals Lra Lia.
From Verif Require Import Arith XR ModelLib ModelWengLin Spec SpecIn ProofPairs.
Import Spec ListNotations.
Local Open Scope R_scope.

(** C146: [d x] is what the player's team becomes in the two-team game against [x]. *)
Theorem C146_sum_of_pairs : forall beta kappa pre t r post, 0 <= kappa <= 3 / 4 -> Forall (fun y => wl_ok (fst y)) (pre ++ (t, r) :: post) ->
  let cfg := mkWLConfig (Fin beta) (Fin kappa) in exists a d,
  nth_error (weng_lin_multi_team (map wlr_in (pre ++ (t, r) :: post)) cfg) (length pre) = Some (wlt_in a) /\ length a = length t /\
  (forall x, In x (pre ++ post) -> fst (weng_lin_two_teams (wlt_in t) (wlt_in (fst x)) (match N.compare r (snd x) with Lt => WIN | Eq => DRAW | Gt => LOSS end) cfg) = wlt_in (d x)) /\
  forall i p, nth_error t i = Some p -> exists q, nth_error a i = Some q /\
    fst q - fst p = Rsum (map (fun x => fst (nth i (d x) p) - fst p) (pre ++ post)) /\
    snd q ^ 2 = snd p ^ 2 * Rmax (1 - Rsum (map (fun x => 1 - (snd (nth i (d x) p) / snd p) ^ 2) (pre ++ post))) kappa.
Proof. exact C146_proof. Qed.
Print Assumptions C146_sum_of_pairs.

Example C146_case : 0 <= / 1000000 <= 3 / 4 /\ Forall (fun y => wl_ok (fst y)) ([([(25, 2); (30, 5)], 1%N)] ++ ([(20, 3)], 2%N) :: [([(21, 4)], 2%N)]).
Proof. split; [lra|]. repeat constructor; cbn; try lra; discriminate. Qed.
