(** Property theorems: what makes a match of several teams fair (C137). *)
From Coq Require Import ZArith NArith List Bool Reals Lra Lia.
From Verif Require Import Arith XR ModelLib ModelWengLin ModelTS ModelTSMatrix Spec SpecTS SpecInTS ProofTSQual ProofFair.
Import ListNotations.
Local Open Scope R_scope.

(** C137: moving all team ratings closer together, in proportion, makes the match
    better; it is best exactly when all teams are equally strong ([lam = 0]). *)
@THM C137_closer_quality C137_closer_proof
(** Among equally strong teams, smaller uncertainties make it better. *)
@THM C137_certain_quality C137_certain_proof
(** Among unequal teams, larger uncertainties can make it better. *)
@THM C137_certain_quality_refuted C137_certain_refuted_proof

(* Three teams of different sizes, with weights, and the same players with ratings that
   make all teams equally strong. *)
Definition fair_ex : list (list wpl) := [[((25, 8), 1); ((30, 2), 1 / 2)]; [((20, 3), 1)]; [((10, 8), 1)]].
Definition fair_ex' : list (list wpl) := [[((5, 8), 1); ((30, 2), 1 / 2)]; [((20, 3), 1)]; [((20, 8), 1)]].
Example C137_case : (3 <= length fair_ex)%nat /\ Forall (fun t => t <> []) fair_ex /\ Forall (Forall (fun x : wpl => 0 <= snd x)) fair_ex /\ Forall (fun t => 0 < w_var 4 0 t) fair_ex /\
  Forall2 (Forall2 (fun x y : wpl => snd x = snd y /\ snd (fst x) = snd (fst y))) fair_ex fair_ex' /\ Forall2 (fun t t' => w_mean t' = 20 + 0 * w_mean t) fair_ex fair_ex' /\ Rabs 0 <= 1.
Proof.
  unfold fair_ex, fair_ex'. split; [cbn; lia|]. split; [repeat (constructor; [discriminate|]); constructor|]. split; [repeat (constructor; cbn; try lra)|].
  split; [repeat (constructor; [unfold w_var, Rsum; cbn; lra|]); constructor|]. split; [repeat (constructor; try (split; reflexivity))|]. split; [repeat (constructor; [unfold w_mean, Rsum; cbn; lra|]); constructor|]. rewrite Rabs_R0. lra.
Qed.
Example C137_certain_case : (forall t u, In t fair_ex' -> In u fair_ex' -> w_mean t = w_mean u).
Proof. assert (A : forall t, In t fair_ex' -> w_mean t = 20) by (intros t H; cbn in H; destruct H as [<-|[<-|[<-|[]]]]; unfold w_mean, Rsum; cbn; lra). intros t u Ht Hu. now rewrite !A. Qed.
Example C137_refuted_case : 0 <= 1 < 8 /\ 0 < 25 / 6. Proof. lra. Qed.
