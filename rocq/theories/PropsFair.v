(** Property theorems: what makes a match of several teams fair (C137). *)
From Coq Require Import ZArith NArith List Bool Reals Lra Lia.
From Verif Require Import Arith XR ModelLib ModelWengLin ModelTS ModelTSMatrix Spec SpecTS SpecInTS ProofTSQual ProofFair.
Import ListNotations.
Local Open Scope R_scope.

(** C137: moving all team ratings closer together, in proportion, makes the match
    better; it is best exactly when all teams are equally strong ([lam = 0]). *)
Theorem C137_closer_quality : forall l l' dp beta tau k lam, (3 <= length l)%nat -> Forall (fun t => t <> []) l -> Forall (Forall (fun x : wpl => 0 <= snd x)) l -> Forall (fun t => 0 < w_var beta 0 t) l ->
  Forall2 (Forall2 (fun x y : wpl => snd x = snd y /\ snd (fst x) = snd (fst y))) l l' -> Forall2 (fun t t' => w_mean t' = k + lam * w_mean t) l l' -> Rabs lam <= 1 ->
  let quality l := match_quality_multi_team (map (fun t => tst_in (map fst t)) l) (ts_cfg dp beta tau) (Some (map (fun t : list wpl => map Fin (map snd t)) l)) in
  exists q q', quality l = Ok (Fin q) /\ quality l' = Ok (Fin q') /\ q <= q' /\
  (0 < q -> Rabs lam < 1 -> (q = q' <-> forall t u, In t l -> In u l -> w_mean t = w_mean u)).
Proof. exact C137_closer_proof. Qed.
Print Assumptions C137_closer_quality.
(** Among equally strong teams, smaller uncertainties make it better. *)
Theorem C137_certain_quality : forall l l' dp beta tau, (3 <= length l)%nat -> Forall (fun t => t <> []) l -> Forall (Forall (fun x : wpl => 0 <= snd x)) l -> Forall (fun t => 0 < w_var beta 0 t) l ->
  Forall2 (Forall2 (fun x y : wpl => snd x = snd y /\ snd (fst x) ^ 2 <= snd (fst y) ^ 2)) l l' -> (forall t u, In t l -> In u l -> w_mean t = w_mean u) ->
  let quality l := match_quality_multi_team (map (fun t => tst_in (map fst t)) l) (ts_cfg dp beta tau) (Some (map (fun t : list wpl => map Fin (map snd t)) l)) in
  exists q q', quality l = Ok (Fin q) /\ quality l' = Ok (Fin q') /\ q' <= q.
Proof. exact C137_certain_proof. Qed.
Print Assumptions C137_certain_quality.
(** Among unequal teams, larger uncertainties can make it better. *)
Theorem C137_certain_quality_refuted : forall s s' dp beta tau, 0 <= s < s' -> 0 < beta -> exists g q q', 0 < g /\
  match_quality_multi_team [[ts_in (0, s)]; [ts_in (0, s)]; [ts_in (g, s)]] (ts_cfg dp beta tau) (Some [[Fin 1]; [Fin 1]; [Fin 1]]) = Ok (Fin q) /\
  match_quality_multi_team [[ts_in (0, s')]; [ts_in (0, s')]; [ts_in (g, s')]] (ts_cfg dp beta tau) (Some [[Fin 1]; [Fin 1]; [Fin 1]]) = Ok (Fin q') /\ q < q'.
Proof. exact C137_certain_refuted_proof. Qed.
Print Assumptions C137_certain_quality_refuted.

(* Three teams of different sizes, with weights, and the same players with ratings that
   make all teams equally strong. *)
Definition fair_ex : list (list wpl) := [[((25, 8), 1); ((30, 2), 1 / 2)]; [((20, 3), 1)]; [((10, 8), 1)]].
Definition fair_ex' : list (list wpl) := [[((5, 8), 1); ((30, 2), 1 / 2)]; [((20, 3), 1)]; [((20, 8), 1)]].
Example C137_case : (3 <= length fair_ex)%nat /\ Forall (fun t => t <> []) fair_ex /\ Forall (Forall (fun x : wpl => 0 <= snd x)) fair_ex /\ Forall (fun t => 0 < w_var 4 0 t) fair_ex /\
  Forall2 (Forall2 (fun x y : wpl => snd x = snd y /\ snd (fst x) = snd (fst y))) fair_ex fair_ex' /\ Forall2 (fun t t' => w_mean t' = 20 + 0 * w_mean t) fair_ex fair_ex' /\ Rabs 0 <= 1.
Proof.
  unfold fair_ex, fair_ex'. split; [cbn; lia|]. split; [repeat (constructor; [discriminate|]); constructor|]. split; [repeat (constructor; cbn; try lra)|].
  split; [repeat (constructor; [unfold w_var, Rsum; cbn; lra|]); constructor|]. split; [repeat (constructor; try (split; reflexivity))|]. split; [repeat (constructor; [unfold w_mean, Rsum; cbn; lra|]); constructor|]. rewrite Rabs_R0. lra.
Qed.
Example C137_certain_case : (forall t u, In t fair_ex' -> In u fair_ex' -> w_mean t = w_mean u).
Proof. assert (A : forall t, In t fair_ex' -> w_mean t = 20) by (intros t H; cbn in H; destruct H as [<-|[<-|[<-|[]]]]; unfold w_mean, Rsum; cbn; lra). intros t u Ht Hu. now rewrite !A. Qed.
Example C137_refuted_case : 0 <= 1 < 8 /\ 0 < 25 / 6. Proof. lra. Qed.
