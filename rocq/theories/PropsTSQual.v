(** TrueSkill: match_quality_multi_team. *)
From Coq Require Import ZArith NArith List Bool Reals Lra Lia Permutation.
From Verif Require Import Arith XR ModelLib ModelWengLin ModelTS ModelTSMatrix Spec SpecTS SpecInTS ProofTSQual.
Import ListNotations.
Local Open Scope R_scope.

(** C56: value, range and panics. *)
Theorem C56_ts_quality_multi_value : forall l dp beta tau, (3 <= length l)%nat -> Forall (fun t => t <> []) l -> Forall (Forall (fun x : wpl => 0 <= snd x)) l ->
  Forall (fun t => 0 < w_var beta 0 t) l ->
  match_quality_multi_team (map (fun t => tst_in (map fst t)) l) (ts_cfg dp beta tau) (Some (map (fun t => map Fin (map snd t)) l)) = Ok (Fin (mq_multi beta l)).
Proof. exact C56_value_proof. Qed.
Print Assumptions C56_ts_quality_multi_value.
Theorem C56_ts_quality_multi_range : forall l dp beta tau, (3 <= length l)%nat -> Forall (fun t => t <> []) l -> Forall (Forall (fun x : wpl => 0 <= snd x)) l ->
  Forall (fun t => 0 < w_var beta 0 t) l ->
  exists q, match_quality_multi_team (map (fun t => tst_in (map fst t)) l) (ts_cfg dp beta tau) (Some (map (fun t => map Fin (map snd t)) l)) = Ok (Fin q) /\
    0 <= q <= 1 /\ (beta <> 0 -> Forall (fun t => exists x, In x t /\ snd x <> 0) l -> 0 < q).
Proof. exact C56_range_proof. Qed.
Print Assumptions C56_ts_quality_multi_range.
Theorem C56_ts_quality_multi_empty : forall (F : Type) (A : Arith F) (ts : list (list (TrueSkillRating F))) cfg w, ts = [] \/ In [] ts ->
  match_quality_multi_team ts cfg w = Ok (fofZ 0).
Proof. exact C56_empty_proof. Qed.
Print Assumptions C56_ts_quality_multi_empty.
Example C56_empty_case : In [] [[ts_new]; []; [ts_new (F := XR)]].
Proof. right. left. reflexivity. Qed.
Theorem C56_ts_quality_multi_panic_refuted : forall l dp beta tau, l <> [] -> Forall (fun t => t <> []) l -> Forall (Forall (fun x : wpl => 0 <= snd x)) l ->
  (match_quality_multi_team (map (fun t => tst_in (map fst t)) l) (ts_cfg dp beta tau) (Some (map (fun t => map Fin (map snd t)) l)) = Panic <->
   length l = 1%nat \/ length l = 2%nat \/ exists l1 t l2 u l3, l = l1 ++ t :: l2 ++ u :: l3 /\ w_var beta 0 t = 0 /\ w_var beta 0 u = 0).
Proof. exact C56_panic_proof. Qed.
Print Assumptions C56_ts_quality_multi_panic_refuted.
Theorem C56_ts_quality_two_refuted : forall (F : Type) (A : Arith F) (t1 t2 : list (TrueSkillRating F)) cfg, t1 <> [] -> t2 <> [] ->
  match_quality_multi_team [t1; t2] cfg None = Panic.
Proof. exact C56_two_proof. Qed.
Print Assumptions C56_ts_quality_two_refuted.
Example C56_case : let l := [[((25, 8), 1); ((30, 2), 0)]; [((20, 3), 1/2)]; [((10, 8), 1)]] in
  (3 <= length l)%nat /\ Forall (fun t => t <> []) l /\ Forall (Forall (fun x : wpl => 0 <= snd x)) l /\ Forall (fun t => 0 < w_var 4 0 t) l.
Proof.
  cbv zeta. repeat split; repeat apply Forall_cons; repeat apply Forall_nil; try discriminate; cbn [snd]; try lra; try (cbn [length]; lia); unfold w_var, Rsum; cbn; lra.
Qed.

(** C85: the order of the teams. *)
Theorem C85_ts_quality_multi_order : forall l l' dp beta tau, Permutation l l' -> (3 <= length l)%nat -> Forall (fun t => t <> []) l -> Forall (Forall (fun x : wpl => 0 <= snd x)) l ->
  Forall (fun t => 0 < w_var beta 0 t) l ->
  let quality l := match_quality_multi_team (map (fun t => tst_in (map fst t)) l) (ts_cfg dp beta tau) (Some (map (fun t : list wpl => map Fin (map snd t)) l)) in
  quality l = quality l'.
Proof. exact C85_proof. Qed.
Print Assumptions C85_ts_quality_multi_order.
Example C85_case : Permutation [[((25, 8), 1); ((30, 2), 0)]; [((20, 3), 1/2)]; [((10, 8), 1)]] [[((20, 3), 1/2)]; [((10, 8), 1)]; [((25, 8), 1); ((30, 2), 0)]].
Proof. apply perm_trans with [[((20, 3), 1/2)]; [((25, 8), 1); ((30, 2), 0)]; [((10, 8), 1)]]; [apply perm_swap|apply perm_skip, perm_swap]. Qed.
