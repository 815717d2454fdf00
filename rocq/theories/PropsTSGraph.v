(** TrueSkill: trueskill_multi_team and its factor graph. *)
From Coq Require Import ZArith NArith List Bool Reals Lra Lia Permutation.
From Verif Require Import Arith XR ModelLib ModelWengLin ModelTS ModelTSGraph ModelTSMatrix Spec SpecTS SpecInTS ProofTS ProofTSGraph ProofTSSafe ProofTSTwo ProofTSTwoTop.
Import ListNotations.
Local Open Scope R_scope.

(** C52: shape of the result and panics. *)
Theorem C52_ts_multi_shape : forall (F : Type) (A : Arith F) (trs : list (list (TrueSkillRating F) * MultiTeamOutcome)) cfg ws r,
  trueskill_multi_team trs cfg ws = Ok r ->
  Forall2 (fun new old => length new = length (fst old)) r trs.
Proof. exact C52_shape_proof. Qed.
Print Assumptions C52_ts_multi_shape.
Theorem C52_ts_multi_empty : forall (F : Type) (A : Arith F) (trs : list (list (TrueSkillRating F) * MultiTeamOutcome)) cfg ws,
  Exists (fun x => fst x = []) trs \/ trs = [] -> trueskill_multi_team trs cfg ws = Ok (map fst trs).
Proof. exact C52_empty_proof. Qed.
Print Assumptions C52_ts_multi_empty.
Theorem C52_ts_multi_total : forall l ws dp beta tau,
  (2 <= length l)%nat -> Forall (fun x => Forall (fun p => 0 < snd p) (fst x)) l -> weights_ok (fun w => w < 0) (map fst l) ws ->
  exists r, trueskill_multi_team (map tsr_in l) (ts_cfg dp beta tau) (Some (map (map Fin) ws)) = Ok r.
Proof. exact C52_total_proof. Qed.
Print Assumptions C52_ts_multi_total.
Theorem C52_ts_multi_panic_refuted : forall l ws dp beta tau,
  l <> [] -> Forall (fun x => fst x <> []) l -> weights_ok (fun w => w < 0) (map fst l) ws ->
  (trueskill_multi_team (map tsr_in l) (ts_cfg dp beta tau) (Some (map (map Fin) ws)) = Panic <->
   length l = 1%nat \/ Exists (fun x => Exists (fun p => snd p = 0) (fst x)) l).
Proof. exact C52_panic_proof. Qed.
Print Assumptions C52_ts_multi_panic_refuted.
Theorem C52_ts_multi_one_team_refuted : forall (F : Type) (A : Arith F) (t : list (TrueSkillRating F)) k cfg, t <> [] ->
  trueskill_multi_team [(t, mto_new k)] cfg None = Panic.
Proof. exact C52_one_team_proof. Qed.
Print Assumptions C52_ts_multi_one_team_refuted.
Example C52_case : let l := [([(25, 25/3); (30, 4)], 1%N); ([(20, 3)], 1%N); ([(10, 8)], 7%N)] in
  (2 <= length l)%nat /\ l <> [] /\ Forall (fun x => Forall (fun p => 0 < snd p) (fst x)) l /\ Forall (fun x => fst x <> []) l /\
  weights_ok (fun w => w < 0) (map fst l) [[1; 1/2]; [0]; [1]].
Proof. cbv zeta. split; [cbn; lia|]. split; [discriminate|].
  repeat split; repeat apply Forall_cons; repeat apply Forall_nil; repeat apply Forall2_cons; repeat apply Forall2_nil;
    cbn [fst snd]; repeat split; repeat apply Forall_cons; repeat apply Forall_nil; try lra; discriminate.
Qed.
Example C52_empty_case : Exists (fun x : list (TrueSkillRating XR) * MultiTeamOutcome => fst x = []) [([ts_in (25, 8)], mkMTO 1); ([], mkMTO 2)].
Proof. right. left. reflexivity. Qed.

(** C53: two teams. *)
Theorem C53_ts_graph_two_teams_partial : forall (t1 t2 : list wpl) k1 k2 dp beta tau,
  t1 <> [] -> t2 <> [] -> Forall (fun x : wpl => 0 < snd (fst x) /\ 0 < snd x) (t1 ++ t2) ->
  let c := sqrt (w_var beta tau (t1 ++ t2)) in let t := (w_mean t1 - w_mean t2) / c in let o := rank_outcome k1 k2 in
  exists e, ts_draw_margin (Fin dp) (Fin beta) (Fin (INR (length t1 + length t2))) = Fin e /\
  (0 < ts_w o t (e / c) < 1 ->
   trueskill_multi_team [tsr_in (map fst t1, k1); tsr_in (map fst t2, k2)] (ts_cfg dp beta tau) (Some [map Fin (map snd t1); map Fin (map snd t2)]) =
   Ok [map (w_out tau c (ts_v o t (e / c)) (ts_w o t (e / c))) t1; map (w_out tau c (- ts_v o t (e / c)) (ts_w o t (e / c))) t2]).
Proof. exact C53_proof. Qed.
Print Assumptions C53_ts_graph_two_teams_partial.
Theorem C53_ts_graph_two_default_partial : forall (t1 t2 : list (R * R)) k1 k2 dp beta tau,
  t1 <> [] -> t2 <> [] -> Forall (fun p => 0 < snd p) (t1 ++ t2) ->
  let n := INR (length t1 + length t2) in
  let c := sqrt (n * (beta ^ 2 + tau ^ 2) + side_var t1 + side_var t2) in let t := (side_mu t1 - side_mu t2) / c in let o := rank_outcome k1 k2 in
  exists e, ts_draw_margin (Fin dp) (Fin beta) (Fin n) = Fin e /\
  (0 < ts_w o t (e / c) < 1 ->
   trueskill_multi_team [tsr_in (t1, k1); tsr_in (t2, k2)] (ts_cfg dp beta tau) None =
   Ok [map (ts_out tau c (ts_v o t (e / c)) (ts_w o t (e / c))) t1; map (ts_out tau c (- ts_v o t (e / c)) (ts_w o t (e / c))) t2]).
Proof. exact C53_default_proof. Qed.
Print Assumptions C53_ts_graph_two_default_partial.
Example C53_case : exists e m, ts_draw_margin (Fin (1/10)) (Fin 4) (Fin (INR 3)) = Fin e /\
  let t1 := [((m, 8), 1/2); ((0, 3), 1)] in let t2 := [((0, 4), 1)] in
  Forall (fun x : wpl => 0 < snd (fst x) /\ 0 < snd x) (t1 ++ t2) /\
  forall c, 0 < ts_w (rank_outcome 1 2) ((w_mean t1 - w_mean t2) / c) (e / c) < 1.
Proof.
  destruct (C53_proof [((0, 8), 1/2); ((0, 3), 1)] [((0, 4), 1)] 1 2 (1/10) 4 0) as (e & E & _); [discriminate|discriminate|repeat constructor; cbn; lra|].
  exists e, (2 * e). split; [exact E|]. cbv zeta. split; [repeat constructor; cbn; lra|].
  intros c. match goal with |- context [(?x / c)] => assert (D : x = e) by (unfold w_mean, Rsum; cbn; lra); rewrite D end.
  apply wwin_diag.
Qed.

(** C79: a player of weight 0. *)
Theorem C79_ts_zero_weight_nan : forall (p : R * R) (t1 t2 : list wpl) k1 k2 dp beta tau,
  (k1 <= k2)%N -> t1 <> [] -> t2 <> [] -> 0 < snd p -> Forall (fun x : wpl => 0 < snd (fst x) /\ 0 < snd x) (t1 ++ t2) ->
  let t1' := (p, 0) :: t1 in
  let c := sqrt (w_var beta tau (t1' ++ t2)) in let t := (w_mean t1' - w_mean t2) / c in let o := rank_outcome k1 k2 in
  exists e, ts_draw_margin (Fin dp) (Fin beta) (Fin (INR (length t1' + length t2))) = Fin e /\
  (0 < ts_w o t (e / c) < 1 ->
   exists r1 r2, trueskill_multi_team [tsr_in (map fst t1', k1); tsr_in (map fst t2, k2)] (ts_cfg dp beta tau) (Some [map Fin (map snd t1'); map Fin (map snd t2)]) =
     Ok [mkTS NaN NaN :: r1; r2]).
Proof. exact C79_zero_proof. Qed.
Print Assumptions C79_ts_zero_weight_nan.
Theorem C79_ts_zero_weight_refuted : forall dp beta tau s1 s2 s3, 0 < s1 -> 0 < s2 -> 0 < s3 ->
  exists m1 m2 m3 r1 r2, trueskill_multi_team [tsr_in ([(m1, s1); (m2, s2)], 1%N); tsr_in ([(m3, s3)], 2%N)] (ts_cfg dp beta tau) (Some [[Fin 0; Fin 1]; [Fin 1]]) =
    Ok [mkTS NaN NaN :: r1; r2].
Proof. exact C79_refuted_proof. Qed.
Print Assumptions C79_ts_zero_weight_refuted.
Example C79_case : 0 < 25/3 /\ 0 < 3 /\ 0 < 8. Proof. lra. Qed.

(** C83: the order of the input. *)
Theorem C83_ts_multi_order : forall (F : Type) (A : Arith F) (l l' : list (list (TrueSkillRating F) * MultiTeamOutcome * list F)) cfg,
  Permutation l l' -> NoDup (map (fun x => mto_rank (snd (fst x))) l) ->
  let rate l := trueskill_multi_team (map fst l) cfg (Some (map snd l)) in
  let by_rank (l : list (list (TrueSkillRating F) * MultiTeamOutcome * list F)) (r : list (list (TrueSkillRating F))) :=
    combine (map (fun x => mto_rank (snd (fst x))) l) r in
  match rate l, rate l' with
  | Ok r, Ok r' => Permutation (by_rank l r) (by_rank l' r')
  | Err _, Err _ => True
  | Panic, Panic => True
  | _, _ => False
  end.
Proof. exact C83_proof. Qed.
Print Assumptions C83_ts_multi_order.
Example C83_case : let l := [([ts_in (25, 8)], mkMTO 3, [Fin 1]); ([ts_in (20, 8)], mkMTO 1, [Fin 1]); ([ts_in (30, 2)], mkMTO 2, [Fin 1])] in
  Permutation l (rev l) /\ NoDup (map (fun x => mto_rank (snd (fst x))) l).
Proof. cbv zeta. split; [apply Permutation_rev|]. cbn. repeat constructor; cbn; intuition discriminate. Qed.

(** C84: two teams by both functions. *)
Theorem C84_ts_two_team_agree_partial : forall (t1 t2 : list (R * R)) k1 k2 dp beta,
  t1 <> [] -> t2 <> [] -> Forall (fun p => 0 < snd p) (t1 ++ t2) ->
  let n := INR (length t1 + length t2) in
  let c := sqrt (n * beta ^ 2 + side_var t1 + side_var t2) in let t := (side_mu t1 - side_mu t2) / c in let o := rank_outcome k1 k2 in
  exists e, ts_draw_margin (Fin dp) (Fin beta) (Fin n) = Fin e /\
  (0 < ts_w o t (e / c) < 1 ->
   let '(r1, r2) := trueskill_two_teams (tst_in t1) (tst_in t2) o (ts_cfg dp beta 0) in
   trueskill_multi_team [tsr_in (t1, k1); tsr_in (t2, k2)] (ts_cfg dp beta 0) None = Ok [r1; r2]).
Proof. exact C84_agree_proof. Qed.
Print Assumptions C84_ts_two_team_agree_partial.
Theorem C84_ts_two_team_agree_refuted : forall dp beta tau s1 s2, tau <> 0 -> 0 < s1 -> 0 < s2 ->
  exists m1 m2, let p1 := (m1, s1) in let p2 := (m2, s2) in
    let '(r1, r2) := trueskill_two_teams (tst_in [p1]) (tst_in [p2]) WIN (ts_cfg dp beta tau) in
    trueskill_multi_team [tsr_in ([p1], 1%N); tsr_in ([p2], 2%N)] (ts_cfg dp beta tau) None <> Ok [r1; r2].
Proof. exact C84_refuted_proof. Qed.
Print Assumptions C84_ts_two_team_agree_refuted.
Example C84_case : 25/300 <> 0 /\ 0 < 25/3 /\ Forall (fun p => 0 < snd p) ([(25, 25/3); (20, 1)] ++ [(30, 3)]).
Proof. split; [lra|]. split; [lra|]. repeat constructor; cbn; lra. Qed.
