(** TrueSkill: trueskill_multi_team and its factor graph. *)
From Coq Require Import ZArith NArith List Bool Reals Lra Lia Permutation.
From Verif Require Import Arith XR ModelLib ModelWengLin ModelTS ModelTSGraph ModelTSMatrix Spec SpecTS SpecInTS ProofTS ProofTSGraph ProofTSSafe ProofTSTwo ProofTSTwoTop.
Import ListNotations.
Local Open Scope R_scope.

(** C52: shape of the result and panics. *)
@THM C52_ts_multi_shape C52_shape_proof
@THM C52_ts_multi_empty C52_empty_proof
@THM C52_ts_multi_total C52_total_proof
@THM C52_ts_multi_panic_refuted C52_panic_proof
@THM C52_ts_multi_one_team_refuted C52_one_team_proof
Example C52_case : let l := [([(25, 25/3); (30, 4)], 1%N); ([(20, 3)], 1%N); ([(10, 8)], 7%N)] in
  (2 <= length l)%nat /\ l <> [] /\ Forall (fun x => Forall (fun p => 0 < snd p) (fst x)) l /\ Forall (fun x => fst x <> []) l /\
  weights_ok (fun w => w < 0) (map fst l) [[1; 1/2]; [0]; [1]].
Proof. cbv zeta. split; [cbn; lia|]. split; [discriminate|].
  repeat split; repeat apply Forall_cons; repeat apply Forall_nil; repeat apply Forall2_cons; repeat apply Forall2_nil;
    cbn [fst snd]; repeat split; repeat apply Forall_cons; repeat apply Forall_nil; try lra; discriminate.
Qed.
Example C52_empty_case : Exists (fun x : list (TrueSkillRating XR) * MultiTeamOutcome => fst x = []) [([ts_in (25, 8)], mkMTO 1); ([], mkMTO 2)].
Proof. right. left. reflexivity. Qed.

(** C53: two teams. *)
@THM C53_ts_graph_two_teams_partial C53_proof
@THM C53_ts_graph_two_default_partial C53_default_proof
Example C53_case : exists e m, ts_draw_margin (Fin (1/10)) (Fin 4) (Fin (INR 3)) = Fin e /\
  let t1 := [((m, 8), 1/2); ((0, 3), 1)] in let t2 := [((0, 4), 1)] in
  Forall (fun x : wpl => 0 < snd (fst x) /\ 0 < snd x) (t1 ++ t2) /\
  forall c, 0 < ts_w (rank_outcome 1 2) ((w_mean t1 - w_mean t2) / c) (e / c) < 1.
Proof.
  destruct (C53_proof [((0, 8), 1/2); ((0, 3), 1)] [((0, 4), 1)] 1 2 (1/10) 4 0) as (e & E & _); [discriminate|discriminate|repeat constructor; cbn; lra|].
  exists e, (2 * e). split; [exact E|]. cbv zeta. split; [repeat constructor; cbn; lra|].
  intros c. match goal with |- context [(?x / c)] => assert (D : x = e) by (unfold w_mean, Rsum; cbn; lra); rewrite D end.
  apply wwin_diag.
Qed.

(** C79: a player of weight 0. *)
@THM C79_ts_zero_weight_nan C79_zero_proof
@THM C79_ts_zero_weight_refuted C79_refuted_proof
Example C79_case : 0 < 25/3 /\ 0 < 3 /\ 0 < 8. Proof. lra. Qed.

(** C83: the order of the input. *)
@THM C83_ts_multi_order C83_proof
Example C83_case : let l := [([ts_in (25, 8)], mkMTO 3, [Fin 1]); ([ts_in (20, 8)], mkMTO 1, [Fin 1]); ([ts_in (30, 2)], mkMTO 2, [Fin 1])] in
  Permutation l (rev l) /\ NoDup (map (fun x => mto_rank (snd (fst x))) l).
Proof. cbv zeta. split; [apply Permutation_rev|]. cbn. repeat constructor; cbn; intuition discriminate. Qed.

(** C84: two teams by both functions. *)
@THM C84_ts_two_team_agree_partial C84_agree_proof
@THM C84_ts_two_team_agree_refuted C84_refuted_proof
Example C84_case : 25/300 <> 0 /\ 0 < 25/3 /\ Forall (fun p => 0 < snd p) ([(25, 25/3); (20, 1)] ++ [(30, 3)]).
Proof. split; [lra|]. split; [lra|]. repeat constructor; cbn; lra. Qed.
