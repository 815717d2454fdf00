From Coq Require Import ZArith NArith List Bool Reals Lra Lia.
From Verif Require Import Arith XR Tac ModelLib ModelElo ModelFifa Spec ProofElo.
Import ListNotations.
Local Open Scope R_scope.

Lemma fifa_We_inv a b : fifa_We a b = / (1 + Rpower 10 (- (a - b) / 600)).
Proof. unfold fifa_We, Rdiv at 1. rewrite Rmult_1_l. f_equal. ring. Qed.
Lemma fifa_We_swap a b : fifa_We b a = 1 - fifa_We a b.
Proof.
  rewrite !fifa_We_inv. replace (- (b - a) / 600) with (- (- (a - b) / 600)) by field.
  rewrite Rpower_neg. pose proof (Rpower_gt0 10 (- (a - b) / 600)). field. lra.
Qed.
Lemma fifa_We_range a b : 0 < fifa_We a b < 1.
Proof. rewrite fifa_We_inv. apply logistic_bounds, Rpower_gt0. Qed.
Lemma fifa_We_mono a a' b : a < a' -> fifa_We a b < fifa_We a' b.
Proof.
  intros H. rewrite !fifa_We_inv. apply Rinv_lt_mono; [pos|]. apply Rplus_lt_compat_l, Rpower_mono; lra.
Qed.
Lemma fifa_We_equal a : fifa_We a a = 1 / 2.
Proof. rewrite fifa_We_inv. replace (- (a - a) / 600) with 0 by field. rewrite Rpower_zero. lra. Qed.

Lemma fifa_expected_eval a b :
  fifa_expected_score (mkFifa (Fin a)) (mkFifa (Fin b)) = (Fin (fifa_We a b), Fin (fifa_We b a)).
Proof.
  unfold fifa_expected_score; cbn [fifa_rating]; cbv zeta. xr.
  now rewrite (fifa_We_swap a b), fifa_We_inv.
Qed.

(** The scores that the code gives to the two teams. *)
Definition code_W1 (pen : bool) (o : Outcomes) : R :=
  if pen then match o with WIN => 3 / 4 | _ => 1 / 2 end else points o.
Definition code_W2 (pen : bool) (o : Outcomes) : R :=
  if pen then match o with WIN => 3 / 4 | _ => 1 / 2 end else points (invert o).
Lemma fifa_outcome1_eval I ko pen o : fifa_outcome1 (mkFifaConfig I ko pen) o = Fin (code_W1 pen o).
Proof. destruct pen, o; cbn; f_equal; lra. Qed.
Lemma fifa_outcome2_eval I ko pen o : fifa_outcome2 (mkFifaConfig I ko pen) o = Fin (code_W2 pen o).
Proof. destruct pen, o; cbn; f_equal; lra. Qed.

Definition ko_max (ko : bool) (old new : R) : R := if ko then Rmax old new else new.
Lemma ko_eval ko old new :
  (if ko && (fltb (Fin new) (Fin old)) then Fin old else Fin new) = Fin (ko_max ko old new).
Proof.
  destruct ko; cbn [andb ko_max]; auto. rewrite xr_ltb. unfold Rltb, Rmax.
  destruct (Rlt_dec new old), (Rle_dec old new); f_equal; lra.
Qed.

Lemma fifa_eval r1 r2 I ko pen o :
  fifa (mkFifa (Fin r1)) (mkFifa (Fin r2)) o (mkFifaConfig (Fin I) ko pen) =
  (mkFifa (Fin (ko_max ko r1 (fifa_upd I r1 r2 (code_W1 pen o)))),
   mkFifa (Fin (ko_max ko r2 (fifa_upd I r2 r1 (code_W2 pen o))))).
Proof.
  unfold fifa. rewrite fifa_expected_eval, fifa_outcome1_eval, fifa_outcome2_eval.
  cbn [fifa_rating fifa_importance fifa_knockout]; cbv zeta. xr.
  rewrite <- !xr_ltb, !ko_eval. unfold fifa_upd.
  f_equal; do 3 f_equal; ring.
Qed.

Lemma C06_proof : forall r1 r2 I o,
  fifa (mkFifa (Fin r1)) (mkFifa (Fin r2)) o (mkFifaConfig (Fin I) false false) =
    (mkFifa (Fin (fifa_upd I r1 r2 (points o))), mkFifa (Fin (fifa_upd I r2 r1 (points (invert o))))) /\
  fifa_upd I r1 r2 (points o) + fifa_upd I r2 r1 (points (invert o)) = r1 + r2 /\
  fifa_expected_score (mkFifa (Fin r1)) (mkFifa (Fin r2)) = (Fin (fifa_We r1 r2), Fin (fifa_We r2 r1)) /\
  0 < fifa_We r1 r2 < 1 /\ fifa_We r1 r2 + fifa_We r2 r1 = 1.
Proof.
  intros. split; [rewrite fifa_eval; reflexivity|].
  split; [unfold fifa_upd; rewrite points_invert, (fifa_We_swap r1 r2); ring|].
  split; [apply fifa_expected_eval|]. split; [apply fifa_We_range|]. rewrite (fifa_We_swap r1 r2); ring.
Qed.

Lemma C07_proof : forall r1 r2 I pen o,
  exists u1 u2 k1 k2,
    fifa (mkFifa (Fin r1)) (mkFifa (Fin r2)) o (mkFifaConfig (Fin I) false pen) = (mkFifa (Fin u1), mkFifa (Fin u2)) /\
    fifa (mkFifa (Fin r1)) (mkFifa (Fin r2)) o (mkFifaConfig (Fin I) true pen) = (mkFifa (Fin k1), mkFifa (Fin k2)) /\
    r1 <= k1 /\ r2 <= k2 /\ (r1 <= u1 -> k1 = u1) /\ (r2 <= u2 -> k2 = u2) /\
    (u1 < r1 -> k1 = r1) /\ (u2 < r2 -> k2 = r2).
Proof.
  intros. rewrite !fifa_eval. do 4 eexists. split; [reflexivity|]. split; [reflexivity|].
  unfold ko_max. repeat split; try apply Rmax_l; intros.
  all: first [apply Rmax_right; lra | apply Rmax_left; lra].
Qed.

Lemma fifa_period_fold {F} `{Arith F} (p : FifaRating F) rs :
  fifa_rating_period p rs = fold_left (fun q r => fst (fifa q (fst (fst r)) (snd (fst r)) (snd r))) rs p.
Proof.
  unfold fifa_rating_period. destruct p as [r]; cbn [fifa_rating].
  revert r; induction rs as [|[[opp o] c] rs IH]; intros r; cbn [fold_left]; auto.
  rewrite IH. f_equal. unfold fifa; cbn. unfold fifa_period_step.
  f_equal. match goal with |- (if negb ?b then _ else _) = _ => destruct b end; reflexivity.
Qed.

Definition fifa_games (rs : list (R * Outcomes * (R * bool))) (ko : bool) : list (FifaRating XR * Outcomes * FifaConfig XR) :=
  map (fun g => let '(opp, o, (imp, pen)) := g in (mkFifa (Fin opp), o, mkFifaConfig (Fin imp) ko pen)) rs.

Lemma C07_period_proof : forall r rs,
  exists r', fifa_rating_period (mkFifa (Fin r)) (fifa_games rs true) = mkFifa (Fin r') /\ r <= r'.
Proof.
  intros r rs. rewrite fifa_period_fold. revert r; induction rs as [|[[opp o] [imp pen]] rs IH]; intros r.
  - exists r; cbn; split; auto; lra.
  - cbn [fifa_games map fold_left fst snd]. rewrite fifa_eval; cbn [fst].
    destruct (IH (ko_max true r (fifa_upd imp r opp (code_W1 pen o)))) as (r' & E & Hle).
    exists r'. split; [exact E|]. eapply Rle_trans; [|exact Hle]. apply Rmax_l.
Qed.

Lemma C08_period_proof : forall r opp I o,
  fifa_rating_period (mkFifa (Fin r)) [(mkFifa (Fin opp), o, mkFifaConfig (Fin I) false true)] =
  mkFifa (Fin (fifa_upd I r opp (match o with WIN => 3 / 4 | LOSS | DRAW => 1 / 2 end))).
Proof. intros. rewrite fifa_period_fold. cbn [fold_left fst snd]. rewrite fifa_eval. destruct o; reflexivity. Qed.

Lemma C08_refuted_proof : forall r1 r2 I, I <> 0 ->
  fifa (mkFifa (Fin r1)) (mkFifa (Fin r2)) WIN (mkFifaConfig (Fin I) false true) <>
    (mkFifa (Fin (fifa_upd I r1 r2 (3 / 4))), mkFifa (Fin (fifa_upd I r2 r1 (1 / 2)))) /\
  fifa (mkFifa (Fin r1)) (mkFifa (Fin r2)) LOSS (mkFifaConfig (Fin I) false true) <>
    (mkFifa (Fin (fifa_upd I r1 r2 (1 / 2))), mkFifa (Fin (fifa_upd I r2 r1 (3 / 4)))).
Proof.
  intros r1 r2 I HI. rewrite !fifa_eval; cbn [ko_max code_W1 code_W2]. unfold fifa_upd.
  split; intros [= E].
  all: apply HI; apply Rmult_eq_reg_r with (1/4); lra.
Qed.

Lemma C08_partial_proof : forall r1 r2 I,
  fifa (mkFifa (Fin r1)) (mkFifa (Fin r2)) WIN (mkFifaConfig (Fin I) false true) =
    (mkFifa (Fin (fifa_upd I r1 r2 (3 / 4))), mkFifa (Fin (fifa_upd I r2 r1 (3 / 4)))) /\
  fifa (mkFifa (Fin r1)) (mkFifa (Fin r2)) LOSS (mkFifaConfig (Fin I) false true) =
    (mkFifa (Fin (fifa_upd I r1 r2 (1 / 2))), mkFifa (Fin (fifa_upd I r2 r1 (1 / 2)))) /\
  fifa (mkFifa (Fin r1)) (mkFifa (Fin r2)) DRAW (mkFifaConfig (Fin I) false true) =
    (mkFifa (Fin (fifa_upd I r1 r2 (1 / 2))), mkFifa (Fin (fifa_upd I r2 r1 (1 / 2)))).
Proof. intros. rewrite !fifa_eval. repeat split. Qed.

Lemma C70_proof : forall (F : Type) (A : Arith F) (p : FifaRating F) rs,
  fifa_rating_period p rs = fold_left (fun q r => fst (fifa q (fst (fst r)) (snd (fst r)) (snd r))) rs p /\
  fifa_rating_period p [] = p /\
  (forall rs', fifa_rating_period p (rs ++ rs') = fifa_rating_period (fifa_rating_period p rs) rs').
Proof.
  intros. split; [apply fifa_period_fold|]. split; [destruct p; reflexivity|].
  intros. now rewrite !fifa_period_fold, fold_left_app.
Qed.

Lemma C06_direction_proof : forall r1 r2 I, 0 < I ->
  r1 < fifa_upd I r1 r2 1 < r1 + I /\ r1 - I < fifa_upd I r1 r2 0 < r1 /\
  (r1 < r2 -> r1 < fifa_upd I r1 r2 (1 / 2)) /\ (r2 < r1 -> fifa_upd I r1 r2 (1 / 2) < r1).
Proof.
  intros r1 r2 I HI. pose proof (fifa_We_range r1 r2). unfold fifa_upd.
  pose proof (fifa_We_equal r2).
  repeat split; try nra; intros.
  - pose proof (fifa_We_mono r1 r2 r2 H1). nra.
  - pose proof (fifa_We_mono r2 r1 r2 H1). nra.
Qed.
