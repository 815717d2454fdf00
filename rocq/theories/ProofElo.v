From Coq Require Import ZArith NArith List Bool Reals Lra Lia.
From Verif Require Import Arith XR Tac ModelLib ModelElo Spec.
Import ListNotations.
Local Open Scope R_scope.

Lemma points_eval o : to_chess_points o = Fin (points o).
Proof. destruct o; cbn; f_equal; lra. Qed.
Lemma points_invert o : points (invert o) = 1 - points o.
Proof. destruct o; cbn; lra. Qed.
Lemma points_range o : 0 <= points o <= 1.
Proof. destruct o; cbn; lra. Qed.

Lemma elo_E_swap a b : elo_E b a = 1 - elo_E a b.
Proof.
  unfold elo_E. replace ((a - b) / 400) with (- ((b - a) / 400)) by field.
  rewrite Rpower_neg. pose proof (Rpower_gt0 10 ((b - a) / 400)). field. lra.
Qed.
Lemma elo_E_range a b : 0 < elo_E a b < 1.
Proof.
  unfold elo_E, Rdiv at 1 3. rewrite !Rmult_1_l. apply logistic_bounds, Rpower_gt0.
Qed.
Lemma elo_E_mono a a' b : a < a' -> elo_E a b < elo_E a' b.
Proof.
  intros H. unfold elo_E, Rdiv at 1 3. rewrite !Rmult_1_l.
  apply Rinv_lt_mono; [pos|]. apply Rplus_lt_compat_l, Rpower_mono; lra.
Qed.
Lemma elo_E_equal a : elo_E a a = 1 / 2.
Proof. unfold elo_E. replace ((a - a) / 400) with 0 by field. rewrite Rpower_zero. lra. Qed.
Lemma elo_E_shift a b t : elo_E (a + t) (b + t) = elo_E a b.
Proof. unfold elo_E. do 3 f_equal. lra. Qed.

Lemma elo_expected_eval a b :
  elo_expected_score (mkElo (Fin a)) (mkElo (Fin b)) = (Fin (elo_E a b), Fin (elo_E b a)).
Proof.
  unfold elo_expected_score; cbn [elo_rating]; cbv zeta. xr. rewrite (elo_E_swap a b).
  unfold elo_E, Rdiv. now rewrite Rmult_1_l.
Qed.

Lemma elo_eval r1 r2 k o :
  elo (mkElo (Fin r1)) (mkElo (Fin r2)) o (mkEloConfig (Fin k)) =
  (mkElo (Fin (elo_upd k r1 r2 (points o))), mkElo (Fin (elo_upd k r2 r1 (points (invert o))))).
Proof.
  unfold elo. rewrite elo_expected_eval, points_eval; cbn [elo_rating elo_k]; cbv zeta. xr.
  unfold elo_upd. rewrite points_invert. f_equal; f_equal; f_equal; ring.
Qed.

Lemma elo_conserve r1 r2 k o :
  elo_upd k r1 r2 (points o) + elo_upd k r2 r1 (points (invert o)) = r1 + r2.
Proof. unfold elo_upd. rewrite points_invert, (elo_E_swap r1 r2). ring. Qed.

Lemma elo_upd_diff k a b s s' : elo_upd k a b s - elo_upd k a b s' = k * (s - s').
Proof. unfold elo_upd; ring. Qed.

Lemma elo_draw_direction k a b : 0 < k ->
  (a < b -> a < elo_upd k a b (1/2)) /\ (b < a -> elo_upd k a b (1/2) < a) /\
  (a = b -> elo_upd k a b (1/2) = a).
Proof.
  intros Hk. pose proof (elo_E_equal b) as Eb. unfold elo_upd. repeat split; intros H.
  - pose proof (elo_E_mono a b b H). nra.
  - pose proof (elo_E_mono b a b H). nra.
  - subst. rewrite Eb. lra.
Qed.

(** Any arithmetic. *)
Lemma elo_period_fold {F} `{Arith F} (p : EloRating F) rs c :
  elo_rating_period p rs c = fold_left (fun q r => fst (elo q (fst r) (snd r) c)) rs p.
Proof.
  unfold elo_rating_period. destruct p as [r]; cbn [elo_rating].
  revert r; induction rs as [|[opp o] rs IH]; intros r; cbn [fold_left]; auto.
  rewrite IH. reflexivity.
Qed.

(** Bundled statements used by PropsElo.v. *)
Lemma C03_proof : forall r1 r2,
  exists e1 e2,
    elo_expected_score (mkElo (Fin r1)) (mkElo (Fin r2)) = (Fin e1, Fin e2) /\
    0 < e1 < 1 /\ 0 < e2 < 1 /\ e1 + e2 = 1 /\
    elo_expected_score (mkElo (Fin r2)) (mkElo (Fin r1)) = (Fin e2, Fin e1) /\
    (r1 = r2 -> e1 = 1 / 2 /\ e2 = 1 / 2) /\
    (forall t, elo_expected_score (mkElo (Fin (r1 + t))) (mkElo (Fin (r2 + t))) = (Fin e1, Fin e2)) /\
    (forall r1' e1' e2', r1 < r1' ->
       elo_expected_score (mkElo (Fin r1')) (mkElo (Fin r2)) = (Fin e1', Fin e2') -> e1 < e1' /\ e2' < e2).
Proof.
  intros. exists (elo_E r1 r2), (elo_E r2 r1).
  split; [apply elo_expected_eval|]. split; [apply elo_E_range|]. split; [apply elo_E_range|].
  split; [rewrite (elo_E_swap r1 r2); lra|]. split; [apply elo_expected_eval|].
  split; [intros ->; split; apply elo_E_equal|].
  split; [intros; rewrite elo_expected_eval, !elo_E_shift; auto|].
  intros r1' e1' e2' H. rewrite elo_expected_eval; intros [= <- <-].
  pose proof (elo_E_mono r1 r1' r2 H). split; auto.
  rewrite (elo_E_swap r1 r2), (elo_E_swap r1' r2). lra.
Qed.

Lemma C04_proof : forall r1 r2 k, 0 < k ->
  exists w1 w2 d1 d2 l1 l2,
    elo (mkElo (Fin r1)) (mkElo (Fin r2)) WIN (mkEloConfig (Fin k)) = (mkElo (Fin w1), mkElo (Fin w2)) /\
    elo (mkElo (Fin r1)) (mkElo (Fin r2)) DRAW (mkEloConfig (Fin k)) = (mkElo (Fin d1), mkElo (Fin d2)) /\
    elo (mkElo (Fin r1)) (mkElo (Fin r2)) LOSS (mkEloConfig (Fin k)) = (mkElo (Fin l1), mkElo (Fin l2)) /\
    r1 < w1 < r1 + k /\ r2 - k < w2 < r2 /\
    r1 - k < l1 < r1 /\ r2 < l2 < r2 + k /\
    l1 < d1 < w1 /\ w2 < d2 < l2 /\
    (r1 < r2 -> r1 < d1 /\ d2 < r2) /\ (r2 < r1 -> d1 < r1 /\ r2 < d2) /\ (r1 = r2 -> d1 = r1 /\ d2 = r2).
Proof.
  intros r1 r2 k Hk. do 6 eexists. repeat (split; [apply elo_eval|]). cbn [points invert].
  pose proof (elo_E_range r1 r2). pose proof (elo_E_range r2 r1).
  destruct (elo_draw_direction k r1 r2 Hk) as (Da & Db & Dc).
  destruct (elo_draw_direction k r2 r1 Hk) as (Ea & Eb & Ec).
  repeat split; auto; unfold elo_upd; nra.
Qed.

Lemma C05_proof : forall (F : Type) (A : Arith F) (p : EloRating F) rs c,
  elo_rating_period p rs c = fold_left (fun q r => fst (elo q (fst r) (snd r) c)) rs p /\
  elo_rating_period p [] c = p /\
  (forall rs', elo_rating_period p (rs ++ rs') c = elo_rating_period (elo_rating_period p rs c) rs' c).
Proof.
  intros. split; [apply elo_period_fold|]. split; [destruct p; reflexivity|].
  intros. now rewrite !elo_period_fold, fold_left_app.
Qed.

Lemma C02_proof : forall r1 r2 k o r1' r2',
  elo (mkElo (Fin r1)) (mkElo (Fin r2)) o (mkEloConfig (Fin k)) = (mkElo (Fin r1'), mkElo (Fin r2')) ->
  r1' + r2' = r1 + r2.
Proof. intros *. rewrite elo_eval. intros [= <- <-]. apply elo_conserve. Qed.
