(** Proofs of C148: forecasts and results agree in the long run, whatever the results. *)
From Coq Require Import ZArith NArith List Bool Reals Lra Lia.
From Verif Require Import Arith XR Tac ModelLib ModelElo ModelFifa Spec ProofElo ProofFifa ProofBoost2 ProofOrder2 ProofLong ProofMono ProofForget.
Import ListNotations.
Local Open Scope R_scope.

Lemma ln_le_sqrt z : 0 < z -> ln z <= 2 * sqrt z.
Proof.
  intros H. pose proof (sqrt_lt_R0 z H) as S. rewrite <- (sqrt_sqrt z) at 1 by lra. rewrite ln_mult by auto. assert (ln (sqrt z) <= sqrt z); [|lra].
  rewrite <- (ln_exp (sqrt z)) at 2. apply Rcomplements.ln_le; [auto|]. pose proof (exp_ineq1_le (sqrt z)). lra.
Qed.
(** A sum that grows at most logarithmically is small on average. *)
Lemma log_mean (u : nat -> R) K A D : 0 <= K -> 0 < A -> 0 < D -> (forall n, Rabs (u n) <= K * (1 + ln (A + INR n * D))) -> Un_cv (fun n => u n / INR n) 0.
Proof.
  intros HK HA HD HU eps He. set (C := 2 * (A + D)). assert (C0 : 0 < C) by (unfold C; lra).
  assert (B : forall n, (1 <= n)%nat -> Rabs (u n) <= K * (1 + 2 * sqrt C) * sqrt (INR n)).
  { intros n Hn. assert (PN : 1 <= INR n) by (apply le_INR in Hn; cbn [INR] in Hn; lra). eapply Rle_trans; [apply HU|]. rewrite Rmult_assoc. apply Rmult_le_compat_l; [auto|]. assert (T : 0 < A + INR n * D) by nra. pose proof (ln_le_sqrt _ T) as L. assert (S : sqrt (A + INR n * D) <= sqrt C * sqrt (INR n)). { rewrite <- sqrt_mult by lra. apply sqrt_le_1_alt. unfold C. nra. }
    assert (S1 : 1 <= sqrt (INR n)) by (rewrite <- sqrt_1; apply sqrt_le_1_alt; lra). lra. }
  set (M := K * (1 + 2 * sqrt C)) in *. assert (M0 : 0 <= M) by (unfold M; pose proof (sqrt_pos C); apply Rmult_le_pos; lra). destruct (INR_big ((M / eps) ^ 2)) as [n0 Hn0]. exists (S n0). intros n Hn. assert (Hn' : (1 <= n)%nat) by lia. specialize (B n Hn'). assert (PN : 1 <= INR n) by (apply le_INR in Hn'; cbn [INR] in Hn'; lra). assert (PN2 : INR n0 <= INR n) by (apply le_INR; lia).
  unfold R_dist. rewrite Rminus_0_r. unfold Rdiv. rewrite Rabs_mult, (Rabs_pos_eq (/ INR n)) by (left; apply Rinv_0_lt_compat; lra). apply Rmult_lt_reg_r with (INR n); [lra|]. rewrite Rmult_assoc, Rinv_l, Rmult_1_r by lra. eapply Rle_lt_trans; [exact B|].
  assert (S : M / eps < sqrt (INR n)). { rewrite <- (sqrt_pow2 (M / eps)) by (apply Rmult_le_pos; [auto|left; now apply Rinv_0_lt_compat]). apply sqrt_lt_1_alt. split; [apply pow2_ge_0|lra]. }
  rewrite <- (sqrt_sqrt (INR n)) at 2 by lra. pose proof (sqrt_lt_R0 (INR n) ltac:(lra)) as SP. rewrite <- Rmult_assoc. apply Rmult_lt_compat_r; [auto|]. apply (Rmult_lt_compat_r eps) in S; [|auto]. unfold Rdiv in S. rewrite Rmult_assoc, Rinv_l in S by lra. lra.
Qed.
Lemma Rsum_tele (g : nat -> R) x k n : (forall i, x (S i) = x i + k * g i) -> k * Rsum (map g (seq 0 n)) = x n - x 0%nat.
Proof. intros H. induction n as [|n IH]; [cbn; ring|]. rewrite seq_S, map_app, Rsum_app. cbn [Nat.add map]. rewrite Rsum_cons, Rsum_nil, H. lra. Qed.
Lemma calib_core a k B b s x : 0 < a -> 0 < k -> (forall n, Rabs (b n) <= B) -> (forall n, 0 <= s n <= 1) -> (forall n, x (S n) = x n + k * (s n - sg ((x n - b n) * a))) ->
  let S n := Rsum (map (fun i => s i - sg ((x i - b i) * a)) (seq 0 n)) in
  (forall n, k * Rabs (S n) <= Rabs (x 0%nat) + ln (exp (Rabs (x 0%nat) * a) + INR n * (k * a * exp ((B + k) * a))) / a) /\ Un_cv (fun n => S n / INR n) 0.
Proof.
  intros Ha Hk Hb Hs HX S. set (A := exp (Rabs (x 0%nat) * a)). set (D := k * a * exp ((B + k) * a)). assert (ka : 0 < k * a) by (now apply Rmult_lt_0_compat). assert (D0 : 0 < D) by (unfold D; apply Rmult_lt_0_compat; [auto|apply exp_pos]).
  assert (AA : 1 <= A) by (unfold A; rewrite <- exp_0; apply exp_le; apply Rmult_le_pos; [apply Rabs_pos|lra]).
  assert (G : forall n, Rabs (x n) <= ln (A + INR n * D) / a).
  { intros n. pose proof (log_growth (k * a) (B * a) (fun n => b n * a) s (fun n => x n * a) ka) as L. cbv beta in L. specialize (L ltac:(intros m; rewrite Rabs_mult, (Rabs_pos_eq a) by lra; apply Rmult_le_compat_r; [lra|auto]) Hs). specialize (L ltac:(intros m; rewrite HX; replace (x m * a - b m * a) with ((x m - b m) * a) by ring; ring) n).
    rewrite !Rabs_mult, !(Rabs_pos_eq a) in L by lra. replace (B * a + k * a) with ((B + k) * a) in L by ring. fold A D in L. apply Rmult_le_reg_r with a; [auto|]. unfold Rdiv. rewrite (Rmult_assoc (ln _)), Rinv_l, Rmult_1_r by lra. rewrite <- (ln_exp (Rabs (x n) * a)). apply Rcomplements.ln_le; [apply exp_pos|exact L]. }
  assert (T : forall n, k * S n = x n - x 0%nat) by (intros n; apply (Rsum_tele (fun i => s i - sg ((x i - b i) * a)) x k n HX)).
  assert (BD : forall n, k * Rabs (S n) <= Rabs (x 0%nat) + ln (A + INR n * D) / a). { intros n. rewrite <- (Rabs_pos_eq k) at 1 by lra. rewrite <- Rabs_mult, T. pose proof (Rabs_triang (x n) (- x 0%nat)) as R. rewrite Rabs_Ropp in R. specialize (G n). unfold Rminus. lra. }
  split; [exact BD|]. apply (log_mean S ((Rabs (x 0%nat) + / a) / k) A D); try lra.
  - apply Rmult_le_pos; [pose proof (Rabs_pos (x 0%nat)); assert (0 < / a) by (now apply Rinv_0_lt_compat); lra|left; now apply Rinv_0_lt_compat].
  - intros n. specialize (BD n). assert (L0 : 0 <= ln (A + INR n * D)). { rewrite <- ln_1. apply Rcomplements.ln_le; [lra|]. pose proof (pos_INR n). assert (0 <= INR n * D) by (apply Rmult_le_pos; lra). lra. }
    assert (IA : 0 < / a) by (now apply Rinv_0_lt_compat). pose proof (Rabs_pos (x 0%nat)) as P. apply Rmult_le_reg_l with k; [auto|]. replace (k * ((Rabs (x 0%nat) + / a) / k * (1 + ln (A + INR n * D)))) with ((Rabs (x 0%nat) + / a) * (1 + ln (A + INR n * D))) by (field; lra). unfold Rdiv in BD. eapply Rle_trans; [exact BD|]. set (l := ln _) in *. assert (0 <= Rabs (x 0%nat) * l) by (now apply Rmult_le_pos). lra.
Qed.
Lemma C148_elo_proof : forall k B (f : nat -> R * Outcomes) r, 0 < k -> (forall n, Rabs (fst (f n)) <= B) -> exists x e : nat -> R,
  (forall n, elo_rating_period (mkElo (Fin r)) (map (fun i => (mkElo (Fin (fst (f i))), snd (f i))) (seq 0 n)) (mkEloConfig (Fin k)) = mkElo (Fin (x n))) /\
  (forall n, fst (elo_expected_score (mkElo (Fin (x n))) (mkElo (Fin (fst (f n))))) = Fin (e n)) /\
  let S n := Rsum (map (fun i => points (snd (f i)) - e i) (seq 0 n)) in
  (forall n, k * Rabs (S n) <= Rabs r + 400 * ln (Rpower 10 (Rabs r / 400) + INR n * (k * (ln 10 / 400) * Rpower 10 ((B + k) / 400))) / ln 10) /\
  Un_cv (fun n => S n / INR n) 0.
Proof.
  intros k B f r Hk HB. pose proof ln10_close as LN. set (x := fun n => elo_fin k (map f (seq 0 n)) r). exists x, (fun n => sg ((x n - fst (f n)) * (ln 10 / 400))).
  split. { intros n. unfold x. rewrite <- elo_period_fin. unfold elo_gs. now rewrite map_map. }
  split. { intros n. rewrite elo_expected_eval. cbn [fst]. rewrite elo_E_sg. unfold Rdiv. now rewrite Rmult_assoc. }
  assert (ST : forall n, x (S n) = x n + k * (points (snd (f n)) - sg ((x n - fst (f n)) * (ln 10 / 400)))).
  { intros n. unfold x, elo_fin. rewrite seq_S, map_app, fold_left_app. cbn [Nat.add map fold_left]. unfold elo_upd at 1. rewrite elo_E_sg. unfold Rdiv. rewrite Rmult_assoc. reflexivity. }
  pose proof (calib_core (ln 10 / 400) k B (fun n => fst (f n)) (fun n => points (snd (f n))) x ltac:(lra) Hk HB ltac:(intros n; cbv beta; destruct (snd (f n)); cbn [points]; lra) ST) as C. cbv zeta in C |- *. destruct C as [C1 C2]. split; [|exact C2].
  intros n. specialize (C1 n). replace (x 0%nat) with r in C1 by reflexivity. unfold Rpower. replace (Rabs r / 400 * ln 10) with (Rabs r * (ln 10 / 400)) by field. replace ((B + k) / 400 * ln 10) with ((B + k) * (ln 10 / 400)) by field. eapply Rle_trans; [exact C1|]. apply Req_le. field. lra.
Qed.
Lemma C148_fifa_proof : forall k B (f : nat -> R * Outcomes) r, 0 < k -> (forall n, Rabs (fst (f n)) <= B) -> exists x e : nat -> R,
  (forall n, fifa_rating_period (mkFifa (Fin r)) (map (fun j => (mkFifa (Fin (fst (f j))), snd (f j), mkFifaConfig (Fin k) false false)) (seq 0 n)) = mkFifa (Fin (x n))) /\
  (forall n, fst (fifa_expected_score (mkFifa (Fin (x n))) (mkFifa (Fin (fst (f n))))) = Fin (e n)) /\
  let S n := Rsum (map (fun i => points (snd (f i)) - e i) (seq 0 n)) in
  (forall n, k * Rabs (S n) <= Rabs r + 600 * ln (Rpower 10 (Rabs r / 600) + INR n * (k * (ln 10 / 600) * Rpower 10 ((B + k) / 600))) / ln 10) /\
  Un_cv (fun n => S n / INR n) 0.
Proof.
  intros k B f r Hk HB. pose proof ln10_close as LN. set (g := fun j => (f j, (k, false, false))). set (x := fun n => fifa_fin (map g (seq 0 n)) r). exists x, (fun n => sg ((x n - fst (f n)) * (ln 10 / 600))).
  split. { intros n. unfold x. rewrite <- fifa_period_fin. unfold fifa_gs. rewrite map_map. f_equal. apply map_ext. intros j. unfold g. now destruct (f j). }
  split. { intros n. rewrite fifa_expected_eval. cbn [fst]. rewrite fifa_We_sg. unfold Rdiv. now rewrite Rmult_assoc. }
  assert (ST : forall n, x (S n) = x n + k * (points (snd (f n)) - sg ((x n - fst (f n)) * (ln 10 / 600)))).
  { intros n. unfold x, fifa_fin. rewrite seq_S, map_app, fold_left_app. cbn [Nat.add map fold_left]. unfold g at 1. destruct (f n) as [ro o]. cbn [fst snd ko_max]. unfold fifa_upd at 1. rewrite fifa_We_sg. replace (code_W1 false o) with (points o) by (destruct o; reflexivity). unfold Rdiv. rewrite Rmult_assoc. reflexivity. }
  pose proof (calib_core (ln 10 / 600) k B (fun n => fst (f n)) (fun n => points (snd (f n))) x ltac:(lra) Hk HB ltac:(intros n; cbv beta; destruct (snd (f n)); cbn [points]; lra) ST) as C. cbv zeta in C |- *. destruct C as [C1 C2]. split; [|exact C2].
  intros n. specialize (C1 n). replace (x 0%nat) with r in C1 by reflexivity. unfold Rpower. replace (Rabs r / 600 * ln 10) with (Rabs r * (ln 10 / 600)) by field. replace ((B + k) / 600 * ln 10) with ((B + k) * (ln 10 / 600)) by field. eapply Rle_trans; [exact C1|]. apply Req_le. field. lra.
Qed.
