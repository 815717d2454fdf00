(** Proofs of C148 for Ingo: the difference between results and forecasts stays bounded. *)
From Coq Require Import ZArith NArith List Bool Reals Lra Lia.
From Coquelicot Require Import Rcomplements.
From Verif Require Import Arith XR Tac ModelLib ModelIngo Spec ProofElo ProofIngo ProofLong ProofCalib.
Import ListNotations.
Local Open Scope R_scope.

Lemma bounded_mean (u : nat -> R) M : (forall n, Rabs (u n) <= M) -> Un_cv (fun n => u n / INR n) 0.
Proof.
  intros H eps He. destruct (INR_big (M / eps)) as [n0 Hn0]. exists (S n0). intros n Hn. assert (P : INR n0 < INR n) by (apply lt_INR; lia). assert (P0 : 0 < INR n) by (apply (lt_INR 0); lia).
  unfold R_dist. rewrite Rminus_0_r. unfold Rdiv. rewrite Rabs_mult, (Rabs_pos_eq (/ INR n)) by (left; now apply Rinv_0_lt_compat). apply Rmult_lt_reg_r with (INR n); [auto|]. rewrite Rmult_assoc, Rinv_l, Rmult_1_r by lra. eapply Rle_lt_trans; [apply H|].
  assert (Q : M / eps < INR n) by lra. apply (Rmult_lt_compat_r eps) in Q; [|auto]. unfold Rdiv in Q. rewrite Rmult_assoc, Rinv_l in Q by lra. lra.
Qed.
Lemma C148_ingo_proof : forall a B (f : nat -> R * N * Outcomes) r, (forall n, Rabs (fst (fst (f n))) <= B) -> exists x e : nat -> R,
  (forall n, fold_left (fun p i => fst (ingo p (mkIngo (Fin (fst (fst (f i)))) (snd (fst (f i)))) (snd (f i)))) (seq 0 n) (mkIngo (Fin r) a) = mkIngo (Fin (x n)) a) /\
  (forall n, fst (ingo_expected_score (mkIngo (Fin (x n)) a) (mkIngo (Fin (fst (fst (f n)))) (snd (fst (f n))))) = Fin (e n)) /\
  let S n := Rsum (map (fun i => points (snd (f i)) - e i) (seq 0 n)) in
  (forall n, Rabs (S n) <= 21 / 100 * (2 * Rabs r + B + 50)) /\ Un_cv (fun n => S n / INR n) 0.
Proof.
  intros a B f r HB. pose proof (ingo_D_range a) as HD. set (D := ingo_D a) in *. set (step := fun z i => ingo_upd 1 z D (fst (fst (f i))) (points (snd (f i)))). set (x := fun n => fold_left step (seq 0 n) r). set (e := fun n => 1 / 2 + (fst (fst (f n)) - x n) / 100). exists x, e.
  split. { intros n. unfold x. generalize (seq 0 n) as l. intros l. clear x e. revert r. induction l as [|i l IH]; intros r; [reflexivity|]. cbn [fold_left]. rewrite ingo_eval. cbn [fst]. apply IH. }
  split. { intros n. unfold ingo_expected_score; cbn [ingo_rating]; cbv zeta. xr. cbn [fst]. unfold e. f_equal. field. }
  assert (X : forall n, x (S n) = step (x n) n) by (intros n; unfold x; rewrite seq_S, fold_left_app; reflexivity).
  assert (ST : forall n, x (S n) = x n + - (100 / (1 + D)) * (points (snd (f n)) - e n)) by (intros n; rewrite X; unfold step, ingo_upd, ingo_perf, e; field; lra).
  assert (B0 : 0 <= B) by (pose proof (HB 0%nat); pose proof (Rabs_pos (fst (fst (f 0%nat)))); lra). pose proof (Rabs_pos r) as Pr.
  assert (G : forall n, Rabs (x n) <= Rabs r + B + 50). { induction n as [|n IH]; [unfold x; cbn; lra|]. rewrite X. unfold step, ingo_upd, ingo_perf. set (M := Rabs r + B + 50) in *. pose proof (HB n) as Hn. pose proof (points_range (snd (f n))) as Pn. apply Rcomplements.Rabs_le_between in IH. apply Rcomplements.Rabs_le_between in Hn. apply Rabs_le. set (b := fst (fst (f n))) in *. set (s := points _) in *. assert (PB : - M <= 1 * (b - (100 * s - 50)) <= M) by (unfold M; lra). set (p := 1 * _) in *.
    split; apply Rmult_le_reg_r with (1 + D); try lra; unfold Rdiv; rewrite (Rmult_assoc _ (/ (1 + D))), Rinv_l, Rmult_1_r by lra; nra. }
  cbv zeta. set (S := fun n => Rsum _). assert (T : forall n, - (100 / (1 + D)) * S n = x n - r) by (intros n; apply (Rsum_tele (fun i => points (snd (f i)) - e i) x _ n ST)).
  assert (BD : forall n, Rabs (S n) <= 21 / 100 * (2 * Rabs r + B + 50)). { intros n. specialize (T n). assert (E : S n = (1 + D) / 100 * (r - x n)) by (replace (r - x n) with (- (x n - r)) by ring; rewrite <- T; field; lra). rewrite E, Rabs_mult, Rabs_pos_eq by lra. pose proof (Rabs_triang r (- x n)) as R. rewrite Rabs_Ropp in R. specialize (G n). apply Rmult_le_compat; [lra|apply Rabs_pos|lra|unfold Rminus; lra]. }
  split; [exact BD|]. eapply bounded_mean, BD.
Qed.
