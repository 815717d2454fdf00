(** The corrections of a truncated Gaussian under small changes of their arguments. *)
From Coq Require Import Reals Lra Lia Psatz.
From Flocq Require Import Core.Raux.
From Coquelicot Require Import Coquelicot.
From Verif Require Import XR Spec SpecTS SpecNormal SpecTSN Tac MathTS MathTSAcc MathTSInv MathTSDraw MathTSNorm MathTSNorm2.
Local Open Scope R_scope.

Lemma exp_near x : Rabs x <= / 100 -> Rabs (exp x - 1) <= 1.02 * Rabs x.
Proof.
  intros H. assert (P : forall y, 0 <= y <= / 100 -> 0 <= exp y - 1 <= 1.02 * y /\ 0 <= 1 - exp (- y) <= y).
  { intros y B. pose proof (exp_ineq1_le y) as E1. pose proof (exp_ineq1_le (- y)) as E2. rewrite exp_Ropp in *. pose proof (exp_pos y) as E0.
    assert (E3 : exp y * (1 - y) <= 1). { apply Rmult_le_reg_l with (/ exp y); [apply Rinv_0_lt_compat; auto|]. rewrite <- Rmult_assoc, Rinv_l by lra. lra. }
    assert (E4 : exp y <= 1 + 1.02 * y). { assert (1 <= (1 + 1.02 * y) * (1 - y)) by nra. nra. }
    assert (/ exp y <= 1) by (rewrite <- Rinv_1; apply Rinv_le_contravar; lra). lra. }
  destruct (Rle_dec 0 x) as [G|G].
  - rewrite (Rabs_pos_eq x) in * by lra. rewrite Rabs_pos_eq; apply P; lra.
  - rewrite (Rabs_left x) in * by lra. destruct (P (- x) ltac:(lra)) as [_ Q]. rewrite Ropp_involutive in Q. rewrite Rabs_left1 by lra. lra.
Qed.
Lemma phi_ratio y z : phi z = phi y * exp ((y ^ 2 - z ^ 2) / 2).
Proof. unfold phi. replace (- (z ^ 2 / 2)) with (- (y ^ 2 / 2) + (y ^ 2 - z ^ 2) / 2) by field. rewrite exp_plus. unfold Rdiv. ring. Qed.
Lemma phi_lip y z B d : 1 <= B -> Rabs y <= B -> Rabs (z - y) <= d -> B * d <= / 1000 -> Rabs (phi z - phi y) <= 1.03 * B * d * phi y.
Proof.
  intros HB Hy Hd Hs. assert (D0 : 0 <= d) by (eapply Rle_trans; [apply Rabs_pos|exact Hd]). assert (D1 : d <= / 1000) by nra. apply Rabs_le_inv in Hy, Hd.
  assert (Q : Rabs ((y ^ 2 - z ^ 2) / 2) <= 1.001 * (B * d)).
  { replace ((y ^ 2 - z ^ 2) / 2) with (- ((z - y) * (y + (z - y) / 2))) by field. rewrite Rabs_Ropp, Rabs_mult. rewrite (Rmult_comm B), <- Rmult_assoc, (Rmult_comm 1.001), Rmult_assoc.
    apply Rmult_le_compat; try apply Rabs_pos; apply Rabs_le; lra. }
  rewrite (phi_ratio y z). replace (phi y * exp ((y ^ 2 - z ^ 2) / 2) - phi y) with (phi y * (exp ((y ^ 2 - z ^ 2) / 2) - 1)) by ring.
  pose proof (phi_pos y) as P. rewrite Rabs_mult, (Rabs_pos_eq (phi y)), Rmult_comm by lra. apply Rmult_le_compat_r; [lra|].
  assert (BD : 0 <= B * d) by nra. eapply Rle_trans; [apply exp_near; lra|]. lra.
Qed.
Lemma Ncdf_lip a b m : (forall z, Rmin a b <= z <= Rmax a b -> phi z <= m) -> Rabs (Ncdf a - Ncdf b) <= m * Rabs (a - b).
Proof.
  intro H. destruct (MVT_gen Ncdf b a phi) as [z [Bz E]].
  - intros z Hz. apply Ncdf_deriv.
  - intros z Hz. apply continuity_pt_filterlim. apply (ex_derive_continuous Ncdf z). eexists. apply Ncdf_deriv.
  - rewrite E, Rabs_mult. rewrite (Rabs_pos_eq (phi z)) by (left; apply phi_pos). apply Rmult_le_compat_r; [apply Rabs_pos|]. apply H. rewrite Rmin_comm, Rmax_comm. exact Bz.
Qed.
Lemma Ncdf_lip2 a b B d : 1 <= B -> Rabs b <= B -> Rabs (a - b) <= d -> B * d <= / 1000 -> Rabs (Ncdf a - Ncdf b) <= 1.01 * d * phi b.
Proof.
  intros HB Hb Hd Hs. pose proof (phi_pos b) as P. assert (D0 : 0 <= d) by (eapply Rle_trans; [apply Rabs_pos|exact Hd]). apply Rle_trans with (1.01 * phi b * Rabs (a - b)).
  - apply Ncdf_lip. intros z Hz. assert (Z : Rabs (z - b) <= d). { apply Rabs_le_inv in Hd. apply Rabs_le. unfold Rmin, Rmax in Hz. destruct (Rle_dec a b); lra. }
    pose proof (phi_lip b z B d HB Hb Z Hs) as H. apply Rabs_le_inv in H. assert (1.03 * B * d * phi b <= 0.01 * phi b) by (apply Rmult_le_compat_r; lra). lra.
  - rewrite Rmult_assoc, (Rmult_comm (phi b)), <- Rmult_assoc. apply Rmult_le_compat_r; [lra|]. apply Rmult_le_compat_l; lra.
Qed.
Lemma ratio_rel N N' T T' a b : 0 < N -> 0 < T -> 0 <= a <= / 100 -> 0 <= b <= / 100 -> Rabs (N' - N) <= a * N -> Rabs (T' - T) <= b * T -> 0 < T' /\ Rabs (N' / T' - N / T) <= 1.02 * (a + b) * (N / T).
Proof.
  intros HN HT Ha Hb H1 H2. apply Rabs_le_inv in H1, H2. assert (HT' : 0.99 * T <= T') by nra. split; [lra|].
  assert (H0 : 0 < N / T) by (apply Rdiv_lt_0_compat; lra). replace (N' / T' - N / T) with ((N' * T - N * T') / (T' * T)) by (field; lra).
  unfold Rdiv at 1. rewrite Rabs_mult, (Rabs_pos_eq (/ (T' * T))) by (left; apply Rinv_0_lt_compat; nra).
  apply Rmult_le_reg_r with (T' * T); [nra|]. rewrite Rmult_assoc, Rinv_l, Rmult_1_r by nra.
  replace (1.02 * (a + b) * (N / T) * (T' * T)) with (1.02 * (a + b) * N * T') by (field; lra).
  replace (N' * T - N * T') with ((N' - N) * T - N * (T' - T)) by ring.
  apply Rle_trans with (a * N * T + N * (b * T)).
  - eapply Rle_trans; [apply Rabs_triang|]. rewrite Rabs_Ropp, !Rabs_mult, (Rabs_pos_eq T), (Rabs_pos_eq N) by lra. apply Rplus_le_compat; [apply Rmult_le_compat_r; [lra|apply Rabs_le; lra]|apply Rmult_le_compat_l; [lra|apply Rabs_le; lra]].
  - replace (a * N * T + N * (b * T)) with ((a + b) * N * T) by ring. replace (1.02 * (a + b) * N * T') with ((a + b) * N * (1.02 * T')) by ring. apply Rmult_le_compat_l; [|lra]. apply Rmult_le_pos; lra.
Qed.
Lemma hz_range y : Rabs y <= 26 -> 0 < hz y <= 27.
Proof. intros H. apply Rabs_le_inv in H. split; [apply hz_pos|]. destruct (Rle_dec 0 y); [pose proof (hz_up1 y ltac:(lra)); lra|pose proof (hz_neg y ltac:(lra)); lra]. Qed.
Lemma hz_lip a b d : Rabs b <= 26 -> Rabs (a - b) <= d -> d <= / 10 ^ 6 -> Rabs (hz a - hz b) <= 56 * d * hz b.
Proof.
  intros Hb Hd Hs. assert (D0 : 0 <= d) by (eapply Rle_trans; [apply Rabs_pos|exact Hd]). pose proof (phi_lip b a 26 d ltac:(lra) Hb Hd ltac:(lra)) as H1.
  pose proof (Ncdf_lip2 a b 26 d ltac:(lra) Hb Hd ltac:(lra)) as H2. pose proof (hz_range b Hb) as HR. pose proof (Ntl_pos b) as HT. pose proof (phi_pos b) as HP.
  assert (E : phi b = hz b * Ntl b) by (unfold hz; field; lra).
  assert (H3 : Rabs (Ntl a - Ntl b) <= 1.01 * d * 27 * Ntl b). { unfold Ntl at 1 2. replace (1 - Ncdf a - (1 - Ncdf b)) with (- (Ncdf a - Ncdf b)) by ring. rewrite Rabs_Ropp. eapply Rle_trans; [exact H2|]. rewrite E, <- Rmult_assoc. apply Rmult_le_compat_r; [lra|]. apply Rmult_le_compat_l; lra. }
  destruct (ratio_rel (phi b) (phi a) (Ntl b) (Ntl a) (1.03 * 26 * d) (1.01 * d * 27) HP HT ltac:(lra) ltac:(lra) H1 H3) as [_ H]. fold (hz a) (hz b) in H.
  eapply Rle_trans; [exact H|]. apply Rmult_le_compat_r; lra.
Qed.
Lemma hw_lip a b d : Rabs b <= 26 -> Rabs (a - b) <= d -> d <= / 10 ^ 6 -> Rabs (hz a * (hz a - a) - hz b * (hz b - b)) <= 42000 * d.
Proof.
  intros Hb Hd Hs. assert (D0 : 0 <= d) by (eapply Rle_trans; [apply Rabs_pos|exact Hd]). pose proof (hz_lip a b d Hb Hd Hs) as H. pose proof (hz_range b Hb) as HR. pose proof (hz_w b) as HW.
  assert (H' : Rabs (hz a - hz b) <= 1512 * d) by (eapply Rle_trans; [exact H|]; rewrite Rmult_comm; apply Rle_trans with (27 * (56 * d)); [apply Rmult_le_compat_r; lra|lra]).
  replace (hz a * (hz a - a) - hz b * (hz b - b)) with ((hz a - hz b) * (hz b - b) + hz a * ((hz a - hz b) - (a - b))) by ring.
  eapply Rle_trans; [apply Rabs_triang|]. rewrite !Rabs_mult. pose proof (Rabs_le_inv _ _ H') as HI. pose proof (Rabs_le_inv _ _ Hd) as DI.
  assert (HB : 0 <= hz b - b) by nra. rewrite (Rabs_pos_eq (hz b - b)) by lra.
  assert (K1 : Rabs (hz a - hz b) * (hz b - b) <= 56 * d). { apply Rle_trans with (56 * d * hz b * (hz b - b)); [apply Rmult_le_compat_r; auto|]. rewrite Rmult_assoc. rewrite <- (Rmult_1_r (56 * d)) at 2. apply Rmult_le_compat_l; lra. }
  assert (K2 : Rabs (hz a) * Rabs (hz a - hz b - (a - b)) <= 27.1 * (1513 * d)). { pose proof (hz_pos a). rewrite (Rabs_pos_eq (hz a)) by lra. apply Rmult_le_compat; try lra; [apply Rabs_pos|apply Rabs_le; lra]. }
  lra.
Qed.
Lemma phi_le z : phi z <= 0.4.
Proof.
  rewrite (phi_ratio 0 z). pose proof phi0_close as P0. assert (E : exp ((0 ^ 2 - z ^ 2) / 2) <= 1).
  { rewrite <- exp_0. destruct (Req_dec z 0) as [->|Hz]; [right; f_equal; field|]. left. apply exp_increasing. assert (0 < z ^ 2) by (apply pow2_gt_0; auto). lra. }
  pose proof (exp_pos ((0 ^ 2 - z ^ 2) / 2)). nra.
Qed.
