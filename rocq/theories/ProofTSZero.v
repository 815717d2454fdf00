(** TrueSkill draws when the configured draw probability is 0 (C87). *)
From Coq Require Import ZArith NArith List Bool Reals Lra Lia.
From Verif Require Import Tac Arith XR ModelLib ModelWengLin ModelTS Spec SpecTS SpecInTS SpecNormal MathTS MathIval MathPoly MathTSW MathTSInv MathTSStart MathTSAcc ProofWengLin ProofTS ProofTSAcc.
Import ListNotations.
Local Open Scope R_scope.

Lemma nr_pos_0_high : nr_pos 0 <= 1.000000031.
Proof.
  unfold nr_pos. cbv zeta. replace (/ (1 + 0 / 2)) with 1 by field. rewrite Rmult_1_l. replace (nr_P 1 - 0 ^ 2) with (3 / 100000000) by (unfold nr_P; lra).
  eapply Rle_trans; [apply exp_le_inv; lra|]. lra.
Qed.
Lemma hstep_zero x : 0 <= x <= 0.0001 -> 0 <= hstep 1 x <= 0.00000003.
Proof.
  intros Hx. split; [apply hstep_nonneg; lra|]. pose proof (hden_pos 1 x ltac:(lra) ltac:(lra)) as HD. unfold hstep.
  apply Rmult_le_reg_r with (hden 1 x); auto. replace ((x + (nr_erfc x - 1) / hden 1 x) * hden 1 x) with (x * hden 1 x + (nr_erfc x - 1)) by (field; lra).
  unfold hden, nr_erfc. destruct (Rlt_dec x 0) as [L0|L0]; [lra|]. fold ksp. pose proof ksp_close as [K1 K2].
  pose proof (exp_pos (- (x * x))) as EX. pose proof (exp_ineq1_le (- (x * x))) as EI.
  assert (E1 : exp (- (x * x)) <= 1) by (rewrite <- exp_0; apply exp_mono; nra).
  pose proof nr_pos_0_high as N0. pose proof nr_pos_0_low as N1.
  assert (B : 1 - 0.0002 <= nr_pos x <= nr_pos 0 - 0.99998 * ksp * x).
  { split; [pose proof (nr_tangent x ltac:(lra)); nra|]. destruct (Req_dec x 0) as [->|Nx]; [lra|].
    destruct (MVT_cor2 nr_pos (fun z => - (rr (/ (1 + z / 2)) * exp (- z ^ 2))) 0 x) as (c & E & Hc); [lra|intros c Hc; apply Coquelicot.Derive.is_derive_Reals, nr_pos_deriv; lra|].
    pose proof (nr_t_range c ltac:(lra)) as T. pose proof (rr_bound (/ (1 + c / 2)) ltac:(lra)) as [R1 R2].
    assert (EC : 0.99999 <= exp (- c ^ 2)). { eapply Rle_trans; [|apply exp_ineq1_le]. nra. }
    assert (P : 0.99998 * ksp <= rr (/ (1 + c / 2)) * exp (- c ^ 2)).
    { apply Rle_trans with (ksp * 0.99999 * 0.99999); [nra|]. apply Rmult_le_compat; nra. }
    assert (0.99998 * ksp * (x - 0) <= rr (/ (1 + c / 2)) * exp (- c ^ 2) * (x - 0)) by (apply Rmult_le_compat_r; lra). lra. }
  set (e := exp (- (x * x))) in *. set (q := nr_pos x) in *.
  assert (X2 : 0 <= x * x <= 0.0001 * x) by nra.
  assert (A : x * (ksp * e + - x * (q - 1)) <= x * (ksp + 0.0001 * 0.0002)).
  { apply Rmult_le_compat_l; [lra|]. assert (- x * (q - 1) <= 0.0001 * 0.0002) by nra. assert (ksp * e <= ksp * 1) by (apply Rmult_le_compat_l; lra). lra. }
  assert (D : ksp * (1 - 0.00000001) - 0.0001 * 0.0002 <= ksp * e + - x * (q - 1)).
  { assert (- (0.0001 * 0.0002) <= - x * (q - 1)) by nra. assert (ksp * (1 - 0.00000001) <= ksp * e) by (apply Rmult_le_compat_l; nra). lra. }
  assert (F : x * (ksp - 0.99998 * ksp) <= 0.0001 * (ksp - 0.99998 * ksp)) by (apply Rmult_le_compat_r; lra).
  lra.
Qed.
Lemma exp_half_lo : 0 < exp (- (69314718 / 100000000)) - / 2.
Proof.
  pose (x := - (69314718 / 100000000)). change (0 < exp x - / 2). ival_pos x 0%nat (-69314718)%Z 100000000%Z (-69314718)%Z 100000000%Z. unfold x; lra.
Qed.
Lemma exp_half_hi : 0 < / 2 - exp (- (6931472 / 10000000)).
Proof.
  pose (x := - (6931472 / 10000000)). change (0 < / 2 - exp x). ival_pos x 0%nat (-6931472)%Z 10000000%Z (-6931472)%Z 10000000%Z. unfold x; lra.
Qed.
Lemma ln_half : 0.69314718 <= - ln (1 / 2) <= 0.6931472.
Proof.
  pose proof exp_half_lo. pose proof exp_half_hi. split.
  - assert (ln (1 / 2) <= - (69314718 / 100000000)); [|lra]. rewrite <- (ln_exp (- (69314718 / 100000000))). apply ln_mono; lra.
  - assert (- (6931472 / 10000000) <= ln (1 / 2)); [|lra]. rewrite <- (ln_exp (- (6931472 / 10000000))). apply ln_mono; [apply exp_pos|lra].
Qed.
Lemma hinv_1 : 0 < hinv 1 <= 0.00000003.
Proof.
  unfold hinv. set (t := sqrt (-2 * ln (1 / 2))). pose proof ln_half as L.
  assert (T : 1.17741 <= t <= 1.177411).
  { unfold t. split; [rewrite <- (sqrt_square 1.17741) by lra|rewrite <- (sqrt_square 1.177411) by lra]; apply sqrt_le_1_alt; lra. }
  assert (S0 : 0 <= hstart t <= 0.0001).
  { split; [apply hstart_nonneg; lra|]. rewrite hstart_sR by lra. assert (1 < sqrt 2) by (rewrite <- sqrt_1 at 1; apply sqrt_lt_1_alt; lra).
    pose proof (sD_pos t ltac:(lra)) as DP. assert (t - sR t <= 0.0001).
    { apply Rmult_le_reg_r with (sD t); [lra|]. unfold sR. rewrite Rmult_minus_distr_r, Rmult_assoc, Rinv_l, Rmult_1_r by lra. unfold sD.
      assert (1.38629 <= t * t <= 1.386298) by nra. assert (t * t * t <= 1.63225) by nra. nra. }
    pose proof (sR_lt t ltac:(lra)). apply Rmult_le_reg_r with (sqrt 2); [lra|]. unfold Rdiv. rewrite Rmult_assoc, Rinv_l by lra. nra. }
  pose proof (hstep_zero _ S0) as S1. assert (S1' : 0 <= hstep 1 (hstart t) <= 0.0001) by lra. pose proof (hstep_zero _ S1') as [S2 S3]. split; [|exact S3].
  (* strictly positive: at 0 the fit is above 1, so the step from there is positive; elsewhere the bound of hstep_nonneg is strict *)
  set (x := hstep 1 (hstart t)) in *. pose proof (hden_pos 1 x ltac:(lra) ltac:(lra)) as HD. unfold hstep.
  apply Rmult_lt_reg_r with (hden 1 x); auto. replace ((x + (nr_erfc x - 1) / hden 1 x) * hden 1 x) with (x * hden 1 x + (nr_erfc x - 1)) by (field; lra).
  rewrite Rmult_0_l. unfold hden, nr_erfc. destruct (Rlt_dec x 0) as [L0|L0]; [lra|]. fold ksp. pose proof ksp_close as [K1 K2]. pose proof nr_pos_0_low as N0.
  pose proof (exp_ineq1_le (- (x * x))) as EI.
  assert (B : nr_pos 0 - 1.00002 * ksp * x <= nr_pos x).
  { destruct (Req_dec x 0) as [->|Nx]; [lra|].
    destruct (MVT_cor2 nr_pos (fun z => - (rr (/ (1 + z / 2)) * exp (- z ^ 2))) 0 x) as (c & E & Hc); [lra|intros c Hc; apply Coquelicot.Derive.is_derive_Reals, nr_pos_deriv; lra|].
    pose proof (nr_t_range c ltac:(lra)) as TR. pose proof (rr_bound (/ (1 + c / 2)) ltac:(lra)) as [R1 R2].
    assert (EC : exp (- c ^ 2) <= 1) by (rewrite <- exp_0; apply exp_mono; nra). pose proof (exp_pos (- c ^ 2)).
    assert (P : rr (/ (1 + c / 2)) * exp (- c ^ 2) <= 1.00002 * ksp).
    { apply Rle_trans with (ksp * 1.00001 * 1); [|nra]. apply Rmult_le_compat; nra. }
    assert (rr (/ (1 + c / 2)) * exp (- c ^ 2) * (x - 0) <= 1.00002 * ksp * (x - 0)) by (apply Rmult_le_compat_r; lra). lra. }
  assert (U : nr_pos x <= 1.1). { pose proof (nr_pos_wg x ltac:(lra)). assert (wg x <= 1) by (unfold wg; rewrite <- exp_0; apply exp_mono; nra). lra. }
  assert (X2 : 0 <= x * x <= 0.00000003 * x) by nra.
  assert (ksp * x * (1 - x * x) <= ksp * x * exp (- (x * x))) by (apply Rmult_le_compat_l; nra).
  replace (x * (ksp * exp (- (x * x)) + - x * (nr_pos x - 1)) + (nr_pos x - 1)) with (ksp * x * exp (- (x * x)) - x * x * (nr_pos x - 1) + (nr_pos x - 1)) by ring.
  assert (x * x * (nr_pos x - 1) <= x * x * 0.1) by (apply Rmult_le_compat_l; lra).
  assert (KX : 0 <= ksp * x <= 0.00000004) by nra. assert (ksp * x * (x * x) <= 0.00000004 * (x * x)) by (apply Rmult_le_compat_r; lra). lra.
Qed.

(** With draw probability 0 a draw between two equal players with an
    uncertainty of at least 2 beta raises the first and lowers the second. *)
Lemma C87_zero_refuted_proof : forall m s beta tau, 0 < beta -> 2 * beta <= s ->
  exists m1' u1 m2' u2, trueskill (ts_in (m, s)) (ts_in (m, s)) DRAW (ts_cfg 0 beta tau) = (mkTS (Fin m1') u1, mkTS (Fin m2') u2) /\ m1' > m /\ m2' < m.
Proof.
  intros m s beta tau Hb Hs. pose proof (draw_margin_eval 0 beta 2 ltac:(lra)) as He. set (e := unit_margin 0 * sqrt 2 * beta) in *.
  rewrite (trueskill_eval m s m s DRAW 0 beta tau e) by (auto; lra).
  set (c := tsc 2 beta (s ^ 2) (s ^ 2)). replace ((m - m) / c) with 0 by (unfold Rdiv; ring).
  assert (S2 : 1.4142 < sqrt 2 < 1.41422) by (split; [rewrite <- (sqrt_square 1.4142) by lra|rewrite <- (sqrt_square 1.41422) by lra]; apply sqrt_lt_1_alt; lra).
  assert (C : 3.162 * beta <= c). { unfold c, tsc. rewrite <- (sqrt_square (3.162 * beta)) at 1 by lra. apply sqrt_le_1_alt. assert (4 * beta ^ 2 <= s ^ 2) by nra. nra. }
  pose proof hinv_1 as [H0 H1]. assert (U : unit_margin 0 = sqrt 2 * hinv 1) by (rewrite unit_margin_eq by lra; do 2 f_equal; ring).
  assert (EE : e = 2 * hinv 1 * beta). { unfold e. rewrite U. replace (sqrt 2 * hinv 1 * sqrt 2 * beta) with (sqrt 2 * sqrt 2 * hinv 1 * beta) by ring. rewrite sqrt_sqrt by lra. ring. }
  assert (E0 : 0 < e <= 0.00000006 * beta) by (rewrite EE; split; nra). assert (C0 : 0 < c) by lra.
  assert (X : 0 < e / c <= 0.00000002).
  { split; [apply Rdiv_lt_0_compat; lra|]. apply Rmult_le_reg_r with c; [lra|]. unfold Rdiv. rewrite Rmult_assoc, Rinv_l by lra. nra. }
  unfold ts_out, ts_mu'. cbn [fst snd ts_v]. do 4 eexists. split; [reflexivity|].
  unfold vdraw. destruct (Rlt_dec (drawnorm 0 (e / c)) tiny) as [_|N]; [|pose proof (drawnorm_zero _ X); lra]. destruct (Rlt_dec 0 0); [lra|].
  rewrite Ropp_0, Rplus_0_l. set (k := (s ^ 2 + tau ^ 2) / c). assert (K : 0 < k) by (apply Rdiv_lt_0_compat; nra).
  assert (0 < k * (e / c)) by (apply Rmult_lt_0_compat; lra). lra.
Qed.
