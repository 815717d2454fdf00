(** Accuracy of the computed inverse of the complementary error function: the
    approximation takes the computed inverse of [y] back to within 10^-6 of [y].
    No model code here. *)
From Coq Require Import ZArith List Bool Reals Lra Lia.
From Coquelicot Require Import Coquelicot.
From Verif Require Import Tac Spec SpecTS SpecNormal MathTS MathIval MathPoly MathTSW MathTSInv MathTSStart.
Local Open Scope R_scope.

Definition wg (x : R) : R := exp (- (x * x)).
Lemma wg_pos x : 0 < wg x.
Proof. apply exp_pos. Qed.
Lemma exp_le_inv n : n < 1 -> exp n <= / (1 - n).
Proof.
  intros H. pose proof (exp_ineq1_le (- n)) as E. rewrite exp_Ropp in E. pose proof (exp_pos n). rewrite <- (Rinv_inv (exp n)). apply Rinv_le_contravar; lra.
Qed.
(** The ratio of the weights of two points at distance [d] below [X]. *)
Lemma wg_ratio x z d X : 0 <= x <= X -> 0 <= z -> Rabs (z - x) <= d -> 0 <= d -> d * (2 * X + d) < 1 ->
  (1 - d * (2 * X + d)) * wg x <= wg z <= / (1 - d * (2 * X + d)) * wg x.
Proof.
  intros Hx Hz HD D0 HE. set (n := d * (2 * X + d)) in *. unfold wg.
  assert (N : Rabs (x * x - z * z) <= n).
  { replace (x * x - z * z) with (- ((z - x) * (z + x))) by ring. rewrite Rabs_Ropp, Rabs_mult. rewrite (Rabs_pos_eq (z + x)) by lra.
    unfold n. apply Rmult_le_compat; [apply Rabs_pos|lra|auto|]. revert HD. unfold Rabs. destruct (Rcase_abs (z - x)); lra. }
  replace (- (z * z)) with ((x * x - z * z) + - (x * x)) by ring. rewrite exp_plus. pose proof (exp_pos (- (x * x))).
  assert (A : - n <= x * x - z * z <= n) by (revert N; unfold Rabs; destruct (Rcase_abs (x * x - z * z)); lra).
  split; apply Rmult_le_compat_r; try lra.
  - pose proof (exp_ineq1_le (x * x - z * z)). lra.
  - apply Rle_trans with (exp n); [apply exp_mono; lra|apply exp_le_inv; auto].
Qed.
Lemma step_alg F n b : 0 <= n < 1 / 2 -> 0 <= b < 1 / 2 -> 1.000011 <= (1 + F) * (1 - n) * (1 - b) ->
  0 < F /\ 1.00001 * / (1 - n) <= (1 + F) * (1 - b) /\ (F <= 1 -> (1 - F) * (1 + b) <= 0.99999 * (1 - n)).
Proof.
  intros Hn Hb H. assert (I1 : (1 - n) * / (1 - n) = 1) by (apply Rinv_r; lra). assert (M : (1 - n) * (1 - b) <= 1) by nra. assert (M0 : 0 < (1 - n) * (1 - b)) by nra.
  assert (F0 : 0 < F). { rewrite Rmult_assoc in H. set (m := (1 - n) * (1 - b)) in *. clearbody m. clear - H M M0. destruct (Rlt_dec 0 F); [auto|]. nra. }
  split; auto. split.
  - apply Rmult_le_reg_l with (1 - n); [lra|]. replace ((1 - n) * (1.00001 * / (1 - n))) with (1.00001 * ((1 - n) * / (1 - n))) by ring. rewrite I1. lra.
  - intros F1. assert (P2 : 0 <= (1 - F) * (1 + F) <= 1) by nra. assert (P3 : 0 <= (1 + b) * (1 - b) <= 1) by nra.
    assert (P4 : (1 - F) * (1 + b) * 1.000011 <= (1 - F) * (1 + b) * ((1 + F) * (1 - n) * (1 - b))) by (apply Rmult_le_compat_l; [apply Rmult_le_pos; lra|auto]).
    assert (P5 : (1 - F) * (1 + b) * ((1 + F) * (1 - n) * (1 - b)) = ((1 - F) * (1 + F)) * ((1 + b) * (1 - b)) * (1 - n)) by ring.
    assert (P6 : ((1 - F) * (1 + F)) * ((1 + b) * (1 - b)) <= 1 * 1) by (apply Rmult_le_compat; lra).
    assert (P7 : ((1 - F) * (1 + F)) * ((1 + b) * (1 - b)) * (1 - n) <= 1 * 1 * (1 - n)) by (apply Rmult_le_compat_r; lra). lra.
Qed.
(** One Halley step divides the relative error by 1/F. *)
Lemma halley_step y x a X d F : 0 < y <= 1 -> 0 <= x <= X -> 0 < a -> Rabs (nr_pos x - y) <= a * ksp * wg x ->
  a * X < 1 / 2 -> a <= d * (1 - a * X) -> d * (2 * X + d) < 1 / 2 ->
  1.000011 <= (1 + F) * (1 - d * (2 * X + d)) * (1 - a * X) ->
  0 <= hstep y x /\ Rabs (hstep y x - x) <= d /\ Rabs (nr_pos (hstep y x) - y) <= F * a * ksp * wg x.
Proof.
  intros Hy Hx Ha HE HX Hd Hn HF. pose proof ksp_close as [K1 _]. pose proof (wg_pos x) as W.
  pose proof (hstep_nonneg y x Hy (proj1 Hx)) as N1. pose proof (hden_pos y x Hy ltac:(lra)) as HD.
  set (q := (nr_pos x - y) / (ksp * wg x)). assert (KW : 0 < ksp * wg x) by (apply Rmult_lt_0_compat; lra).
  assert (Eq : nr_pos x - y = q * (ksp * wg x)) by (unfold q; field; lra).
  assert (Q : - a <= q <= a).
  { rewrite Eq, Rabs_mult, (Rabs_pos_eq (ksp * wg x)) in HE by lra. assert (Rabs q <= a) by (apply Rmult_le_reg_r with (ksp * wg x); lra).
    revert H. unfold Rabs. destruct (Rcase_abs q); lra. }
  assert (XQ : - (a * X) <= x * q <= a * X). { split; [|]; destruct (Rle_dec 0 q); nra. }
  set (e := q / (1 - x * q)). assert (EH : hstep y x = x + e).
  { unfold hstep, hden, nr_erfc. destruct (Rlt_dec x 0); [lra|]. rewrite Eq. fold ksp. fold (wg x). unfold e. field. repeat split; try lra. nra. }
  assert (Ee : e * (1 - x * q) = q) by (unfold e; field; lra).
  assert (D0 : 0 < d) by nra.
  assert (B : - d <= e <= d).
  { split; apply Rmult_le_reg_r with (1 - x * q); try lra; rewrite Ee; nra. }
  assert (BD : Rabs (hstep y x - x) <= d). { rewrite EH. replace (x + e - x) with e by ring. apply Rabs_le. auto. }
  split; auto. split; auto.
  (* mean value *)
  assert (MV : exists z, 0 <= z /\ Rabs (z - x) <= d /\ nr_pos (hstep y x) = nr_pos x - rr (/ (1 + z / 2)) * wg z * e).
  { set (df := fun z => - (rr (/ (1 + z / 2)) * exp (- z ^ 2))).
    assert (EW : forall z, df z = - (rr (/ (1 + z / 2)) * wg z)) by (intros z; unfold df, wg; replace (- z ^ 2) with (- (z * z)) by ring; reflexivity).
    destruct (Rtotal_order x (hstep y x)) as [L|[L|L]].
    - destruct (MVT_cor2 nr_pos df x (hstep y x) L) as (z & Ez & Hz).
      + intros c Hc. apply is_derive_Reals, nr_pos_deriv. lra.
      + exists z. rewrite EW in Ez. repeat split; [lra| |rewrite EH in *; lra]. apply Rabs_le. rewrite EH in Hz. lra.
    - exists x. assert (e = 0) by lra. repeat split; [lra| |rewrite <- L, H; ring]. rewrite Rminus_diag_eq by reflexivity. rewrite Rabs_R0. lra.
    - destruct (MVT_cor2 nr_pos df (hstep y x) x L) as (z & Ez & Hz).
      + intros c Hc. apply is_derive_Reals, nr_pos_deriv. lra.
      + exists z. rewrite EW in Ez. repeat split; [lra| |]. { apply Rabs_le. rewrite EH in Hz. lra. }
        rewrite EH in *. lra. }
  destruct MV as (z & Z0 & Zd & EZ). pose proof (wg_ratio x z d X Hx Z0 Zd ltac:(lra) ltac:(lra)) as [R1 R2].
  set (n := d * (2 * X + d)) in *. assert (N0 : 0 < n) by (unfold n; nra).
  pose proof (nr_t_range z Z0) as T. pose proof (rr_bound (/ (1 + z / 2)) ltac:(lra)) as [S1 S2]. set (r := rr _) in *.
  (* r wg z = s k wg x *)
  set (s := r * wg z / (ksp * wg x)). assert (Es : r * wg z = s * (ksp * wg x)) by (unfold s; field; lra).
  assert (WZ : 0 < wg z) by apply wg_pos. assert (IN : 0 < / (1 - n)) by (apply Rinv_0_lt_compat; lra).
  assert (SU : s <= 1.00001 * / (1 - n)).
  { apply Rmult_le_reg_r with (ksp * wg x); auto. rewrite <- Es. apply Rle_trans with ((ksp * 1.00001) * (/ (1 - n) * wg x)); [|right; ring].
    apply Rmult_le_compat; lra. }
  assert (SL : 0.99999 * (1 - n) <= s).
  { apply Rmult_le_reg_r with (ksp * wg x); auto. rewrite <- Es. apply Rle_trans with ((ksp * 0.99999) * ((1 - n) * wg x)); [right; ring|].
    apply Rmult_le_compat; try lra; apply Rmult_le_pos; lra. }
  rewrite EZ. replace (nr_pos x - r * wg z * e - y) with ((nr_pos x - y) - r * wg z * e) by ring. rewrite Eq, Es.
  replace (q * (ksp * wg x) - s * (ksp * wg x) * e) with ((q - s * e) * (ksp * wg x)) by ring.
  rewrite Rabs_mult, (Rabs_pos_eq (ksp * wg x)) by lra. rewrite Rmult_assoc. apply Rmult_le_compat_r; [lra|].
  replace (q - s * e) with (e * (1 - x * q - s)) by (unfold e; field; lra).
  replace (F * a) with (F * a) by ring.
  set (b := a * X) in *. assert (B0 : 0 <= b) by (unfold b; apply Rmult_le_pos; lra).
  (* |1 - xq - s| <= F (1 - xq) *)
  assert (G : Rabs (1 - x * q - s) <= F * (1 - x * q)).
  { destruct (step_alg F n b ltac:(lra) ltac:(lra) HF) as (F0 & FP & FL). apply Rabs_le. split.
    - assert ((1 + F) * (1 - b) <= (1 + F) * (1 - x * q)) by (apply Rmult_le_compat_l; lra). lra.
    - destruct (Rle_dec F 1) as [F1|F1].
      + specialize (FL F1). assert ((1 - F) * (1 - x * q) <= (1 - F) * (1 + b)) by (apply Rmult_le_compat_l; lra). lra.
      + assert (0 < 0.99999 * (1 - n)) by lra. assert (0 < (F - 1) * (1 - x * q)) by (apply Rmult_lt_0_compat; lra). lra. }
  rewrite Rabs_mult. assert (EA : Rabs e * (1 - x * q) <= a).
  { rewrite <- (Rabs_pos_eq (1 - x * q)) by lra. rewrite <- Rabs_mult, Ee. apply Rabs_le. lra. }
  pose proof (Rabs_pos e). assert (F0 : 0 <= F). { pose proof (Rabs_pos (1 - x * q - s)). apply Rmult_le_reg_r with (1 - x * q); lra. }
  apply Rle_trans with (Rabs e * (F * (1 - x * q))); [apply Rmult_le_compat_l; auto|]. nra.
Qed.

(** ** The start *)
Lemma hstart_sR t : 0 < t -> hstart t = (t - sR t) / sqrt 2.
Proof.
  intros H. pose proof sqrt2_pos. pose proof (sD_pos t H). unfold hstart, sR.
  replace (t * 0.27061 + 2.30753) with (t * (27061 / 100000) + 230753 / 100000) by lra.
  replace (t * (t * 0.04481 + 0.99229) + 1) with (sD t) by (unfold sD; lra). field. lra.
Qed.
Lemma start_err t y : 1.17741 <= t <= 8.8 -> y = 2 * exp (- (t * t / 2)) ->
  Rabs (nr_pos (hstart t) - y) <= 0.003014 * ksp * wg (hstart t).
Proof.
  intros H ->. pose proof ksp_close as [K1 _]. pose proof sqrt2_pos as S2. pose proof (sg_bound t H) as B.
  assert (SS : sqrt 2 * sqrt 2 = 2) by (apply sqrt_sqrt; lra).
  rewrite (hstart_sR t) by lra. set (x := (t - sR t) / sqrt 2). set (w := wg x). assert (W : 0 < w) by apply wg_pos.
  assert (XX : x * x = (t - sR t) * (t - sR t) / 2).
  { unfold x. replace ((t - sR t) / sqrt 2 * ((t - sR t) / sqrt 2)) with ((t - sR t) * (t - sR t) / (sqrt 2 * sqrt 2)) by (field; lra). rewrite SS. reflexivity. }
  assert (U : / (1 + x / 2) = su t).
  { unfold su, x, kq. f_equal. field. lra. }
  assert (E1 : nr_pos x = su t * exp (nr_P (su t)) * w).
  { unfold nr_pos, w, wg. cbv zeta. rewrite U. unfold Rminus at 1. rewrite exp_plus. replace (- x ^ 2) with (- (x * x)) by ring. ring. }
  assert (E2 : exp (- (t * t / 2)) = exp (- (sR t * (t - sR t * (1 / 2)))) * w).
  { unfold w, wg. rewrite <- exp_plus, XX. f_equal. field. }
  rewrite E1, E2. replace (su t * exp (nr_P (su t)) * w - 2 * (exp (- (sR t * (t - sR t * (1 / 2)))) * w)) with (sg t * w) by (unfold sg; ring).
  rewrite Rabs_mult, (Rabs_pos_eq w) by lra. apply Rmult_le_compat_r; lra.
Qed.
Lemma tof y : 0 < y <= 1 -> let t := sqrt (-2 * ln (y / 2)) in 1.17741 <= t /\ y = 2 * exp (- (t * t / 2)).
Proof.
  intros H t. assert (L : 0.69314718 <= - ln (y / 2)).
  { assert (ln (y / 2) <= - (69314718 / 100000000)); [|lra].
    apply Rle_trans with (ln (/ 2)); [apply ln_mono; lra|]. rewrite <- (ln_exp (- (69314718 / 100000000))). apply ln_mono; [lra|].
    pose (x := - (69314718 / 100000000)). apply Rlt_le, Rminus_gt_0_lt. change (0 < exp x - / 2).
    ival_pos x 0%nat (-69314718)%Z 100000000%Z (-69314718)%Z 100000000%Z. unfold x; lra. }
  split.
  - unfold t. rewrite <- (sqrt_square 1.17741) by lra. apply sqrt_le_1_alt. lra.
  - unfold t. rewrite sqrt_sqrt by lra. replace (- (-2 * ln (y / 2) / 2)) with (ln (y / 2)) by field. rewrite exp_ln by lra. lra.
Qed.

(** ** Far out: both sides are tiny *)
Lemma nr_pos_wg x : 0 <= x -> nr_pos x <= 1.0000001 * wg x.
Proof.
  intros Hx. unfold nr_pos, wg. cbv zeta. pose proof (nr_t_range x Hx) as [U1 U2]. set (u := / (1 + x / 2)) in *.
  unfold Rminus at 1. rewrite exp_plus. replace (- x ^ 2) with (- (x * x)) by ring. pose proof (exp_pos (- (x * x))). rewrite <- Rmult_assoc. apply Rmult_le_compat_r; [lra|].
  assert (exp (nr_P u) <= exp (nr_P 1)) by (apply exp_mono, nr_P_le; lra).
  assert (exp (nr_P 1) < 1.0000001).
  { pose proof nr_pos_0 as Z. unfold nr_pos in Z. cbv zeta in Z. replace (/ (1 + 0 / 2)) with 1 in Z by field.
    replace (nr_P 1 - 0 ^ 2) with (nr_P 1) in Z by ring. lra. }
  pose proof (exp_pos (nr_P u)). nra.
Qed.
Lemma wg_small x : 5 <= x -> wg x <= 0.0000001.
Proof.
  intros H. unfold wg. apply Rle_trans with (exp (INR 25 * Ropp 1)).
  - apply exp_mono. rewrite INR_IZR_INZ. cbn [Z.of_nat Pos.of_succ_nat Pos.succ]. nra.
  - rewrite exp_nat. assert (E : exp (Ropp 1) <= / 2). { rewrite exp_Ropp. apply Rinv_le_contravar; [lra|]. pose proof (exp_ineq1_le 1). lra. }
    apply Rle_trans with ((/ 2) ^ 25); [|lra]. apply pow_incr. split; [apply Rlt_le, exp_pos|auto].
Qed.
Lemma hstep_far y x : 0 < y <= 1 -> 0 < x -> x - / x <= hstep y x.
Proof.
  intros Hy Hx. pose proof (hden_pos y x Hy ltac:(lra)) as HD. unfold hstep. assert (0 < / x) by (apply Rinv_0_lt_compat; auto).
  destruct (Rle_dec 0 (nr_erfc x - y)) as [H1|H1].
  - assert (0 <= (nr_erfc x - y) / hden y x) by pos. lra.
  - set (k := y - nr_erfc x). replace (nr_erfc x - y) with (- k) by (unfold k; ring). assert (Hk : 0 < k) by (unfold k; lra).
    replace (- k / hden y x) with (- (k / hden y x)) by (field; lra). enough (k / hden y x <= / x) by lra.
    apply Rmult_le_reg_r with (hden y x); auto. unfold Rdiv. rewrite Rmult_assoc, Rinv_l, Rmult_1_r by lra.
    unfold hden. replace (nr_erfc x - y) with (- k) by (unfold k; ring).
    replace (/ x * (2 / sqrt PI * exp (- (x * x)) + - x * - k)) with (/ x * (2 / sqrt PI * exp (- (x * x))) + k * (x * / x)) by ring. rewrite Rinv_r by lra.
    fold ksp. pose proof ksp_close. pose proof (exp_pos (- (x * x))). assert (0 <= / x * (ksp * exp (- (x * x)))) by (apply Rmult_le_pos; [lra|apply Rmult_le_pos; lra]). lra.
Qed.
(** ** The computed inverse inverts the approximation *)
Lemma hinv_acc y : 0 < y <= 1 -> Rabs (nr_pos (hinv y) - y) <= 0.000001.
Proof.
  intros Hy. destruct (tof y Hy) as [T1 EY]. unfold hinv. set (t := sqrt (-2 * ln (y / 2))) in *. pose proof ksp_close as [K1 K2].
  pose proof sqrt2_pos as S2. assert (SS : sqrt 2 * sqrt 2 = 2) by (apply sqrt_sqrt; lra). assert (S3 : 1.414 < sqrt 2 < 1.415) by nra.
  pose proof (sR_pos t ltac:(lra)) as RP. pose proof (hstart_nonneg t ltac:(lra)) as X0. pose proof (hstart_sR t ltac:(lra)) as EX.
  assert (EX' : hstart t * sqrt 2 = t - sR t) by (rewrite EX; field; lra).
  destruct (Rle_dec t 8.8) as [T2|T2].
  - assert (XU : hstart t <= 6.225) by nra.
    destruct (halley_step y (hstart t) 0.003014 6.225 0.003072 0.06 Hy ltac:(lra) ltac:(lra) (start_err t y ltac:(lra) EY) ltac:(lra) ltac:(lra) ltac:(lra) ltac:(lra)) as (N1 & D1 & A1).
    set (x0 := hstart t) in *. set (x1 := hstep y x0) in *.
    destruct (wg_ratio x0 x1 0.003072 6.225 ltac:(lra) N1 D1 ltac:(lra) ltac:(lra)) as [R1 _].
    assert (A2 : Rabs (nr_pos x1 - y) <= 0.000189 * ksp * wg x1).
    { eapply Rle_trans; [exact A1|]. replace (0.06 * 0.003014 * ksp * wg x0) with (ksp * (0.06 * 0.003014 * wg x0)) by ring.
      replace (0.000189 * ksp * wg x1) with (ksp * (0.000189 * wg x1)) by ring. apply Rmult_le_compat_l; [lra|]. pose proof (wg_pos x0). lra. }
    assert (X1U : x1 <= 6.2281). { revert D1. unfold Rabs. destruct (Rcase_abs (x1 - x0)); lra. }
    destruct (halley_step y x1 0.000189 6.2281 0.00018923 0.0036 Hy ltac:(lra) ltac:(lra) A2 ltac:(lra) ltac:(lra) ltac:(lra) ltac:(lra)) as (_ & _ & A3).
    eapply Rle_trans; [exact A3|]. assert (wg x1 <= 1). { unfold wg. rewrite <- exp_0. apply exp_mono. nra. } pose proof (wg_pos x1). nra.
  - assert (Y : y <= 0.0000002).
    { rewrite EY. assert (exp (- (t * t / 2)) <= wg 5) by (unfold wg; apply exp_mono; nra). pose proof (wg_small 5 ltac:(lra)). lra. }
    assert (RU : sR t <= 0.4).
    { unfold sR. pose proof (sD_pos t ltac:(lra)). apply Rmult_le_reg_r with (sD t); [lra|]. rewrite Rmult_assoc, Rinv_l by lra. unfold sD. nra. }
    assert (XL : 5.9 <= hstart t) by nra. assert (G : forall x, 5 <= x -> / x <= 0.2).
    { intros x Hx. replace 0.2 with (/ 5) by lra. apply Rinv_le_contravar; lra. }
    set (x0 := hstart t) in *. pose proof (hstep_far y x0 Hy ltac:(lra)) as H1. pose proof (G x0 ltac:(lra)). set (x1 := hstep y x0) in *.
    pose proof (hstep_far y x1 Hy ltac:(lra)) as H2. pose proof (G x1 ltac:(lra)). set (x2 := hstep y x1) in *.
    pose proof (nr_pos_gt0 x2 ltac:(lra)). pose proof (nr_pos_wg x2 ltac:(lra)). pose proof (wg_small x2 ltac:(lra)). apply Rabs_le. lra.
Qed.
(** The true normal distribution at the computed quantile. *)
Lemma hinv_Ncdf y : 0 < y <= 1 -> let x := sqrt 2 * hinv y in Rabs (Ncdf x - Ncdf (- x) - (1 - y)) <= 0.000012.
Proof.
  intros Hy x. pose proof (hinv_acc y Hy) as A. pose proof (hinv_nonneg y Hy) as N. pose proof sqrt2_pos as S2.
  assert (X0 : 0 <= x) by (unfold x; apply Rmult_le_pos; lra). pose proof (Phi_close (- x)) as C. rewrite Phi_neg in C by lra.
  rewrite Ncdf_neg in *. replace (- - x / sqrt 2) with (hinv y) in C by (unfold x; field; lra).
  revert A C. unfold Rabs. destruct (Rcase_abs (nr_pos (hinv y) - y)), (Rcase_abs (nr_pos (hinv y) / 2 - (1 - Ncdf x))), (Rcase_abs (Ncdf x - (1 - Ncdf x) - (1 - y))); lra.
Qed.
Lemma Ncdf_far x : 10 <= x -> Rabs (Ncdf x - Ncdf (- x) - 1) <= 0.000012.
Proof.
  intros H. pose proof sqrt2_pos as S2. pose proof (Phi_close (- x)) as C. rewrite Phi_neg in C by lra. rewrite Ncdf_neg in *.
  assert (S3 : sqrt 2 < 2) by (rewrite <- (sqrt_square 2) at 2 by lra; apply sqrt_lt_1_alt; lra).
  assert (X : 5 <= - - x / sqrt 2). { rewrite Ropp_involutive. apply Rmult_le_reg_r with (sqrt 2); auto. unfold Rdiv. rewrite Rmult_assoc, Rinv_l by lra. lra. }
  assert (X0 : 0 <= - - x / sqrt 2) by lra. pose proof (nr_pos_wg _ X0). pose proof (wg_small _ X). pose proof (nr_pos_gt0 _ X0).
  revert C. unfold Rabs. destruct (Rcase_abs (nr_pos (- - x / sqrt 2) / 2 - (1 - Ncdf x))), (Rcase_abs (Ncdf x - (1 - Ncdf x) - 1)); lra.
Qed.
(** A small positive argument brings the approximation below 1. *)
Lemma nr_pos_below x : 0.0000014 <= x -> nr_pos x <= 0.9999987.
Proof.
  intros H. set (z := 0.0000014). assert (B : nr_pos z <= 0.9999987).
  { destruct (MVT_cor2 nr_pos (fun z => - (rr (/ (1 + z / 2)) * exp (- z ^ 2))) 0 z) as (c & E & Hc); [unfold z; lra|intros c Hc; apply is_derive_Reals, nr_pos_deriv; lra|].
    pose proof (nr_t_range c ltac:(lra)) as T. pose proof (rr_bound (/ (1 + c / 2)) ltac:(lra)) as [R1 _]. pose proof ksp_close as [K _]. pose proof nr_pos_0.
    pose proof (exp_ineq1_le (- c ^ 2)) as EX. assert (c ^ 2 <= 0.000001) by (unfold z in Hc; nra).
    assert (1.128 <= rr (/ (1 + c / 2)) * exp (- c ^ 2)) by nra. unfold z in *. nra. }
  destruct H as [H|<-]; [|exact B]. pose proof (nr_pos_lt z x ltac:(unfold z; lra) H). lra.
Qed.
Lemma tiny_lt : tiny < 0.0000001.
Proof.
  unfold tiny. assert (H : 0 < 10 ^ 171) by (apply pow_lt; lra). apply Rmult_lt_reg_r with (10 ^ 171); auto. unfold Rdiv. rewrite Rmult_assoc, Rinv_l by lra.
  change 171%nat with (21 + 150)%nat. rewrite pow_add. assert (1 <= 10 ^ 150) by (apply pow_R1_Rle; lra). lra.
Qed.
Lemma drawnorm_near t e : 0.000002 <= e -> 0 <= t <= e -> tiny <= drawnorm t e.
Proof.
  intros He Ht. unfold drawnorm. rewrite Rabs_pos_eq by lra. pose proof (Phi_pos_ge (e - t) ltac:(lra)) as P1. pose proof tiny_lt. pose proof sqrt2_pos as S2.
  assert (S3 : sqrt 2 < 1.4143) by (rewrite <- (sqrt_square 1.4143) by lra; apply sqrt_lt_1_alt; lra).
  rewrite (Phi_neg (- e - t)) by lra.
  assert (X : 0.0000014 <= - (- e - t) / sqrt 2). { apply Rmult_le_reg_r with (sqrt 2); auto. unfold Rdiv. rewrite Rmult_assoc, Rinv_l by lra. lra. }
  pose proof (nr_pos_below _ X). lra.
Qed.
