(** The fitted normal distribution against the true one with a relative error,
    and the truncated-Gaussian corrections computed from it.  No model code
    here. *)
From Coq Require Import ZArith List Bool Reals Lra Lia.
From Coquelicot Require Import Coquelicot.
From Verif Require Import Tac Spec SpecTS SpecNormal MathTS MathIval MathPoly MathTSW MathTSInv MathTSDraw MathGauss.
Import ListNotations.
Local Open Scope R_scope.

(** ** The normal distribution function tends to 1 *)
Lemma sqrt_2pi : sqrt (2 * PI) = sqrt 2 * sqrt PI.
Proof. apply sqrt_mult; [lra|pose proof PI_RGT_0; lra]. Qed.
Lemma Ncdf_G x : Ncdf x = 1 / 2 + G (x / sqrt 2) / sqrt PI.
Proof.
  pose proof sqrt2_pos as S2. assert (SP : 0 < sqrt PI) by (apply sqrt_lt_R0, PI_RGT_0).
  pose (F := fun x => Ncdf x - (1 / 2 + G (x / sqrt 2) / sqrt PI)).
  assert (D : forall c, is_derive F c 0).
  { intros c. unfold F. evar_last.
    - apply (minus_d Ncdf (fun x => 1 / 2 + G (x / sqrt 2) / sqrt PI)); [apply Ncdf_deriv|].
      apply (is_derive_plus (fun _ => 1 / 2) (fun x => G (x / sqrt 2) / sqrt PI)); [apply (is_derive_const (1 / 2) c)|].
      apply (is_derive_ext (fun x => / sqrt PI * G (x / sqrt 2))); [intros; unfold Rdiv; apply Rmult_comm|].
      apply (is_derive_scal (fun x => G (x / sqrt 2)) c (/ sqrt PI)).
      apply (is_derive_comp G (fun x => x / sqrt 2) c (ge (c / sqrt 2)) (/ sqrt 2)); [apply G_deriv|].
      auto_derive; [exact I|field; lra].
    - unfold plus, zero, scal, ge; cbn -[pow phi]. unfold mult; cbn -[pow phi]. unfold phi. rewrite sqrt_2pi.
      replace (c / sqrt 2 * (c / sqrt 2)) with (c * c / (sqrt 2 * sqrt 2)) by (field; lra).
      replace ((c / sqrt 2) ^ 2) with (c ^ 2 / (sqrt 2 * sqrt 2)) by (field; lra). rewrite sqrt_sqrt by lra.
      field. lra. }
  assert (E : F x = F 0).
  { assert (M : forall a b, a <= b -> F a = F b).
    { intros a b H. apply Rle_antisym.
      - apply (mono_of_deriv F (fun _ => 0)); [intros; apply D|intros; lra|auto].
      - apply Ropp_le_cancel. apply (mono_of_deriv (fun x => - F x) (fun _ => 0)); [|intros; lra|auto].
        intros c _. evar_last; [apply (is_derive_opp F c 0), D|]. unfold opp; cbn. ring. }
    destruct (Rle_dec 0 x); [symmetry; apply M; auto|apply M; lra]. }
  unfold F in E. rewrite Ncdf_0 in E. replace (0 / sqrt 2) with 0 in E by (unfold Rdiv; ring). rewrite G_0 in E.
  replace (0 / sqrt PI) with 0 in E by (unfold Rdiv; ring). lra.
Qed.
Lemma G_ge0 x : 0 <= x -> 0 <= G x.
Proof. intros H. rewrite <- G_0. apply (mono_of_deriv G ge); [intros; apply G_deriv|intros; apply Rlt_le, exp_pos|auto]. Qed.
Lemma Ncdf_mono x y : x <= y -> Ncdf x <= Ncdf y.
Proof. intros H. apply (mono_of_deriv Ncdf phi); [intros; apply Ncdf_deriv|intros; apply Rlt_le, phi_pos|auto]. Qed.
Lemma Ncdf_tail0 x : 0 <= x -> 0 <= 1 - Ncdf x <= exp (- (x ^ 2 / 2)).
Proof.
  intros H. pose proof sqrt2_pos as S2. assert (SP : 0 < sqrt PI) by (apply sqrt_lt_R0, PI_RGT_0).
  pose proof PI_bounds as PB. assert (Q : sqrt PI * sqrt PI = PI) by (apply sqrt_sqrt; lra).
  rewrite Ncdf_G. set (z := x / sqrt 2). assert (Z : 0 <= z) by (unfold z, Rdiv; apply Rmult_le_pos; [auto|apply Rlt_le; pos]).
  pose proof (G_ge0 z Z) as G0. pose proof (gauss_eq z) as GE. pose proof (Bi_bound z) as BB.
  assert (EG : exp (- (x ^ 2 / 2)) = ge z).
  { unfold ge, z. replace ((x / sqrt 2) ^ 2) with (x ^ 2 / (sqrt 2 * sqrt 2)) by (field; lra). now rewrite sqrt_sqrt by lra. }
  rewrite EG. set (g := G z / sqrt PI). assert (Hg : G z = g * sqrt PI) by (unfold g; field; lra).
  assert (g0 : 0 <= g) by (unfold g, Rdiv; apply Rmult_le_pos; [auto|apply Rlt_le; pos]).
  assert (E2 : g ^ 2 * PI + Bi z = PI / 4) by (rewrite <- GE, Hg; replace ((g * sqrt PI) ^ 2) with (g ^ 2 * (sqrt PI * sqrt PI)) by ring; now rewrite Q).
  assert (ge0 : 0 < ge z) by apply exp_pos.
  assert (g2 : g ^ 2 <= 1 / 4) by (apply Rmult_le_reg_r with PI; lra).
  assert (g3 : 1 / 4 - Bi z / 3 <= g ^ 2). { apply Rmult_le_reg_r with PI; [lra|]. assert (Bi z * 3 <= Bi z * PI) by (apply Rmult_le_compat_l; lra). lra. }
  assert (g1 : g <= 1 / 2) by nra. split; [lra|]. nra.
Qed.
Lemma Ncdf_le1 x : Ncdf x <= 1.
Proof. destruct (Rle_dec 0 x) as [H|H]; [pose proof (Ncdf_tail0 x H); lra|]. pose proof (Ncdf_mono x 0 ltac:(lra)) as M. rewrite Ncdf_0 in M. lra. Qed.
Lemma Ncdf_ge0 x : 0 <= Ncdf x.
Proof. pose proof (Ncdf_le1 (- x)) as H. rewrite Ncdf_neg in H. lra. Qed.
Lemma Ncdf_strict x y : x < y -> Ncdf x < Ncdf y.
Proof.
  intros H. destruct (MVT_gen Ncdf x y phi) as (c & Hc & E).
  - intros z _. apply Ncdf_deriv.
  - intros z _. apply continuity_pt_filterlim. apply (ex_derive_continuous Ncdf z). eexists. apply Ncdf_deriv.
  - pose proof (phi_pos c). nra.
Qed.
Lemma Ncdf_range x : 0 < Ncdf x < 1.
Proof. pose proof (Ncdf_strict (x - 1) x ltac:(lra)). pose proof (Ncdf_strict x (x + 1) ltac:(lra)). pose proof (Ncdf_ge0 (x - 1)). pose proof (Ncdf_le1 (x + 1)). lra. Qed.
Lemma inv_small x d : 0 < d -> exists y, x <= y /\ 1 <= y /\ 2 / y <= d.
Proof.
  intros Hd. exists (Rmax x 1 + 2 / d). pose proof (Rmax_l x 1). pose proof (Rmax_r x 1). assert (0 < 2 / d) by pos.
  split; [lra|split; [lra|]]. apply Rmult_le_reg_r with (Rmax x 1 + 2 / d); [lra|]. unfold Rdiv at 1. rewrite Rmult_assoc, Rinv_l, Rmult_1_r by lra.
  replace (d * (Rmax x 1 + 2 / d)) with (d * Rmax x 1 + 2) by (field; lra). assert (0 <= d * Rmax x 1) by (apply Rmult_le_pos; lra). lra.
Qed.
Lemma exp_inv y : 1 <= y -> exp (- (y ^ 2 / 2)) <= 2 / y.
Proof.
  intros H. rewrite exp_Ropp. apply Rle_trans with (/ (y / 2)); [|right; field; lra]. apply Rinv_le_contravar; [lra|].
  pose proof (exp_ineq1_le (y ^ 2 / 2)). nra.
Qed.
(** Fitted tail against the true one *)
Lemma Phip_lim y : 1 <= y -> 1 - 2 / y <= Phip y <= 1.
Proof.
  intros H. unfold Phip. pose proof sqrt2_pos as S2. assert (S3 : sqrt 2 <= 1.5) by (rewrite <- (sqrt_square 1.5) by lra; apply sqrt_le_1_alt; lra).
  assert (Z : 0 < y / sqrt 2) by pos. pose proof (nr_pos_gt0 (y / sqrt 2) ltac:(lra)) as P. split; [|lra].
  pose proof (nr_pos_mul (y / sqrt 2) ltac:(lra)) as M. assert (E : exp (- (y / sqrt 2) ^ 2) <= 1) by (rewrite <- exp_0; apply exp_mono; nra).
  set (n := nr_pos (y / sqrt 2)) in *. assert (X : y * n <= 1.11 * sqrt 2).
  { replace (y * n) with (y / sqrt 2 * n * sqrt 2) by (field; lra). apply Rmult_le_compat_r; lra. }
  assert (n <= 2 / y); [|assert (0 < 2 / y) by pos; lra].
  apply Rmult_le_reg_r with y; [lra|]. unfold Rdiv. rewrite Rmult_assoc, Rinv_l by lra. lra.
Qed.
Lemma tail_close x : 0 <= x -> 0.99999 * (1 - Ncdf x) <= 1 - Phip x <= 1.00001 * (1 - Ncdf x).
Proof.
  intros H. split; apply le_epsilon; intros d Hd; destruct (inv_small x d Hd) as (y & H1 & H2 & H3);
    pose proof (Phip_close x y ltac:(lra)) as C; pose proof (Phip_lim y H2) as L; pose proof (Ncdf_tail0 y ltac:(lra)) as T; pose proof (exp_inv y H2) as E; lra.
Qed.
Lemma tail_tight x : 2 <= x -> 0.9999998 * (1 - Ncdf x) <= 1 - Phip x <= 1.0000002 * (1 - Ncdf x).
Proof.
  intros H. split; apply le_epsilon; intros d Hd; destruct (inv_small x d Hd) as (y & H1 & H2 & H3);
    pose proof (Phip_tight x y ltac:(lra)) as C; pose proof (Phip_lim y H2) as L; pose proof (Ncdf_tail0 y ltac:(lra)) as T; pose proof (exp_inv y H2) as E; lra.
Qed.
Lemma Phi_rel x : Rabs (Phi x - Ncdf x) <= 0.0000103 * Ncdf x.
Proof.
  destruct (Rle_dec x 0) as [H|H].
  - assert (E : Phi x = 1 - Phip (- x)) by (rewrite Phi_neg by auto; unfold Phip; field). rewrite E.
    pose proof (tail_close (- x) ltac:(lra)) as C. rewrite Ncdf_neg in C. pose proof (Ncdf_range x). apply Rabs_le. lra.
  - pose proof (Phi_close x) as C. pose proof (Ncdf_mono 0 x ltac:(lra)) as M. rewrite Ncdf_0 in M. lra.
Qed.

(** ** Mills' ratio *)
Definition Ntl (x : R) : R := 1 - Ncdf x.
Lemma Ntl_d x : is_derive Ntl x (- phi x).
Proof. unfold Ntl. evar_last; [apply (minus_d (fun _ => 1) Ncdf); [apply (is_derive_const 1 x)|apply Ncdf_deriv]|]. unfold zero; cbn. ring. Qed.
Lemma phi_small y : 1 <= y -> phi y <= 1 / y.
Proof.
  intros H. unfold phi. pose proof (exp_inv y H) as E. pose proof PI_bounds. assert (S : 2 <= sqrt (2 * PI)) by (rewrite <- (sqrt_square 2) at 1 by lra; apply sqrt_le_1_alt; lra).
  apply Rmult_le_reg_r with (sqrt (2 * PI)); [lra|]. unfold Rdiv at 1. rewrite Rmult_assoc, Rinv_l, Rmult_1_r by lra.
  apply Rle_trans with (1 := E). assert (0 < 1 / y) by pos. replace (2 / y) with (1 / y * 2) by (field; lra). apply Rmult_le_compat_l; lra.
Qed.
(** a nonincreasing function tending to something nonnegative is nonnegative *)
Lemma dec_pos f df x : 0 < x -> (forall c, 0 < c -> is_derive f c (df c)) -> (forall c, 0 < c -> df c <= 0) -> (forall y, 1 <= y -> - (2 / y) <= f y) -> 0 <= f x.
Proof.
  intros Hx D N L. apply le_epsilon. intros d Hd. destruct (inv_small x d Hd) as (y & H1 & H2 & H3). pose proof (L y H2).
  assert (- f x <= - f y); [|lra]. apply (mono_of_deriv (fun x => - f x) (fun x => - df x)); [|intros c Hc; pose proof (N c ltac:(lra)); lra|auto].
  intros c Hc. apply (is_derive_opp f c (df c)). apply D. lra.
Qed.
Lemma mills_up x : 0 < x -> Ntl x <= phi x / x.
Proof.
  intros Hx. enough (0 <= phi x / x - Ntl x) by lra.
  apply (dec_pos (fun x => phi x / x - Ntl x) (fun x => - (phi x / x ^ 2))); auto.
  - intros c Hc. evar_last.
    + apply (minus_d (fun x => phi x / x) Ntl); [|apply Ntl_d]. apply (mult_d phi (fun x => / x)); [apply phi_deriv|].
      apply (is_derive_inv (fun x => x) c 1); [apply (is_derive_id c)|lra].
    + field. lra.
  - intros c Hc. pose proof (phi_pos c). assert (0 < phi c / c ^ 2) by pos. lra.
  - intros y Hy. pose proof (phi_pos y). assert (0 < phi y / y) by pos. pose proof (Ncdf_tail0 y ltac:(lra)). pose proof (exp_inv y Hy). unfold Ntl. lra.
Qed.
Lemma mills_low x : 0 < x -> phi x * x / (1 + x ^ 2) <= Ntl x.
Proof.
  intros Hx. enough (0 <= Ntl x - phi x * (x / (1 + x ^ 2))) by (unfold Rdiv in *; lra).
  apply (dec_pos (fun x => Ntl x - phi x * (x / (1 + x ^ 2))) (fun x => - (2 * phi x / (1 + x ^ 2) ^ 2))); auto.
  - intros c Hc. evar_last.
    + apply (minus_d Ntl (fun x => phi x * (x / (1 + x ^ 2)))); [apply Ntl_d|]. apply (mult_d phi (fun x => x / (1 + x ^ 2))); [apply phi_deriv|].
      instantiate (1 := (1 - c ^ 2) / (1 + c ^ 2) ^ 2). auto_derive; [nra|field; nra].
    + field. nra.
  - intros c Hc. pose proof (phi_pos c). assert (0 < (1 + c ^ 2) ^ 2) by (apply pow_lt; nra). assert (0 < 2 * phi c / (1 + c ^ 2) ^ 2) by pos. lra.
  - intros y Hy. pose proof (Ncdf_range y). unfold Ntl. assert (y / (1 + y ^ 2) <= 1).
    { apply Rmult_le_reg_r with (1 + y ^ 2); [nra|]. unfold Rdiv. rewrite Rmult_assoc, Rinv_l by nra. nra. }
    pose proof (phi_small y Hy). pose proof (phi_pos y). replace (2 / y) with (1 / y + 1 / y) by (field; lra). assert (0 < 1 / y) by pos. nra.
Qed.
(** second order: phi (x^2 + 2) / (x (x^2 + 3)) *)
Lemma mills_up2 x : 0 < x -> Ntl x <= phi x * (x ^ 2 + 2) / (x * (x ^ 2 + 3)).
Proof.
  intros Hx. enough (0 <= phi x * ((x ^ 2 + 2) / (x * (x ^ 2 + 3))) - Ntl x) by (unfold Rdiv in *; lra).
  apply (dec_pos (fun x => phi x * ((x ^ 2 + 2) / (x * (x ^ 2 + 3))) - Ntl x) (fun x => - (6 * phi x / (x * (x ^ 2 + 3)) ^ 2))); auto.
  - intros c Hc. assert (0 < c * (c ^ 2 + 3)) by (apply Rmult_lt_0_compat; nra). evar_last.
    + apply (minus_d (fun x => phi x * ((x ^ 2 + 2) / (x * (x ^ 2 + 3)))) Ntl); [|apply Ntl_d]. apply (mult_d phi (fun x => (x ^ 2 + 2) / (x * (x ^ 2 + 3)))); [apply phi_deriv|].
      instantiate (1 := (2 * c * (c * (c ^ 2 + 3)) - (c ^ 2 + 2) * (3 * c ^ 2 + 3)) / (c * (c ^ 2 + 3)) ^ 2). auto_derive; [nra|field; split; nra].
    + field. split; nra.
  - intros c Hc. pose proof (phi_pos c). assert (0 < c * (c ^ 2 + 3)) by (apply Rmult_lt_0_compat; nra). assert (0 < (c * (c ^ 2 + 3)) ^ 2) by (apply pow_lt; nra). assert (0 < 6 * phi c / (c * (c ^ 2 + 3)) ^ 2) by pos. lra.
  - intros y Hy. pose proof (phi_pos y). assert (0 < y * (y ^ 2 + 3)) by (apply Rmult_lt_0_compat; nra). assert (0 < (y ^ 2 + 2) / (y * (y ^ 2 + 3))) by (apply Rdiv_lt_0_compat; nra).
    pose proof (Ncdf_tail0 y ltac:(lra)). pose proof (exp_inv y Hy). unfold Ntl. nra.
Qed.
Lemma mills_low1 x : 0 < x -> phi x / (1 + x) <= Ntl x.
Proof.
  intros Hx. enough (0 <= Ntl x - phi x * / (1 + x)) by (unfold Rdiv in *; lra).
  apply (dec_pos (fun x => Ntl x - phi x * / (1 + x)) (fun x => - (x * phi x / (1 + x) ^ 2))); auto.
  - intros c Hc. evar_last.
    + apply (minus_d Ntl (fun x => phi x * / (1 + x))); [apply Ntl_d|]. apply (mult_d phi (fun x => / (1 + x))); [apply phi_deriv|].
      instantiate (1 := - / (1 + c) ^ 2). auto_derive; [lra|field; lra].
    + field. lra.
  - intros c Hc. pose proof (phi_pos c). assert (0 < c * phi c / (1 + c) ^ 2); [|lra]. apply Rdiv_lt_0_compat; [pos|apply pow_lt; lra].
  - intros y Hy. pose proof (Ncdf_range y). unfold Ntl. assert (/ (1 + y) <= 1) by (rewrite <- Rinv_1; apply Rinv_le_contravar; lra).
    assert (0 < / (1 + y)) by (apply Rinv_0_lt_compat; lra).
    pose proof (phi_small y Hy). pose proof (phi_pos y). replace (2 / y) with (1 / y + 1 / y) by (field; lra). assert (0 < 1 / y) by pos. nra.
Qed.
Lemma Ntl_pos x : 0 < Ntl x. Proof. unfold Ntl. pose proof (Ncdf_range x). lra. Qed.
Lemma Ntl_neg x : Ntl (- x) = Ncdf x. Proof. unfold Ntl. rewrite Ncdf_neg. ring. Qed.
(** hazard h(y) = phi y / Ntl y *)
Definition hz (y : R) : R := phi y / Ntl y.
Lemma hz_pos y : 0 < hz y. Proof. pose proof (phi_pos y). pose proof (Ntl_pos y). unfold hz. pos. Qed.
Lemma hz_low y : 0 < y -> y <= hz y.
Proof.
  intros H. pose proof (mills_up y H) as M. pose proof (Ntl_pos y) as P. unfold hz. apply Rmult_le_reg_r with (Ntl y); auto. unfold Rdiv. rewrite Rmult_assoc, Rinv_l, Rmult_1_r by lra.
  apply Rmult_le_compat_l with (r := y) in M; [|lra]. replace (y * (phi y / y)) with (phi y) in M by (field; lra). lra.
Qed.
Lemma hz_low2 y : 0 < y -> y + y / (y ^ 2 + 2) <= hz y.
Proof.
  intros H. pose proof (mills_up2 y H) as M. pose proof (Ntl_pos y) as P. unfold hz. apply Rmult_le_reg_r with (Ntl y); auto. unfold Rdiv at 2. rewrite Rmult_assoc, Rinv_l, Rmult_1_r by lra.
  assert (Q : 0 < y * (y ^ 2 + 3)) by (apply Rmult_lt_0_compat; nra). assert (Q2 : 0 < y + y / (y ^ 2 + 2)) by (assert (0 < y / (y ^ 2 + 2)) by (apply Rdiv_lt_0_compat; nra); lra).
  apply Rmult_le_compat_l with (r := y + y / (y ^ 2 + 2)) in M; [|lra]. apply Rle_trans with (1 := M). right. field. split; nra.
Qed.
Lemma hz_up y : 0 < y -> hz y <= y + 1 / y.
Proof.
  intros H. pose proof (mills_low y H) as M. pose proof (Ntl_pos y) as P. unfold hz. apply Rmult_le_reg_r with (Ntl y); auto. unfold Rdiv at 1. rewrite Rmult_assoc, Rinv_l, Rmult_1_r by lra.
  assert (Q : 0 < y + 1 / y) by (assert (0 < 1 / y) by pos; lra).
  apply Rmult_le_compat_l with (r := y + 1 / y) in M; [|lra]. apply Rle_trans with (2 := M). right. field. split; nra.
Qed.
Lemma hz_up1 y : 0 <= y -> hz y <= 1 + y.
Proof.
  intros [H|<-].
  - pose proof (mills_low1 y H) as M. pose proof (Ntl_pos y) as P. unfold hz. apply Rmult_le_reg_r with (Ntl y); auto. unfold Rdiv at 1. rewrite Rmult_assoc, Rinv_l, Rmult_1_r by lra.
    apply Rmult_le_compat_l with (r := 1 + y) in M; [|lra]. apply Rle_trans with (2 := M). right. field. lra.
  - unfold hz, Ntl. rewrite Ncdf_0. pose proof phi0_close. lra.
Qed.
Lemma hz_neg y : y <= 0 -> hz y <= 0.8.
Proof.
  intros H. unfold hz. pose proof (Ncdf_mono 0 (- y) ltac:(lra)) as M. rewrite Ncdf_0, Ncdf_neg in M. pose proof (phi_le0 y). pose proof (phi_pos y). unfold Ntl.
  apply Rmult_le_reg_r with (1 - Ncdf y); [lra|]. unfold Rdiv. rewrite Rmult_assoc, Rinv_l by lra. lra.
Qed.
(** the variance factor hz (hz - y) lies in (0, 1) *)
Lemma ydec d : 0 < d -> forall x, exists b, x <= b /\ 1 <= b /\ phi b <= d /\ Rabs (b * phi b) <= d /\ Ntl b <= d.
Proof.
  intros Hd x. destruct (inv_small x (d / 8)) as (b & H1 & H2 & H3); [lra|]. exists b. split; [auto|]. split; [auto|].
  pose proof (phi_pos b) as PP. assert (B0 : 0 < 2 / b) by pos.
  assert (P2 : phi b <= 4 / (b * b)).
  { unfold phi. pose proof PI_bounds. assert (S : 2 <= sqrt (2 * PI)) by (rewrite <- (sqrt_square 2) at 1 by lra; apply sqrt_le_1_alt; lra).
    assert (E : exp (- (b ^ 2 / 2)) <= 4 / (b * b)).
    { replace (- (b ^ 2 / 2)) with (- (b ^ 2 / 4) + - (b ^ 2 / 4)) by field. rewrite exp_plus. rewrite exp_Ropp. pose proof (exp_ineq1_le (b ^ 2 / 4)) as X.
      assert (Y : / exp (b ^ 2 / 4) <= / (b ^ 2 / 4)) by (apply Rinv_le_contravar; nra). assert (Y0 : 0 < / exp (b ^ 2 / 4)) by (apply Rinv_0_lt_compat, exp_pos).
      assert (Y1 : / exp (b ^ 2 / 4) <= 1) by (rewrite <- Rinv_1; apply Rinv_le_contravar; nra).
      apply Rle_trans with (/ (b ^ 2 / 4)); [nra|]. right. field. lra. }
    apply Rmult_le_reg_r with (sqrt (2 * PI)); [lra|]. unfold Rdiv at 1. rewrite Rmult_assoc, Rinv_l, Rmult_1_r by lra.
    assert (0 < exp (- (b ^ 2 / 2))) by apply exp_pos. nra. }
  assert (P3 : b * phi b <= 2 * (2 / b)).
  { apply Rmult_le_compat_l with (r := b) in P2; [|lra]. apply Rle_trans with (1 := P2). right. field. lra. }
  assert (P4 : phi b <= b * phi b) by nra. split; [lra|]. split; [rewrite Rabs_pos_eq; nra|].
  unfold Ntl. pose proof (Ncdf_tail0 b ltac:(lra)). pose proof (exp_inv b H2). lra.
Qed.
