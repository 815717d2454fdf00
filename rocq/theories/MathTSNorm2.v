(** The truncated-Gaussian corrections computed from the fitted normal
    distribution, compared with the true ones, and the moments the true ones
    are.  No model code here. *)
From Coq Require Import ZArith List Bool Reals Lra Lia.
From Coquelicot Require Import Coquelicot.
From Verif Require Import Tac ModelLib Spec SpecTS SpecNormal SpecTSN MathTS MathIval MathPoly MathTSW MathTSInv MathTSDraw MathGauss MathTSNorm.
Import ListNotations.
Local Open Scope R_scope.

(** ** Moments *)
Lemma phi_cont x : continuous phi x.
Proof. apply (ex_derive_continuous phi). eexists. apply phi_deriv. Qed.
Lemma is_RInt_phi a b : is_RInt phi a b (mT a b).
Proof.
  assert (E : is_RInt phi a b (minus (Ncdf b) (Ncdf a))) by (apply (is_RInt_derive Ncdf phi); intros; [apply Ncdf_deriv|apply phi_cont]). exact E.
Qed.
Lemma is_RInt_zphi a b : is_RInt (fun z => z * phi z) a b (mN a b).
Proof.
  replace (mN a b) with (minus (mN a b) (mN a a)) by (unfold mN, minus, plus, opp; cbn; ring).
  apply (is_RInt_derive (mN a) (fun z => z * phi z)); intros x _; [apply mN_d|].
  apply (ex_derive_continuous (fun z => z * phi z)). eexists. apply (mult_d (fun z => z) phi); [apply (is_derive_id x)|apply phi_deriv].
Qed.
Lemma is_RInt_sq a b m : is_RInt (fun z => (z - m) ^ 2 * phi z) a b ((1 + m ^ 2) * mT a b - mB a b - 2 * m * mN a b).
Proof.
  pose (F := fun y => (1 + m ^ 2) * mT a y - mB a y - 2 * m * mN a y).
  replace ((1 + m ^ 2) * mT a b - mB a b - 2 * m * mN a b) with (minus (F b) (F a)) by (unfold F, mT, mB, mN, minus, plus, opp; cbn; ring).
  apply (is_RInt_derive F (fun z => (z - m) ^ 2 * phi z)); intros x _.
  - unfold F. evar_last.
    + apply (minus_d (fun y => (1 + m ^ 2) * mT a y - mB a y) (fun y => 2 * m * mN a y)).
      * apply (minus_d (fun y => (1 + m ^ 2) * mT a y) (mB a)); [apply (is_derive_scal (mT a) x (1 + m ^ 2)), mT_d|apply mB_d].
      * apply (is_derive_scal (mN a) x (2 * m)), mN_d.
    + ring.
  - apply (ex_derive_continuous (fun z => (z - m) ^ 2 * phi z)). eexists. apply (mult_d (fun z => (z - m) ^ 2) phi); [|apply phi_deriv].
    instantiate (1 := 2 * (x - m)). auto_derive; [exact I|ring].
Qed.
Lemma cmean_eq a b : cmean a b = mN a b / mT a b.
Proof. unfold cmean. rewrite (is_RInt_unique _ _ _ _ (is_RInt_phi a b)), (is_RInt_unique _ _ _ _ (is_RInt_zphi a b)). reflexivity. Qed.
Lemma cvar_eq a b : cvar a b = ((1 + (mN a b / mT a b) ^ 2) * mT a b - mB a b - 2 * (mN a b / mT a b) * mN a b) / mT a b.
Proof. unfold cvar. rewrite cmean_eq. rewrite (is_RInt_unique _ _ _ _ (is_RInt_phi a b)), (is_RInt_unique _ _ _ _ (is_RInt_sq a b _)). reflexivity. Qed.
Lemma mT_pos a b : a < b -> 0 < mT a b.
Proof. intros H. unfold mT. pose proof (Ncdf_strict a b H). lra. Qed.
Lemma draw_moments t eps : 0 < eps -> vdrawN t eps = cmean (- eps - t) (eps - t) /\ wdrawN t eps = 1 - cvar (- eps - t) (eps - t).
Proof.
  intros H. set (a := - eps - t). set (b := eps - t). assert (T : 0 < mT a b) by (apply mT_pos; unfold a, b; lra).
  assert (ED : drawN t eps = mT a b) by reflexivity. rewrite cvar_eq, cmean_eq.
  assert (EV : vdrawN t eps = mN a b / mT a b) by reflexivity. split; [auto|]. unfold wdrawN. rewrite EV, ED. fold b.
  replace ((eps + t) * phi (eps + t)) with (- a * phi a) by (unfold a; rewrite <- (phi_even (eps + t)); replace (- (eps + t)) with (- eps - t) by ring; ring).
  unfold mB. field. lra.
Qed.
Lemma lim_fin f l : (forall d, 0 < d -> exists M, forall y, M < y -> Rabs (f y - l) < d) -> is_lim f p_infty l.
Proof. intros H. apply is_lim_spec. intros [d Hd]. destruct (H d Hd) as (M & HM). exists M. exact HM. Qed.
Lemma decs d : 0 < d -> exists M, forall b, M < b -> 0 <= phi b <= d /\ 0 <= b * phi b <= d /\ 0 <= Ntl b <= d.
Proof.
  intros Hd. exists (1 + 8 / d). intros b Hb. assert (0 < 8 / d) by pos.
  assert (D8 : 8 / b <= d). { apply Rmult_le_reg_r with b; [lra|]. unfold Rdiv. rewrite Rmult_assoc, Rinv_l, Rmult_1_r by lra. apply Rlt_le, Rle_lt_trans with (d * (8 / d)); [right; field; lra|apply Rmult_lt_compat_l; lra]. }
  pose proof (phi_pos b) as P. pose proof (Ntl_pos b). assert (B0 : 0 < 1 / b) by pos.
  assert (P2 : b * phi b <= 8 / b).
  { unfold phi. pose proof PI_bounds. assert (S : 2 <= sqrt (2 * PI)) by (rewrite <- (sqrt_square 2) at 1 by lra; apply sqrt_le_1_alt; lra).
    assert (E : exp (- (b ^ 2 / 2)) <= 4 / (b * b)).
    { replace (- (b ^ 2 / 2)) with (- (b ^ 2 / 4) + - (b ^ 2 / 4)) by field. rewrite exp_plus. rewrite exp_Ropp. pose proof (exp_ineq1_le (b ^ 2 / 4)) as X.
      assert (Y : / exp (b ^ 2 / 4) <= / (b ^ 2 / 4)) by (apply Rinv_le_contravar; nra). assert (Y0 : 0 < / exp (b ^ 2 / 4)) by (apply Rinv_0_lt_compat, exp_pos).
      assert (Y1 : / exp (b ^ 2 / 4) <= 1) by (rewrite <- Rinv_1; apply Rinv_le_contravar; nra).
      apply Rle_trans with (/ (b ^ 2 / 4)); [nra|]. right. field. lra. }
    assert (E2 : exp (- (b ^ 2 / 2)) / sqrt (2 * PI) <= 4 / (b * b)).
    { apply Rmult_le_reg_r with (sqrt (2 * PI)); [lra|]. unfold Rdiv at 1. rewrite Rmult_assoc, Rinv_l, Rmult_1_r by lra.
      assert (0 < exp (- (b ^ 2 / 2))) by apply exp_pos. nra. }
    apply Rmult_le_compat_l with (r := b) in E2; [|lra]. apply Rle_trans with (1 := E2). replace (b * (4 / (b * b))) with (4 * (1 / b)) by (field; lra). unfold Rdiv in *. lra. }
  split; [split; [lra|nra]|]. split; [split; [nra|lra]|]. split; [lra|]. pose proof (mills_up b ltac:(lra)) as M.
  assert (phi b <= 1) by (pose proof (phi_le0 b); lra). apply Rle_trans with (1 := M). apply Rle_trans with (1 / b); [apply Rmult_le_compat_r; [apply Rlt_le; pos|lra]|unfold Rdiv in *; lra].
Qed.
Lemma lim_T a : is_lim (mT a) p_infty (Ntl a).
Proof. apply lim_fin. intros d Hd. destruct (decs (d / 2) ltac:(lra)) as (M & HM). exists M. intros y Hy. destruct (HM y Hy) as (_ & _ & H). unfold mT, Ntl in *. apply Rabs_def1; lra. Qed.
Lemma lim_N a : is_lim (mN a) p_infty (phi a).
Proof. apply lim_fin. intros d Hd. destruct (decs (d / 2) ltac:(lra)) as (M & HM). exists M. intros y Hy. destruct (HM y Hy) as (H & _ & _). unfold mN in *. apply Rabs_def1; lra. Qed.
Lemma lim_B a : is_lim (mB a) p_infty (- (a * phi a)).
Proof. apply lim_fin. intros d Hd. destruct (decs (d / 2) ltac:(lra)) as (M & HM). exists M. intros y Hy. destruct (HM y Hy) as (_ & H & _). unfold mB in *. apply Rabs_def1; lra. Qed.
Lemma lim_mult f g a b : is_lim f p_infty (Finite a) -> is_lim g p_infty (Finite b) -> is_lim (fun x => f x * g x) p_infty (Finite (a * b)).
Proof. intros F G. apply (is_lim_mult f g p_infty a b F G). exact I. Qed.
Lemma lim_minus f g a b : is_lim f p_infty (Finite a) -> is_lim g p_infty (Finite b) -> is_lim (fun x => f x - g x) p_infty (Finite (a - b)).
Proof. intros F G. apply (is_lim_minus' f g p_infty a b F G). Qed.
Lemma lim_plus f g a b : is_lim f p_infty (Finite a) -> is_lim g p_infty (Finite b) -> is_lim (fun x => f x + g x) p_infty (Finite (a + b)).
Proof. intros F G. apply (is_lim_plus' f g p_infty a b F G). Qed.
Lemma lim_div f g a b : b <> 0 -> is_lim f p_infty (Finite a) -> is_lim g p_infty (Finite b) -> is_lim (fun x => f x / g x) p_infty (Finite (a / b)).
Proof. intros B F G. apply (lim_mult f (fun x => / g x)); auto. apply (is_lim_inv g p_infty b G). congruence. Qed.
Lemma lim_const k : is_lim (fun _ => k) p_infty (Finite k). Proof. apply is_lim_const. Qed.
Lemma lim_mean a : is_lim (cmean a) p_infty (hz a).
Proof.
  apply (is_lim_ext (fun b => mN a b / mT a b)); [intros; symmetry; apply cmean_eq|]. apply lim_div; [apply Rgt_not_eq, Ntl_pos|apply lim_N|apply lim_T].
Qed.
Lemma lim_var a : is_lim (cvar a) p_infty (1 - hz a * (hz a - a)).
Proof.
  pose proof (Ntl_pos a) as P. assert (L : is_lim (fun b => mN a b / mT a b) p_infty (hz a)) by (apply lim_div; [lra|apply lim_N|apply lim_T]).
  apply (is_lim_ext (fun b => ((1 + (mN a b / mT a b) * (mN a b / mT a b)) * mT a b - mB a b - 2 * (mN a b / mT a b) * mN a b) / mT a b)).
  { intros b. rewrite cvar_eq. replace ((mN a b / mT a b) ^ 2) with (mN a b / mT a b * (mN a b / mT a b)) by ring. reflexivity. }
  replace (1 - hz a * (hz a - a)) with (((1 + hz a * hz a) * Ntl a - - (a * phi a) - 2 * hz a * phi a) / Ntl a) by (unfold hz; field; lra).
  apply lim_div; [lra| |apply lim_T]. apply lim_minus; [apply lim_minus; [|apply lim_B]|].
  - apply lim_mult; [|apply lim_T]. apply lim_plus; [apply lim_const|]. apply lim_mult; exact L.
  - apply lim_mult; [|apply lim_N]. apply lim_mult; [apply lim_const|exact L].
Qed.
Lemma vwinN_hz t eps : vwinN t eps = hz (eps - t).
Proof. unfold vwinN, hz. replace (eps - t) with (- (t - eps)) by ring. now rewrite phi_even, Ntl_neg. Qed.
Lemma wwinN_hz t eps : wwinN t eps = hz (eps - t) * (hz (eps - t) - (eps - t)).
Proof. unfold wwinN. rewrite vwinN_hz. ring. Qed.
Lemma win_moments t eps : is_lim (fun b => cmean (eps - t) b) p_infty (vwinN t eps) /\ is_lim (fun b => cvar (eps - t) b) p_infty (1 - wwinN t eps).
Proof. rewrite wwinN_hz, vwinN_hz. split; [apply lim_mean|apply lim_var]. Qed.

(** ** Ranges of the true corrections *)
Lemma mJ_ge0 a b : a <= b -> 0 <= mJ a b.
Proof. intros H. destruct (m_start a) as (_ & _ & _ & E). rewrite <- E. apply mJ_mono_r. lra. Qed.
Lemma hz_w a : 0 <= hz a * (hz a - a) <= 1.
Proof.
  pose proof (Ntl_pos a) as P. pose proof (hz_pos a) as H. split.
  - apply Rmult_le_pos; [lra|]. destruct (Rlt_dec 0 a) as [Q|Q]; [pose proof (hz_low a Q); lra|lra].
  - assert (L : is_lim (fun b => mT a b * mT a b - mN a b * mN a b - mB a b * mT a b) p_infty (Finite (Ntl a * Ntl a - phi a * phi a - - (a * phi a) * Ntl a))).
    { apply lim_minus; [apply lim_minus; apply lim_mult; [apply lim_T|apply lim_T|apply lim_N|apply lim_N]|apply lim_mult; [apply lim_B|apply lim_T]]. }
    assert (J : Rbar_le (Finite 0) (Finite (Ntl a * Ntl a - phi a * phi a - - (a * phi a) * Ntl a))).
    { apply (is_lim_le_loc (fun _ => 0) (fun b => mT a b * mT a b - mN a b * mN a b - mB a b * mT a b) p_infty); [|apply lim_const|exact L].
      exists a. intros y Hy. pose proof (mJ_ge0 a y ltac:(lra)) as Q. unfold mJ in Q. lra. }
    cbn in J. unfold hz. apply Rmult_le_reg_r with (Ntl a * Ntl a); [apply Rmult_lt_0_compat; auto|].
    replace (phi a / Ntl a * (phi a / Ntl a - a) * (Ntl a * Ntl a)) with (phi a * phi a - a * phi a * Ntl a) by (field; lra). lra.
Qed.

(** ** Decided games *)
Lemma exp_INR x n : exp (INR n * x) = exp x ^ n.
Proof. induction n; [cbn; rewrite Rmult_0_l; apply exp_0|]. rewrite S_INR. replace ((INR n + 1) * x) with (x + INR n * x) by ring. rewrite exp_plus, IHn. reflexivity. Qed.
Lemma exp340 : exp 340 <= 10 ^ 156.
Proof.
  assert (E : exp (1 / 16) <= 16 / 15).
  { pose proof (exp_ineq1_le (- (1 / 16))) as X. rewrite exp_Ropp in X. pose proof (exp_pos (1 / 16)) as P.
    apply Rmult_le_compat_l with (r := exp (1 / 16)) in X; [|lra]. rewrite Rinv_r in X by lra. lra. }
  assert (E35 : exp (1 / 16) ^ 35 <= 10).
  { apply Rle_trans with ((16 / 15) ^ 35); [apply pow_incr; pose proof (exp_pos (1 / 16)); lra|]. lra. }
  apply Rle_trans with (exp (INR 156 * (INR 35 * (1 / 16)))).
  - apply exp_mono. rewrite !INR_IZR_INZ. cbn. lra.
  - rewrite exp_INR. apply pow_incr. split; [apply Rlt_le, exp_pos|]. rewrite exp_INR. exact E35.
Qed.
Lemma phi_far y : y ^ 2 <= 680 -> 0.39 / 10 ^ 156 <= phi y.
Proof.
  intros H. rewrite kap_phi. pose proof kap_close as K. assert (P : 0 < 10 ^ 156) by (apply pow_lt; lra).
  assert (E : / 10 ^ 156 <= exp (- (y ^ 2 / 2))).
  { rewrite exp_Ropp. apply Rinv_le_contravar; [apply exp_pos|]. apply Rle_trans with (2 := exp340). apply exp_mono. lra. }
  assert (0 < / 10 ^ 156) by (apply Rinv_0_lt_compat; auto). unfold Rdiv at 1. apply Rmult_le_compat; lra.
Qed.
Lemma tiny_le : tiny <= 1 / 10 ^ 161.
Proof.
  unfold tiny. change 171%nat with (10 + 161)%nat. rewrite pow_add. assert (P : 0 < 10 ^ 161) by (apply pow_lt; lra).
  apply Rmult_le_reg_r with (10 ^ 161); auto. replace (1 / 10 ^ 161 * 10 ^ 161) with 1 by (field; lra).
  replace (2222758749 / (10 ^ 10 * 10 ^ 161) * 10 ^ 161) with (2222758749 / 10 ^ 10) by (field; lra). lra.
Qed.
Lemma far_tiny k : 0.0001 <= k -> tiny <= k * (0.39 / 10 ^ 156).
Proof.
  intros H. apply Rle_trans with (1 := tiny_le). change 161%nat with (5 + 156)%nat. rewrite pow_add. assert (P : 0 < 10 ^ 156) by (apply pow_lt; lra).
  apply Rmult_le_reg_r with (10 ^ 156); auto. replace (1 / (10 ^ 5 * 10 ^ 156) * 10 ^ 156) with (1 / 10 ^ 5) by (field; lra).
  replace (k * (0.39 / 10 ^ 156) * 10 ^ 156) with (k * 0.39) by (field; lra). lra.
Qed.
Lemma Phi_not_tiny x : - 26 <= x -> tiny <= Phi x.
Proof.
  intros H. pose proof (Phi_rel x) as R. apply Rabs_le_between in R.
  assert (N : tiny * 1.1 <= Ncdf x); [|pose proof tiny_small; lra].
  apply Rle_trans with (Ncdf (- 26)); [|apply Ncdf_mono; auto]. replace (Ncdf (-26)) with (Ntl 26) by (rewrite <- Ntl_neg; f_equal; lra).
  pose proof (mills_low 26 ltac:(lra)) as M. pose proof (phi_far 26 ltac:(lra)) as F. pose proof (far_tiny 0.0001 ltac:(lra)).
  assert (0.038 * phi 26 <= Ntl 26) by (pose proof (phi_pos 26); lra).
  assert (0 < 0.39 / 10 ^ 156) by (apply Rdiv_lt_0_compat; [lra|apply pow_lt; lra]). lra.
Qed.
Lemma rel_inv D T d : 0 < T -> 0 <= d <= 1 / 1000 -> Rabs (D - T) <= d * T -> 0 < D /\ Rabs (T / D - 1) <= 1.002 * d.
Proof.
  intros HT Hd H. apply Rabs_le_between in H. assert (DP : 0 < D) by nra. split; auto.
  apply Rabs_le. split; apply Rmult_le_reg_r with D; auto; replace ((T / D - 1) * D) with (T - D) by (field; lra); nra.
Qed.
Lemma win_core d x : let y := - x in 0 <= d <= 1 / 1000 -> Rabs (Phi x - Ncdf x) <= d * Ncdf x ->
  let v := phi x / Phi x in Rabs (v - hz y) <= 1.002 * d * hz y /\ Rabs (v * (v + x) - hz y * (hz y - y)) <= 1.002 * d * (1 + 1.002 * hz y ^ 2).
Proof.
  intros y Hd H v. pose proof (Ncdf_range x) as NR. destruct (rel_inv (Phi x) (Ncdf x) d ltac:(lra) Hd H) as (P & Q).
  assert (EH : hz y = phi x / Ncdf x) by (unfold hz, y; now rewrite phi_even, Ntl_neg).
  pose proof (hz_pos y) as HP. set (r := Ncdf x / Phi x) in *. assert (EV : v = hz y * r) by (unfold v, r; rewrite EH; field; lra).
  apply Rabs_le_between in Q. pose proof (hz_w y) as W. set (h := hz y) in *.
  assert (A : Rabs (v - h) <= 1.002 * d * h). { rewrite EV. replace (h * r - h) with (h * (r - 1)) by ring. rewrite Rabs_mult, (Rabs_pos_eq h) by lra. rewrite Rmult_comm. apply Rmult_le_compat_r; [lra|]. apply Rabs_le; lra. }
  split; [exact A|].
  assert (HY : 0 <= h - y). { destruct (Rle_dec 0 (h - y)) as [|N]; auto. exfalso. assert (0 < h * (y - h)) by (apply Rmult_lt_0_compat; lra). lra. }
  replace (v * (v + x) - h * (h - y)) with ((v - h) * ((h - y) + v)) by (unfold y; ring). rewrite Rabs_mult. rewrite (Rabs_pos_eq (h - y + v)) by (rewrite EV; nra).
  apply Rle_trans with (1.002 * d * h * (h - y + v)); [apply Rmult_le_compat_r; [rewrite EV; nra|exact A]|].
  rewrite !Rmult_assoc. apply Rmult_le_compat_l; [lra|]. apply Rmult_le_compat_l; [lra|]. rewrite EV.
  replace (h * (h - y + h * r)) with (h * (h - y) + h ^ 2 * r) by ring. assert (h ^ 2 * r <= h ^ 2 * 1.002) by (apply Rmult_le_compat_l; nra). lra.
Qed.
Lemma win_close x : - 26 <= x -> let v := phi x / Phi x in
  Rabs (v - hz (- x)) <= 0.0000104 * hz (- x) /\ Rabs (v * (v + x) - hz (- x) * (hz (- x) - (- x))) <= 0.0002.
Proof.
  intros H v. pose proof (hz_pos (- x)) as HP. split.
  - destruct (win_core 0.0000103 x ltac:(lra) (Phi_rel x)) as (A & _). fold v in A. nra.
  - destruct (Rle_dec x (- 2)) as [L|L].
    + assert (R : Rabs (Phi x - Ncdf x) <= 0.0000002 * Ncdf x).
      { assert (E : Phi x = 1 - Phip (- x)) by (rewrite Phi_neg by lra; unfold Phip; field). rewrite E.
        pose proof (tail_tight (- x) ltac:(lra)) as C. rewrite Ncdf_neg in C. apply Rabs_le. lra. }
      destruct (win_core 0.0000002 x ltac:(lra) R) as (_ & B). fold v in B. apply Rle_trans with (1 := B).
      pose proof (hz_up (- x) ltac:(lra)) as U. set (h := hz (- x)) in *. assert (h <= - x + 1 / 2).
      { apply Rle_trans with (1 := U). apply Rplus_le_compat_l. unfold Rdiv. apply Rmult_le_compat_l; [lra|]. apply Rinv_le_contravar; lra. }
      assert (h ^ 2 <= 26.5 ^ 2) by (apply pow_incr; lra). lra.
    + destruct (win_core 0.0000103 x ltac:(lra) (Phi_rel x)) as (_ & B). fold v in B. apply Rle_trans with (1 := B).
      assert (hz (- x) <= 3). { destruct (Rle_dec x 0); [pose proof (hz_up1 (- x) ltac:(lra)); lra|pose proof (hz_neg (- x) ltac:(lra)); lra]. }
      assert (hz (- x) ^ 2 <= 3 ^ 2) by (apply pow_incr; lra). lra.
Qed.
Lemma far_close y : 26 <= y -> Rabs (y - hz y) <= 0.0015 * hz y /\ Rabs (1 - hz y * (hz y - y)) <= 0.0015.
Proof.
  intros H. pose proof (hz_low y ltac:(lra)) as L. pose proof (hz_up y ltac:(lra)) as U. pose proof (hz_low2 y ltac:(lra)) as L2. pose proof (hz_w y) as W.
  assert (I : 1 / y <= 0.0015 * y). { apply Rmult_le_reg_r with y; [lra|]. replace (1 / y * y) with 1 by (field; lra). nra. }
  split; [apply Rabs_le; lra|]. apply Rabs_le. split; [lra|].
  set (k := / (y ^ 2 + 2)). assert (K0 : 0 < k) by (apply Rinv_0_lt_compat; nra). assert (K : k <= 1 / 678) by (unfold k, Rdiv; rewrite Rmult_1_l; apply Rinv_le_contravar; nra).
  assert (EK : y * y * k = 1 - 2 * k) by (unfold k; field; nra). unfold Rdiv in L2. fold k in L2.
  assert (Q : (y + y * k) * (y * k) <= hz y * (hz y - y)) by (apply Rmult_le_compat; nra).
  replace ((y + y * k) * (y * k)) with (y * y * k * (1 + k)) in Q by ring. rewrite EK in Q. nra.
Qed.
Lemma vwin_near t eps : within (if Rle_dec (-26) (t - eps) then 0.0000104 else 0.0015) (vwin t eps) (vwinN t eps).
Proof.
  unfold within. rewrite vwinN_hz, (Rabs_pos_eq (hz _)) by apply Rlt_le, hz_pos. unfold vwin. destruct (Rlt_dec (Phi (t - eps)) tiny) as [L|L].
  - destruct (Rle_dec (-26) (t - eps)) as [Q|Q]; [pose proof (Phi_not_tiny _ Q); lra|]. replace (- t + eps) with (eps - t) by ring. apply far_close. lra.
  - destruct (Rle_dec (-26) (t - eps)) as [Q|Q].
    + destruct (win_close _ Q) as (A & _). cbv zeta in A. replace (- (t - eps)) with (eps - t) in A by ring. exact A.
    + destruct (win_core 0.0000103 (t - eps) ltac:(lra) (Phi_rel _)) as (A & _). cbv zeta in A. replace (- (t - eps)) with (eps - t) in A by ring. pose proof (hz_pos (eps - t)). nra.
Qed.
Lemma wwin_near t eps : t < 0 \/ -26 <= t - eps -> Rabs (wwin t eps - wwinN t eps) <= if Rle_dec (-26) (t - eps) then 0.0002 else 0.0015.
Proof.
  intros HT. rewrite wwinN_hz. unfold wwin, vwin. destruct (Rlt_dec (Phi (t - eps)) tiny) as [L|L].
  - destruct (Rle_dec (-26) (t - eps)) as [Q|Q]; [pose proof (Phi_not_tiny _ Q); lra|]. destruct (Rlt_dec t 0); [|lra]. apply far_close. lra.
  - replace (phi (t - eps) / Phi (t - eps) * (phi (t - eps) / Phi (t - eps) + t - eps)) with (phi (t - eps) / Phi (t - eps) * (phi (t - eps) / Phi (t - eps) + (t - eps))) by ring.
    destruct (Rle_dec (-26) (t - eps)) as [Q|Q].
    + destruct (win_close _ Q) as (_ & A). cbv zeta in A. replace (- (t - eps)) with (eps - t) in A by ring. exact A.
    + (* the code does not use the fallback although the lead is below -26 *)
      assert (X : t - eps < 0) by lra. pose proof (not_tiny_u _ X ltac:(lra)) as [U _].
      assert (Y : - (t - eps) <= 283 / 10).
      { pose proof sqrt2_pos as S2. assert (S3 : sqrt 2 <= 1.415) by (rewrite <- (sqrt_square 1.415) by lra; apply sqrt_le_1_alt; lra). set (a := - (t - eps)) in *.
        assert (Y0 : 0 <= a / sqrt 2) by (unfold Rdiv; apply Rmult_le_pos; [unfold a; lra|apply Rlt_le, Rinv_0_lt_compat; auto]).
        assert (Y : a / sqrt 2 <= 20).
        { assert (1 + a / sqrt 2 / 2 <= 11); [|lra]. rewrite <- (Rinv_inv (1 + a / sqrt 2 / 2)), <- (Rinv_inv 11). apply Rinv_le_contravar; lra. }
        replace a with (a / sqrt 2 * sqrt 2) by (field; lra). apply Rle_trans with (20 * 1.415); [apply Rmult_le_compat; lra|lra]. }
      assert (R : Rabs (Phi (t - eps) - Ncdf (t - eps)) <= 0.0000002 * Ncdf (t - eps)).
      { assert (E : Phi (t - eps) = 1 - Phip (- (t - eps))) by (rewrite Phi_neg by lra; unfold Phip; field). rewrite E.
        pose proof (tail_tight (- (t - eps)) ltac:(lra)) as C. rewrite Ncdf_neg in C. apply Rabs_le. lra. }
      destruct (win_core 0.0000002 (t - eps) ltac:(lra) R) as (_ & B). cbv zeta in B. replace (- (t - eps)) with (eps - t) in B, Y by ring. apply Rle_trans with (1 := B).
      pose proof (hz_up (eps - t) ltac:(lra)) as Z. pose proof (hz_pos (eps - t)). set (h := hz (eps - t)) in *. assert (h <= (eps - t) + 1 / 2).
      { apply Rle_trans with (1 := Z). apply Rplus_le_compat_l. unfold Rdiv. apply Rmult_le_compat_l; [lra|]. apply Rinv_le_contravar; lra. }
      assert (h ^ 2 <= 28.8 ^ 2) by (apply pow_incr; lra). lra.
Qed.

(** ** Draws *)
Lemma T_ge a h b m : 0 <= h -> a + h <= b -> 0 <= m -> (forall c, a <= c <= a + h -> m <= phi c) -> m * h <= mT a b.
Proof.
  intros Hh Hb Hm H. apply Rle_trans with (mT a (a + h)); [|unfold mT; pose proof (Ncdf_mono (a + h) b Hb); lra].
  destruct (J_const a (a + h) m) as [_ _]; [lra|auto|intros; apply H; lra|].
  enough ((fun y => m * (y - a)) (a + h) - (fun y => m * (y - a)) a <= mT a (a + h) - mT a a).
  { cbv beta in *. destruct (m_start a) as (E & _). rewrite E in *. lra. }
  apply (mono_diff (fun y => m * (y - a)) (mT a) (fun _ => m) phi).
  - intros c _. auto_derive; [exact I|ring].
  - intros c _. apply mT_d.
  - intros c Hc. apply H. lra.
  - lra.
Qed.
(** int (z - a) phi and int (z - a)^2 phi over [a, b] *)
Lemma mean_a a b : 0 < a -> a <= b -> a * (mN a b - a * mT a b) <= mT a b.
Proof.
  intros Ha Hb. pose (f := fun y => mT a y - a * (mN a y - a * mT a y) - (y - a) * phi y).
  assert (F : f a <= f b).
  { apply (mono_of_deriv f (fun y => (y - a) ^ 2 * phi y)); [|intros c _; pose proof (phi_pos c); apply Rmult_le_pos; [apply pow2_ge_0|lra]|auto].
    intros c _. unfold f. evar_last.
    - apply (minus_d (fun y => mT a y - a * (mN a y - a * mT a y)) (fun y => (y - a) * phi y)).
      + apply (minus_d (mT a) (fun y => a * (mN a y - a * mT a y))); [apply mT_d|]. apply (is_derive_scal (fun y => mN a y - a * mT a y) c a).
        apply (minus_d (mN a) (fun y => a * mT a y)); [apply mN_d|apply (is_derive_scal (mT a) c a), mT_d].
      + apply (mult_d (fun y => y - a) phi); [|apply phi_deriv]. instantiate (1 := 1). auto_derive; [exact I|ring].
    - ring. }
  unfold f in F. replace (mT a a - a * (mN a a - a * mT a a) - (a - a) * phi a) with 0 in F by (unfold mT, mN; ring).
  pose proof (phi_pos b). assert (0 <= (b - a) * phi b) by (apply Rmult_le_pos; lra). lra.
Qed.
Lemma sq_a a b : 0 < a -> a <= b -> a * ((1 + a ^ 2) * mT a b - mB a b - 2 * a * mN a b) <= 2 * (mN a b - a * mT a b).
Proof.
  intros Ha Hb. pose (f := fun y => 2 * (mN a y - a * mT a y) - a * ((1 + a ^ 2) * mT a y - mB a y - 2 * a * mN a y) - (y - a) ^ 2 * phi y).
  assert (F : f a <= f b).
  { apply (mono_of_deriv f (fun y => (y - a) ^ 3 * phi y)); [|intros c Hc; pose proof (phi_pos c); apply Rmult_le_pos; [apply pow_le; lra|lra]|auto].
    intros c _. unfold f. evar_last.
    - apply (minus_d (fun y => 2 * (mN a y - a * mT a y) - a * ((1 + a ^ 2) * mT a y - mB a y - 2 * a * mN a y)) (fun y => (y - a) ^ 2 * phi y)).
      + apply (minus_d (fun y => 2 * (mN a y - a * mT a y)) (fun y => a * ((1 + a ^ 2) * mT a y - mB a y - 2 * a * mN a y))).
        * apply (is_derive_scal (fun y => mN a y - a * mT a y) c 2). apply (minus_d (mN a) (fun y => a * mT a y)); [apply mN_d|apply (is_derive_scal (mT a) c a), mT_d].
        * apply (is_derive_scal (fun y => (1 + a ^ 2) * mT a y - mB a y - 2 * a * mN a y) c a).
          apply (minus_d (fun y => (1 + a ^ 2) * mT a y - mB a y) (fun y => 2 * a * mN a y)); [|apply (is_derive_scal (mN a) c (2 * a)), mN_d].
          apply (minus_d (fun y => (1 + a ^ 2) * mT a y) (mB a)); [apply (is_derive_scal (mT a) c (1 + a ^ 2)), mT_d|apply mB_d].
      + apply (mult_d (fun y => (y - a) ^ 2) phi); [|apply phi_deriv]. instantiate (1 := 2 * (c - a)). auto_derive; [exact I|ring].
    - ring. }
  unfold f in F. replace (2 * (mN a a - a * mT a a) - a * ((1 + a ^ 2) * mT a a - mB a a - 2 * a * mN a a) - (a - a) ^ 2 * phi a) with 0 in F by (unfold mT, mN, mB; ring).
  pose proof (phi_pos b). assert (0 <= (b - a) ^ 2 * phi b) by (apply Rmult_le_pos; nra). lra.
Qed.
Lemma mean_1 a b : 0 < a -> a <= b -> mN a b <= (1 + a) * mT a b.
Proof.
  intros Ha Hb. destruct (Rle_dec b (a + 1)) as [L|L].
  - assert (F : (fun y => (1 + a) * mT a y - mN a y) a <= (fun y => (1 + a) * mT a y - mN a y) b).
    { apply (mono_of_deriv (fun y => (1 + a) * mT a y - mN a y) (fun y => (1 + a) * phi y - y * phi y)); [|intros c Hc; pose proof (phi_pos c); nra|auto].
      intros c _. apply (minus_d (fun y => (1 + a) * mT a y) (mN a)); [apply (is_derive_scal (mT a) c (1 + a)), mT_d|apply mN_d]. }
    cbv beta in F. replace ((1 + a) * mT a a - mN a a) with 0 in F by (unfold mT, mN; ring). lra.
  - pose proof (mills_low1 a Ha) as M1. pose proof (mills_up b ltac:(lra)) as M2. pose proof (phi_pos b) as PB.
    replace (mT a b) with (Ntl a - Ntl b) by (unfold Ntl, mT; ring). unfold mN.
    assert (X1 : phi a <= (1 + a) * Ntl a). { apply Rmult_le_compat_l with (r := 1 + a) in M1; [|lra]. replace ((1 + a) * (phi a / (1 + a))) with (phi a) in M1 by (field; lra). lra. }
    assert (X2 : b * Ntl b <= phi b). { apply Rmult_le_compat_l with (r := b) in M2; [|lra]. replace (b * (phi b / b)) with (phi b) in M2 by (field; lra). lra. }
    pose proof (Ntl_pos b). nra.
Qed.
(** 0 <= N^2 + B T <= T^2 *)
Lemma w_range a b : a <= b -> 0 <= mN a b ^ 2 + mB a b * mT a b <= mT a b ^ 2.
Proof.
  intros H. split.
  - assert (I1 : mN a b ^ 2 + mB a b * mT a b = phi a * (mN a b - a * mT a b) + phi b * (b * mT a b - mN a b)) by (unfold mN, mB; ring). rewrite I1.
    pose proof (mills a b H). pose proof (mS_ge0 a b H) as S. unfold mS in S. pose proof (phi_pos a). pose proof (phi_pos b).
    assert (0 <= phi a * (mN a b - a * mT a b)) by (apply Rmult_le_pos; lra). assert (0 <= phi b * (b * mT a b - mN a b)) by (apply Rmult_le_pos; lra). lra.
  - pose proof (mJ_ge0 a b H) as J. unfold mJ in J. lra.
Qed.
Lemma drawnorm_case t e : 1 / 30 <= e -> 0 <= t -> let a := t - e in let b := e + t in let T := mT a b in
  0 < T /\ (2 <= a -> Rabs (drawnorm t e - T) <= 0.0000002 * T) /\ (0 <= a -> Rabs (drawnorm t e - T) <= 0.00001 * T) /\
  (a < 0 -> 0.013 <= T /\ Rabs (drawnorm t e - T) <= 0.0000178 * T).
Proof.
  intros He Ht a b T. assert (PN : Phi (- e - t) = 1 - Phip b).
  { unfold b. rewrite Phi_neg by lra. unfold Phip. replace (- (- e - t)) with (e + t) by ring. field. }
  assert (TP : 0 < T) by (apply mT_pos; unfold a, b; lra). split; [auto|].
  assert (ED : 0 <= a -> drawnorm t e = Phip b - Phip a).
  { intros A. unfold drawnorm. rewrite (Rabs_pos_eq t Ht), PN, Phi_neg by (unfold a in A; lra). unfold Phip, a. replace (- (e - t)) with (t - e) by ring. field. }
  split; [|split].
  - intros A. rewrite ED by lra. pose proof (Phip_tight a b ltac:(unfold a, b in *; lra)) as C. fold (mT a b) in C. fold T in C. apply Rabs_le. lra.
  - intros A. rewrite ED by lra. pose proof (Phip_close a b ltac:(unfold a, b in *; lra)) as C. fold (mT a b) in C. fold T in C. apply Rabs_le. lra.
  - intros A. assert (TL : 0.013 <= T).
    { apply Rle_trans with (mT 0 b); [|unfold T, mT; pose proof (Ncdf_mono a 0 ltac:(lra)); lra].
      apply Rle_trans with (0.39 * (1 / 30)); [lra|]. apply T_ge; [lra|unfold b; lra|lra|]. intros c Hc. 
      apply Rle_trans with (phi (1 / 30)); [|apply phi_dec; lra]. rewrite (phi_ratio 0 (1 / 30)). pose proof phi0_close as P0.
      pose proof (exp_ineq1_le (- ((1 / 30 - 0) * (1 / 30 + 0) / 2))) as X. nra. }
    split; [auto|].
    assert (EA : drawnorm t e = Phip (- a) + Phip b - 1).
    { unfold drawnorm. rewrite (Rabs_pos_eq t Ht), PN. rewrite Phi_pos by (unfold a in A; lra). unfold Phip, a. replace (- (t - e)) with (e - t) by ring. field. }
    pose proof (Phip_close 0 (- a) ltac:(lra)) as C1. pose proof (Phip_close 0 b ltac:(unfold b; lra)) as C2. rewrite Ncdf_0 in C1, C2. rewrite Ncdf_neg in C1.
    assert (P0 : -0.0000001 < 2 * Phip 0 - 1 < 0). { unfold Phip. replace (0 / sqrt 2) with 0 by (unfold Rdiv; ring). pose proof nr_pos_0. lra. }
    rewrite EA. unfold T, mT in *. apply Rabs_le. lra.
Qed.
Lemma draw_not_tiny t e : 1 / 30 <= e -> 0 <= t -> t - e <= 26 -> tiny <= drawnorm t e.
Proof.
  intros He Ht H. destruct (drawnorm_case t e He Ht) as (TP & _ & A & B). pose proof tiny_small as TS. destruct (Rle_dec 0 (t - e)) as [P|P].
  - specialize (A P). apply Rabs_le_between in A.
    assert (TL : 0.39 / 10 ^ 156 * (1 / 15) <= mT (t - e) (e + t)).
    { apply T_ge; [lra|lra|apply Rlt_le, Rdiv_lt_0_compat; [lra|apply pow_lt; lra]|]. intros c Hc. apply phi_far. apply Rle_trans with ((26 + 1 / 15) ^ 2); [apply pow_incr; lra|lra]. }
    pose proof (far_tiny 0.06 ltac:(lra)) as F. assert (0 < 0.39 / 10 ^ 156) by (apply Rdiv_lt_0_compat; [lra|apply pow_lt; lra]). lra.
  - destruct (B ltac:(lra)) as (B1 & B2). apply Rabs_le_between in B2. pose proof tiny_le as TL. change 161%nat with (5 + 156)%nat in TL. rewrite pow_add in TL.
    assert (1 <= 10 ^ 156) by (apply pow_R1_Rle; lra). assert (1 / (10 ^ 5 * 10 ^ 156) <= 1 / 10 ^ 5).
    { unfold Rdiv. rewrite !Rmult_1_l. apply Rinv_le_contravar; [apply pow_lt; lra|]. assert (0 < 10 ^ 5) by (apply pow_lt; lra). nra. }
    lra.
Qed.
Lemma draw_rel N B T D d : 0 < T -> 0 <= N -> 0 <= N ^ 2 + B * T <= T ^ 2 -> 0 <= d <= 1 / 1000 -> Rabs (D - T) <= d * T ->
  0 < D /\ Rabs (N / D - N / T) <= 1.002 * d * (N / T) /\
  Rabs ((N / D) ^ 2 + B / D - ((N / T) ^ 2 + B / T)) <= 1.002 * d * (1 + 3.002 * (N / T) ^ 2).
Proof.
  intros HT HN HW Hd H. destruct (rel_inv D T d HT Hd H) as (DP & Q). split; [auto|]. apply Rabs_le_between in Q. set (r := T / D) in *.
  set (v := N / T) in *. assert (V0 : 0 <= v) by (unfold v, Rdiv; apply Rmult_le_pos; [auto|apply Rlt_le, Rinv_0_lt_compat; auto]).
  assert (EV : N / D = v * r) by (unfold v, r; field; lra). set (k := B / T) in *. assert (EK : B / D = k * r) by (unfold k, r; field; lra).
  assert (W : 0 <= v ^ 2 + k <= 1).
  { assert (E : v ^ 2 + k = (N ^ 2 + B * T) / T ^ 2) by (unfold v, k; field; lra). rewrite E. assert (0 < T ^ 2) by (apply pow_lt; auto). split.
    - unfold Rdiv; apply Rmult_le_pos; [lra|apply Rlt_le, Rinv_0_lt_compat; auto].
    - apply Rmult_le_reg_r with (T ^ 2); auto. unfold Rdiv. rewrite Rmult_assoc, Rinv_l by lra. lra. }
  rewrite EV, EK. split.
  - replace (v * r - v) with (v * (r - 1)) by ring. rewrite Rabs_mult, (Rabs_pos_eq v V0), (Rmult_comm v). apply Rmult_le_compat_r; [auto|]. apply Rabs_le; lra.
  - replace ((v * r) ^ 2 + k * r - (v ^ 2 + k)) with (v ^ 2 * ((r - 1) * (r + 1)) + k * (r - 1)) by ring.
    eapply Rle_trans; [apply Rabs_triang|]. rewrite !Rabs_mult. assert (RA : Rabs (r - 1) <= 1.002 * d) by (apply Rabs_le; lra).
    assert (V2 : 0 <= v ^ 2) by nra. rewrite (Rabs_pos_eq (v ^ 2)) by auto. assert (R1 : Rabs (r + 1) <= 2.002) by (apply Rabs_le; lra).
    assert (KA : Rabs k <= 1 + v ^ 2) by (apply Rabs_le; lra). pose proof (Rabs_pos (r - 1)). pose proof (Rabs_pos k). pose proof (Rabs_pos (r + 1)).
    assert (S1 : Rabs (r - 1) * Rabs (r + 1) <= 1.002 * d * 2.002) by (apply Rmult_le_compat; lra).
    assert (S2 : v ^ 2 * (Rabs (r - 1) * Rabs (r + 1)) <= v ^ 2 * (1.002 * d * 2.002)) by (apply Rmult_le_compat_l; auto).
    assert (S3 : Rabs k * Rabs (r - 1) <= (1 + v ^ 2) * (1.002 * d)) by (apply Rmult_le_compat; lra).
    lra.
Qed.
(** for a nonnegative advantage: v = -N/T in both *)
Lemma draw_near_pos t e : 1 / 30 <= e -> 0 <= t -> let a := t - e in let b := e + t in
  let N := mN a b in let B := mB a b in let T := mT a b in let D := drawnorm t e in
  0 < T /\ 0 <= N /\
  (tiny <= D -> Rabs (N / D - N / T) <= 0.000018 * (N / T) /\ Rabs ((N / D) ^ 2 + B / D - ((N / T) ^ 2 + B / T)) <= 0.0005) /\
  (D < tiny -> 26 < a /\ Rabs (a - N / T) <= 0.0015 * (N / T) /\ Rabs (1 - ((N / T) ^ 2 + B / T)) <= 0.003).
Proof.
  intros He Ht a b N B T D. destruct (drawnorm_case t e He Ht) as (TP & C2 & C1 & C0). fold a b in TP, C2, C1, C0. fold T D in TP, C2, C1, C0.
  assert (AB : a <= b) by (unfold a, b; lra). split; [auto|].
  assert (N0 : 0 <= N).
  { unfold N, mN, a, b. assert (phi (e + t) <= phi (t - e)); [|lra]. destruct (Rle_dec 0 (t - e)); [apply phi_dec; lra|]. rewrite <- (phi_even (t - e)). apply phi_dec. lra. }
  split; [auto|]. pose proof (w_range a b AB) as W. fold N B T in W.
  assert (VT : forall k, N <= k * T -> N / T <= k). { intros k Hk. apply Rmult_le_reg_r with T; auto. unfold Rdiv. rewrite Rmult_assoc, Rinv_l by lra. lra. }
  assert (V0 : 0 <= N / T) by (unfold Rdiv; apply Rmult_le_pos; [auto|apply Rlt_le, Rinv_0_lt_compat; auto]). split.
  - intros HD. assert (A28 : a <= 283 / 10).
    { destruct (Rle_dec a 0) as [|NZ]; [lra|]. assert (X : tiny <= Phi (- a)).
      { apply Rle_trans with (1 := HD). unfold D, drawnorm. rewrite Rabs_pos_eq by auto. unfold a. replace (- (t - e)) with (e - t) by ring.
        assert (0 < Phi (- e - t)); [|lra]. rewrite Phi_neg by lra. pose proof sqrt2_pos as S2. assert (0 <= - (- e - t) / sqrt 2) by (unfold Rdiv; apply Rmult_le_pos; [lra|apply Rlt_le, Rinv_0_lt_compat; auto]).
        pose proof (nr_pos_gt0 (- (- e - t) / sqrt 2) H). lra. }
      pose proof (not_tiny_u (- a) ltac:(lra) X) as [U _]. replace (- - a) with a in U by ring. pose proof sqrt2_pos as S2.
      assert (S3 : sqrt 2 <= 1.415) by (rewrite <- (sqrt_square 1.415) by lra; apply sqrt_le_1_alt; lra).
      assert (Y0 : 0 <= a / sqrt 2) by (unfold Rdiv; apply Rmult_le_pos; [lra|apply Rlt_le, Rinv_0_lt_compat; auto]).
      assert (Y : a / sqrt 2 <= 20).
      { assert (1 + a / sqrt 2 / 2 <= 11); [|lra]. rewrite <- (Rinv_inv (1 + a / sqrt 2 / 2)), <- (Rinv_inv 11).
        apply Rinv_le_contravar; lra. }
      replace a with (a / sqrt 2 * sqrt 2) by (field; lra). apply Rle_trans with (20 * 1.415); [apply Rmult_le_compat; lra|lra]. }
    destruct (Rle_dec 2 a) as [A2|A2]; [|destruct (Rle_dec 0 a) as [A0|A0]].
    + destruct (draw_rel N B T D 0.0000002 TP N0 W ltac:(lra) (C2 A2)) as (_ & V & Q). split; [lra|]. apply Rle_trans with (1 := Q).
      assert (U : N / T <= a + 1 / a).
      { apply VT. pose proof (mean_a a b ltac:(lra) AB) as M. fold N T in M. apply Rmult_le_reg_l with a; [lra|]. replace (a * ((a + 1 / a) * T)) with (a * a * T + T) by (field; lra). lra. }
      assert (I : 1 / a <= 1 / 2) by (unfold Rdiv; rewrite !Rmult_1_l; apply Rinv_le_contravar; lra).
      assert ((N / T) ^ 2 <= 28.8 ^ 2) by (apply pow_incr; lra). lra.
    + assert (U : N / T <= 3).
      { destruct A0 as [A0|A0]; [apply VT; pose proof (mean_1 a b A0 AB) as M; fold N T in M; nra|]. apply VT.
        rewrite <- A0 in *. assert (N <= 1 * T); [|lra]. assert (B0 : 0 <= B) by (unfold B, mB; pose proof (phi_pos b); rewrite <- ?A0; nra). assert (0 <= B * T) by (apply Rmult_le_pos; lra). assert (N ^ 2 <= T ^ 2) by lra. nra. }
      destruct (draw_rel N B T D 0.00001 TP N0 W ltac:(lra) (C1 A0)) as (_ & V & Q). split; [lra|]. apply Rle_trans with (1 := Q).
      assert ((N / T) ^ 2 <= 3 ^ 2) by (apply pow_incr; lra). lra.
    + assert (U : N / T <= 1).
      { apply VT. assert (B0 : 0 <= B). { unfold B, mB. pose proof (phi_pos b). pose proof (phi_pos a). assert (0 <= b * phi b) by (apply Rmult_le_pos; [unfold b|]; lra). nra. }
        assert (0 <= B * T) by (apply Rmult_le_pos; lra). assert (N ^ 2 <= T ^ 2) by lra. nra. }
      destruct (C0 ltac:(lra)) as (_ & C). destruct (draw_rel N B T D 0.0000178 TP N0 W ltac:(lra) C) as (_ & V & Q). split; [lra|]. apply Rle_trans with (1 := Q).
      assert ((N / T) ^ 2 <= 1 ^ 2) by (apply pow_incr; lra). lra.
  - intros HD. assert (A26 : 26 < a). { apply Rnot_le_lt. intros L. pose proof (draw_not_tiny t e He Ht L) as X. fold D in X. lra. }
    split; [auto|]. pose proof (mean_a a b ltac:(lra) AB) as M. pose proof (mills a b AB) as ML. pose proof (sq_a a b ltac:(lra) AB) as S. fold N B T in M, ML, S.
    set (v := N / T) in *. assert (EN : N = v * T) by (unfold v; field; lra).
    assert (VL : a <= v) by (apply Rmult_le_reg_r with T; lra).
    assert (VU : a * (v - a) <= 1) by (apply Rmult_le_reg_r with T; [auto|]; rewrite EN in M; lra).
    split; [apply Rabs_le; nra|].
    assert (E : v ^ 2 + B / T = (N ^ 2 + B * T) / T ^ 2) by (unfold v; field; lra).
    assert (W1 : v ^ 2 + B / T <= 1). { rewrite E. apply Rmult_le_reg_r with (T ^ 2); [apply pow_lt; auto|]. unfold Rdiv. rewrite Rmult_assoc, Rinv_l by (apply Rgt_not_eq, pow_lt; auto). lra. }
    apply Rabs_le. split; [lra|]. set (k := B / T) in *. assert (EB : B = k * T) by (unfold k; field; lra). rewrite EN, EB in S.
    assert (S2 : a * (1 + a ^ 2 - k - 2 * a * v) <= 2 * (v - a)) by (apply Rmult_le_reg_r with T; [auto|]; lra).
    assert (S3 : 1 + a ^ 2 - k - 2 * a * v = 1 - (v ^ 2 + k) + (v - a) ^ 2) by ring. rewrite S3 in S2. set (q := 1 - (v ^ 2 + k)) in *.
    assert (S4 : a * q <= 2 * (v - a)) by (assert (0 <= a * (v - a) ^ 2) by (apply Rmult_le_pos; [lra|nra]); lra). nra.
Qed.
Lemma draw_sides t e : let r := Rabs t in let a := r - e in let b := e + r in let s := if Rlt_dec t 0 then 1 else -1 in
  drawN t e = mT a b /\ phi (- e - t) - phi (e - t) = s * mN a b /\ (e - t) * phi (e - t) + (e + t) * phi (e + t) = mB a b /\ drawnorm r e = drawnorm t e.
Proof.
  intros r a b s. assert (ED : drawnorm r e = drawnorm t e) by (unfold drawnorm, r; now rewrite Rabs_Rabsolu). unfold s, drawN, a, b, r, mT, mN, mB in *.
  destruct (Rlt_dec t 0) as [L|L].
  - rewrite Rabs_left in * by lra. replace (- e - t) with (- t - e) by ring. replace (e + - t) with (e - t) by ring.
    split; [reflexivity|]. split; [ring|]. split; [|auto]. rewrite <- (phi_even (e + t)). replace (- (e + t)) with (- t - e) by ring. ring.
  - rewrite Rabs_pos_eq in * by lra. split; [|split; [|split; [|auto]]].
    + replace (e - t) with (- (t - e)) by ring. replace (- e - t) with (- (e + t)) by ring. rewrite !Ncdf_neg. ring.
    + replace (e - t) with (- (t - e)) by ring. replace (- e - t) with (- (e + t)) by ring. rewrite !phi_even. ring.
    + replace (e - t) with (- (t - e)) at 2 by ring. rewrite phi_even. ring.
Qed.
Lemma within_abs r x y : within r x y -> forall r', r <= r' -> within r' x y.
Proof. unfold within. intros H r' R. apply Rle_trans with (1 := H). apply Rmult_le_compat_r; [apply Rabs_pos|auto]. Qed.
Lemma vdraw_near t e : 1 / 30 <= e -> within 0.0015 (vdraw t e) (vdrawN t e) /\ (-26 <= e - Rabs t -> within 0.000018 (vdraw t e) (vdrawN t e)).
Proof.
  intros He. destruct (draw_sides t e) as (E1 & E2 & E3 & E4). pose proof (draw_near_pos (Rabs t) e He (Rabs_pos t)) as (TP & N0 & K1 & K2). rewrite E4 in *.
  set (N := mN (Rabs t - e) (e + Rabs t)) in *. set (T := mT (Rabs t - e) (e + Rabs t)) in *. unfold vdrawN, vdraw. rewrite E1, E2. unfold within.
  assert (V0 : 0 <= N / T) by (unfold Rdiv; apply Rmult_le_pos; [auto|apply Rlt_le, Rinv_0_lt_compat; auto]).
  assert (S : forall s x y, s = 1 \/ s = -1 -> Rabs (s * x / y) = Rabs (x / y)). { intros s x y [-> | ->]; [f_equal; unfold Rdiv; ring|]. rewrite <- (Rabs_Ropp (x / y)). f_equal. unfold Rdiv. ring. }
  assert (S1 : (if Rlt_dec t 0 then 1 else -1) = 1 \/ (if Rlt_dec t 0 then 1 else -1) = -1) by (destruct (Rlt_dec t 0); auto).
  rewrite (S _ N T S1), (Rabs_pos_eq (N / T) V0). destruct (Rlt_dec (drawnorm t e) tiny) as [L|L].
  - destruct (K2 L) as (A & V & _). split; [|intros; lra]. destruct (Rlt_dec t 0) as [Q|Q].
    + rewrite (Rabs_left t) in V by auto. replace (- t - e - 1 * N / T) with (- t - e - N / T) by (unfold Rdiv; ring). exact V.
    + rewrite (Rabs_pos_eq t) in V by lra. replace (- t + e - -1 * N / T) with (- (t - e - N / T)) by (unfold Rdiv; ring). rewrite Rabs_Ropp. exact V.
  - destruct (K1 ltac:(lra)) as (V & _). set (D := drawnorm t e) in *.
    assert (X : Rabs ((if Rlt_dec t 0 then 1 else -1) * N / D - (if Rlt_dec t 0 then 1 else -1) * N / T) <= 0.000018 * (N / T)).
    { destruct (Rlt_dec t 0).
      - replace (1 * N / D - 1 * N / T) with (N / D - N / T) by (unfold Rdiv; ring). exact V.
      - replace (-1 * N / D - -1 * N / T) with (- (N / D - N / T)) by (unfold Rdiv; ring). rewrite Rabs_Ropp. exact V. }
    split; [lra|intros; lra].
Qed.
Lemma wdraw_near t e : 1 / 30 <= e -> Rabs (wdraw t e - wdrawN t e) <= 0.003 /\ (-26 <= e - Rabs t -> Rabs (wdraw t e - wdrawN t e) <= 0.0005).
Proof.
  intros He. destruct (draw_sides t e) as (E1 & E2 & E3 & E4). pose proof (draw_near_pos (Rabs t) e He (Rabs_pos t)) as (TP & N0 & K1 & K2). rewrite E4 in *.
  set (N := mN (Rabs t - e) (e + Rabs t)) in *. set (T := mT (Rabs t - e) (e + Rabs t)) in *. set (B := mB (Rabs t - e) (e + Rabs t)) in *.
  unfold wdrawN, vdrawN, wdraw, vdraw. rewrite E1, E2, E3.
  assert (S : forall s x y, s = 1 \/ s = -1 -> (s * x / y) ^ 2 = (x / y) ^ 2). { intros s x y [-> | ->]; unfold Rdiv; ring. }
  assert (S1 : (if Rlt_dec t 0 then 1 else -1) = 1 \/ (if Rlt_dec t 0 then 1 else -1) = -1) by (destruct (Rlt_dec t 0); auto).
  destruct (Rlt_dec (drawnorm t e) tiny) as [L|L]; rewrite !(S _ _ _ S1).
  - destruct (K2 L) as (A & _ & W). split; [exact W|intros; lra].
  - destruct (K1 ltac:(lra)) as (_ & W). split; [lra|intros; exact W].
Qed.

(** ** Any outcome *)
Lemma tsv_near o t e : (o = DRAW -> 1 / 30 <= e) -> within 0.0015 (ts_v o t e) (tsN_v o t e) /\ (-26 <= lead o t e -> within 0.000018 (ts_v o t e) (tsN_v o t e)).
Proof.
  intros H. destruct o; cbn [ts_v tsN_v lead].
  - pose proof (vwin_near t e) as V. destruct (Rle_dec (-26) (t - e)); split; intros; try lra; eapply within_abs; eauto; lra.
  - pose proof (vwin_near (- t) e) as V. assert (X : forall r, within r (vwin (- t) e) (vwinN (- t) e) -> within r (- vwin (- t) e) (- vwinN (- t) e)).
    { intros r Q. unfold within in *. rewrite Rabs_Ropp. replace (- vwin (- t) e - - vwinN (- t) e) with (- (vwin (- t) e - vwinN (- t) e)) by ring. rewrite Rabs_Ropp. exact Q. }
    destruct (Rle_dec (-26) (- t - e)); split; intros; try lra; apply X; eapply within_abs; eauto; lra.
  - apply vdraw_near. auto.
Qed.
Lemma tsw_near o t e : (o = DRAW -> 1 / 30 <= e) ->
  (-26 <= lead o t e -> Rabs (ts_w o t e - tsN_w o t e) <= 0.0005) /\ (lead o t 0 < 0 -> Rabs (ts_w o t e - tsN_w o t e) <= 0.003).
Proof.
  intros H. destruct o; cbn [ts_w tsN_w lead].
  - split; intros Q; pose proof (wwin_near t e ltac:(lra)) as W; destruct (Rle_dec (-26) (t - e)); lra.
  - split; intros Q; pose proof (wwin_near (- t) e ltac:(lra)) as W; destruct (Rle_dec (-26) (- t - e)); lra.
  - destruct (wdraw_near t e (H eq_refl)) as (A & B). split; intros; [apply B; auto|exact A].
Qed.
Lemma Phi_relc x : Rabs ((1 - Phi x) - (1 - Ncdf x)) <= 0.0000103 * (1 - Ncdf x).
Proof.
  destruct (Rle_dec x 0) as [H|H].
  - pose proof (Phi_close x) as C. apply Rabs_le_between in C. pose proof (Ncdf_mono x 0 H) as M. rewrite Ncdf_0 in M. apply Rabs_le. lra.
  - assert (E : Phi x = Phip x) by (rewrite Phi_pos by lra; reflexivity). rewrite E. pose proof (tail_close x ltac:(lra)). pose proof (Ncdf_range x). apply Rabs_le. lra.
Qed.
