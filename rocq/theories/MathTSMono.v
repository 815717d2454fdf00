(** The mean correction v of a decided TrueSkill game as a function of the
    standardised lead x: it falls on each side of the margin, and x + v never
    falls.  No model code here. *)
From Coq Require Import ZArith List Bool Reals Lra Lia.
From Coquelicot Require Import Coquelicot.
From Verif Require Import Tac Spec SpecTS MathTS MathIval MathPoly MathTSW MathTSInv.
Import ListNotations.
Local Open Scope R_scope.

Definition ux (x : R) : R := / (1 + - x / sqrt 2 / 2).
Lemma ux_range x : x <= 0 -> 0 < ux x <= 1.
Proof.
  intros H. pose proof sqrt2_pos. assert (0 <= - x / sqrt 2) by (unfold Rdiv; apply Rmult_le_pos; [lra|pos]). apply nr_t_range; auto.
Qed.
Lemma ux_le x y : x <= y -> y <= 0 -> ux x <= ux y.
Proof.
  intros H1 H2. pose proof sqrt2_pos. assert (0 <= - y / sqrt 2) by (unfold Rdiv; apply Rmult_le_pos; [lra|pos]).
  assert (- y / sqrt 2 <= - x / sqrt 2) by (unfold Rdiv; apply Rmult_le_compat_r; [apply Rlt_le; pos|lra]).
  unfold ux. apply Rinv_le_contravar; lra.
Qed.
Lemma ux_lt x y : x < y -> y <= 0 -> ux x < ux y.
Proof.
  intros H1 H2. pose proof sqrt2_pos. assert (0 <= - y / sqrt 2) by (unfold Rdiv; apply Rmult_le_pos; [lra|pos]).
  assert (- y / sqrt 2 < - x / sqrt 2) by (unfold Rdiv; apply Rmult_lt_compat_r; [pos|lra]).
  unfold ux. apply Rinv_lt_contravar; [apply Rmult_lt_0_compat|]; lra.
Qed.
Lemma x_ux x : x <= 0 -> x = - (2 * sqrt 2) * (/ ux x - 1).
Proof. intros H. pose proof sqrt2_pos. unfold ux. rewrite Rinv_inv. field. lra. Qed.
Definition vu (u : R) : R := kap / (u * exp (nr_P u)).
Lemma v_ux x : x <= 0 -> phi x / Phi x = vu (ux x).
Proof.
  intros Hx. pose proof sqrt2_pos as S2. set (z := - x / sqrt 2) in *. assert (S22 : sqrt 2 * sqrt 2 = 2) by (apply sqrt_sqrt; lra).
  assert (Ex : x = - (sqrt 2 * z)) by (unfold z; field; lra).
  assert (Ez : x ^ 2 / 2 = z ^ 2) by (rewrite Ex; replace ((- (sqrt 2 * z)) ^ 2 / 2) with ((sqrt 2 * sqrt 2) * z ^ 2 / 2) by field; rewrite S22; field).
  assert (EPh : Phi x = nr_pos z / 2) by (rewrite Phi_neg by lra; reflexivity). unfold nr_pos in EPh. cbv zeta in EPh.
  pose proof (ux_range x Hx) as U. unfold vu, ux in *. fold z in U |- *. set (u := / (1 + z / 2)) in *.
  rewrite EPh, kap_phi, Ez. replace (nr_P u - z ^ 2) with (nr_P u + - z ^ 2) by ring. rewrite exp_plus.
  pose proof (exp_pos (nr_P u)). pose proof (exp_pos (- z ^ 2)). field. lra.
Qed.
Lemma vu_lt u v : 0 < u -> u < v -> v <= 1 -> vu v < vu u.
Proof.
  intros H1 H2 H3. unfold vu, Rdiv. pose proof kap_pos. apply Rmult_lt_compat_l; auto.
  assert (exp (nr_P u) <= exp (nr_P v)) by (apply exp_mono, nr_P_le; lra). pose proof (exp_pos (nr_P u)).
  apply Rinv_lt_contravar; [repeat apply Rmult_lt_0_compat; try lra|]. nra.
Qed.
Lemma v_neg_lt x y : x < y -> y <= 0 -> phi y / Phi y < phi x / Phi x.
Proof.
  intros H1 H2. rewrite !v_ux by lra. pose proof (ux_range x ltac:(lra)). pose proof (ux_range y H2). apply vu_lt; try lra. apply ux_lt; auto.
Qed.
Lemma phi_lt x y : 0 <= x -> x < y -> phi y < phi x.
Proof.
  intros H1 H2. rewrite !kap_phi. pose proof kap_pos. apply Rmult_lt_compat_l; [lra|]. apply exp_increasing. nra.
Qed.
Lemma Phi_Phip x : 0 < x -> Phi x = Phip x.
Proof. intros H. rewrite Phi_pos by auto. reflexivity. Qed.
Lemma v_pos_lt x y : 0 < x -> x < y -> phi y / Phi y < phi x / Phi x.
Proof.
  intros H1 H2. pose proof (Phi_lt_pos x y H1 H2). pose proof (phi_lt x y ltac:(lra) H2). pose proof (Phi_range x). pose proof (phi_pos y).
  apply Rlt_trans with (phi x / Phi y); unfold Rdiv.
  - apply Rmult_lt_compat_r; [apply Rinv_0_lt_compat; lra|auto].
  - apply Rmult_lt_compat_l; [lra|]. apply Rinv_lt_contravar; nra.
Qed.

(** ** The slope of the fit below the margin *)
Definition ddPz : list Z := [74818392; 58070508; -223545672; 557736140; -3405611940; 6251766654; -4604052488; 1230283944]%Z.
Definition nr_ddP (u : R) : R := peval ddPz u / 100000000.
Lemma nr_dP_deriv u : is_derive nr_dP u (nr_ddP u).
Proof. unfold nr_dP, nr_ddP, peval, ddPz. cbn [fold_right]. auto_derive; [exact I|]. lra. Qed.
Lemma poly_slope u : 0 <= u <= 1 -> nr_ddP u < nr_dP u ^ 2.
Proof.
  intros H. assert (T : ppos 12 (paff 0 1 1 (padd (pmul dPz dPz) (pscal (-100000000) ddPz))) = true) by (vm_cast_no_check (eq_refl true)).
  pose proof (ppos_on 12 0 1 1 _ eq_refl eq_refl T u ltac:(cbn [Z.add Pos.add Pos.succ]; lra)) as K.
  rewrite peval_add, peval_scal, peval_mul, dPz_eval in K. unfold nr_ddP. nra.
Qed.
Definition qu (u : R) : R := (1 + u * nr_dP u) * exp (- nr_P u).
Lemma qu_deriv u : is_derive qu u (u * (nr_ddP u - nr_dP u ^ 2) * exp (- nr_P u)).
Proof.
  pose proof (nr_P_deriv u) as D1. pose proof (nr_dP_deriv u) as D2. unfold qu. evar_last.
  { apply (is_derive_mult (fun u => 1 + u * nr_dP u) (fun u => exp (- nr_P u)) u (nr_dP u + u * nr_ddP u) (- nr_dP u * exp (- nr_P u))).
    - auto_derive; [exists (nr_ddP u); auto|]. rewrite (is_derive_unique (fun x : R => nr_dP x) u _ D2). ring.
    - apply (is_derive_comp exp (fun u => - nr_P u)); [apply is_derive_exp|]. apply (is_derive_opp nr_P); auto.
    - intros; apply Rmult_comm. }
  unfold plus, mult; cbn. ring.
Qed.
Lemma qu_11 : kap * qu (1 / 11) < 2 * sqrt 2.
Proof.
  unfold qu, kap. rewrite hP_eq. set (u := 1 / 11). apply Rminus_gt_0_lt. unfold hP, nr_dP. ival_pos u 0%nat 1%Z 11%Z 1%Z 11%Z. unfold u; lra.
Qed.
Lemma qu_bound u : 1 / 11 <= u <= 1 -> kap * qu u < 2 * sqrt 2.
Proof.
  intros H. apply Rle_lt_trans with (kap * qu (1 / 11)); [|apply qu_11]. pose proof kap_pos. apply Rmult_le_compat_l; [lra|].
  apply Ropp_le_cancel. apply (mono_of_deriv (fun u => - qu u) (fun u => - (u * (nr_ddP u - nr_dP u ^ 2) * exp (- nr_P u)))); [| |lra].
  - intros c Hc. apply (is_derive_opp qu), qu_deriv.
  - intros c Hc. pose proof (poly_slope c ltac:(lra)). pose proof (exp_pos (- nr_P c)).
    replace (- (c * (nr_ddP c - nr_dP c ^ 2) * exp (- nr_P c))) with (c * (nr_dP c ^ 2 - nr_ddP c) * exp (- nr_P c)) by ring. repeat apply Rmult_le_pos; lra.
Qed.
Lemma gu_mono u v : 1 / 11 <= u -> u <= v -> v <= 1 -> - (2 * sqrt 2) * (/ u - 1) + vu u <= - (2 * sqrt 2) * (/ v - 1) + vu v.
Proof.
  intros H1 H2 H3. apply (mono_of_deriv (fun u => - (2 * sqrt 2) * (/ u - 1) + vu u) (fun u => / u ^ 2 * (2 * sqrt 2 - kap * qu u))); [| |lra].
  - intros c Hc. pose proof (nr_P_deriv c) as D. pose proof (exp_pos (nr_P c)). unfold vu. auto_derive.
    + repeat split; try lra; [exists (nr_dP c); auto|]. nra.
    + rewrite (is_derive_unique (fun x : R => nr_P x) c _ D). unfold qu. rewrite exp_Ropp. field. lra.
  - intros c Hc. pose proof (qu_bound c ltac:(lra)). apply Rmult_le_pos; [|lra]. apply Rlt_le, Rinv_0_lt_compat. nra.
Qed.
Lemma xv_neg x y : x <= y -> y <= 0 -> tiny <= Phi x -> x + phi x / Phi x <= y + phi y / Phi y.
Proof.
  intros H1 H2 H3. rewrite !v_ux by lra. pose proof (ux_range y H2). pose proof (ux_le x y H1 H2).
  destruct (Req_dec x 0) as [->|N]; [assert (y = 0) as -> by lra; lra|]. pose proof (not_tiny_u x ltac:(lra) H3) as U. fold (ux x) in U.
  pose proof (gu_mono (ux x) (ux y) ltac:(lra) ltac:(lra) ltac:(lra)) as G. rewrite <- !x_ux in G by lra. auto.
Qed.

(** ** Above the margin *)
Lemma Phip_range x : 0 <= x -> 0.4999999 < Phip x < 1.
Proof.
  intros H. unfold Phip. pose proof sqrt2_pos. pose proof (nr_pos_range (x / sqrt 2) ltac:(unfold Rdiv; apply Rmult_le_pos; [auto|apply Rlt_le; pos])). lra.
Qed.
Lemma phi_der x : is_derive phi x (- x * phi x).
Proof.
  unfold phi. pose proof PI_RGT_0. assert (0 < sqrt (2 * PI)) by pos. auto_derive; [lra|]. unfold Rdiv. simpl. field_simplify; try lra.
Qed.
Lemma w_upper_pos2 x : 0 <= x -> 0.79789 * exp (- (x ^ 2 / 2)) * (0.7979 * exp (- (x ^ 2 / 2)) + x) < 1.
Proof.
  intros H. set (E := exp _). assert (HE : 0 < E) by apply exp_pos.
  assert (B : E * (1 + x ^ 2 / 2) <= 1).
  { unfold E. rewrite exp_Ropp. pose proof (exp_ineq1_le (x ^ 2 / 2)). pose proof (exp_pos (x ^ 2 / 2)).
    apply Rmult_le_reg_l with (exp (x ^ 2 / 2)); auto. rewrite <- Rmult_assoc, Rinv_r by lra. lra. }
  set (q := 2 + x ^ 2). assert (Q : 2 <= q) by (unfold q; nra). assert (B' : E * q <= 2) by (unfold q; lra).
  apply Rmult_lt_reg_r with (q ^ 2); [nra|].
  replace (0.79789 * E * (0.7979 * E + x) * q ^ 2) with (0.79789 * 0.7979 * (E * q) ^ 2 + 0.79789 * x * q * (E * q)) by ring.
  assert (0 <= E * q) by nra. assert ((E * q) ^ 2 <= 4) by nra.
  assert (0.79789 * x * q * (E * q) <= 0.79789 * x * q * 2) by (apply Rmult_le_compat_l; [|lra]; nra).
  assert (0.79789 * 0.7979 * 4 + 0.79789 * x * q * 2 < 1 * q ^ 2); [|lra].
  unfold q. assert (0 <= (x ^ 2 - 0.8 * x + 0) ^ 2) by apply pow2_ge_0. assert (0 <= (x - 0.6) ^ 2) by apply pow2_ge_0. nra.
Qed.
Lemma xv_pos x y : 0 <= x -> x <= y -> x + phi x / Phip x <= y + phi y / Phip y.
Proof.
  intros H1 H2. pose (d := fun x => rr (/ (1 + x / sqrt 2 / 2)) / ksp).
  apply (mono_of_deriv (fun x => x + phi x / Phip x) (fun x => 1 - phi x / Phip x * (x + d x * (phi x / Phip x)))); [| |lra].
  - intros c Hc. pose proof (Phip_range c ltac:(lra)) as PR. pose proof (Phip_deriv c ltac:(lra)) as DP. pose proof (phi_der c) as Dp. auto_derive.
    + repeat split; [eexists; apply Dp|eexists; apply DP|lra].
    + rewrite (is_derive_unique (fun x : R => phi x) c _ Dp), (is_derive_unique (fun x : R => Phip x) c _ DP). unfold d. pose proof ksp_close. pose proof sqrt2_pos. set (q := rr _). field. lra.
  - intros c Hc. pose proof (Phip_range c ltac:(lra)) as PR. pose proof ksp_close as K. pose proof sqrt2_pos as S2.
    assert (T : 0 <= / (1 + c / sqrt 2 / 2) <= 1). { pose proof (nr_t_range (c / sqrt 2) ltac:(unfold Rdiv; apply Rmult_le_pos; [lra|apply Rlt_le; pos])). lra. }
    pose proof (rr_bound _ T) as B. fold (d c) in *. assert (D : 0 <= d c <= 1.00001).
    { unfold d. split; [apply Rmult_le_pos; [lra|apply Rlt_le; pos]|]. apply Rmult_le_reg_r with ksp; [lra|]. unfold Rdiv at 1. rewrite Rmult_assoc, Rinv_l by lra. lra. }
    pose proof kap_close as KC. pose proof (phi_pos c) as PP. pose proof (exp_pos (- (c ^ 2 / 2))) as E0.
    assert (V : phi c / Phip c <= 0.79789 * exp (- (c ^ 2 / 2))).
    { apply Rmult_le_reg_r with (Phip c); [lra|]. unfold Rdiv at 1. rewrite Rmult_assoc, Rinv_l, Rmult_1_r by lra. rewrite kap_phi. nra. }
    assert (V0 : 0 < phi c / Phip c) by (apply Rdiv_lt_0_compat; lra). pose proof (w_upper_pos2 c ltac:(lra)) as W.
    assert (phi c / Phip c * (c + d c * (phi c / Phip c)) <= 0.79789 * exp (- (c ^ 2 / 2)) * (0.7979 * exp (- (c ^ 2 / 2)) + c)); [|lra].
    set (v := phi c / Phip c) in *. set (E := exp _) in *. apply Rmult_le_compat; try lra; [apply Rplus_le_le_0_compat; [lra|apply Rmult_le_pos; lra]|].
    assert (d c * v <= 1.00001 * (0.79789 * E)) by (apply Rmult_le_compat; lra). lra.
Qed.

(** ** Together *)
Definition vx (x : R) : R := vwin x 0.
Lemma vwin_vx t e : vwin t e = vx (t - e).
Proof. unfold vx, vwin. rewrite Rminus_0_r. destruct (Rlt_dec _ _); [lra|reflexivity]. Qed.
Lemma vx_out x : tiny <= Phi x -> vx x = phi x / Phi x.
Proof. intros H. unfold vx, vwin. rewrite Rminus_0_r. destruct (Rlt_dec _ _); [lra|reflexivity]. Qed.
Lemma vx_in x : Phi x < tiny -> vx x = - x.
Proof. intros H. unfold vx, vwin. rewrite Rminus_0_r. destruct (Rlt_dec _ _); lra. Qed.
Lemma tiny_small : tiny < 0.4.
Proof.
  unfold tiny. apply Rmult_lt_reg_r with (10 ^ 171); [apply pow_lt; lra|]. replace (2222758749 / 10 ^ 171 * 10 ^ 171) with 2222758749 by (field; apply pow_nonzero; lra).
  apply Rlt_le_trans with (0.4 * 10 ^ 20); [lra|]. apply Rmult_le_compat_l; [lra|]. apply Rle_pow; [lra|lia].
Qed.
Lemma vx_pos_out x : tiny <= Phi x -> 0 < x + vx x.
Proof.
  intros H. rewrite vx_out by auto. pose proof (wwin_range x 0) as W. rewrite Rminus_0_r in W. specialize (W H). unfold wwin in W.
  rewrite Rminus_0_r in W. destruct (Rlt_dec _ _) as [L|_]; [lra|]. fold (vx x) in W. rewrite vx_out in W by auto.
  assert (0 < phi x / Phi x) by (pose proof (phi_pos x); pose proof (Phi_range x); apply Rdiv_lt_0_compat; lra). nra.
Qed.
Lemma xv_mono x y : x <= y -> x + vx x <= y + vx y.
Proof.
  intros H. destruct (Rlt_dec (Phi x) tiny) as [L|L].
  - rewrite (vx_in x L). destruct (Rlt_dec (Phi y) tiny) as [M|M]; [rewrite (vx_in y M); lra|]. pose proof (vx_pos_out y ltac:(lra)). lra.
  - pose proof tiny_small as TS.
    assert (OY : tiny <= Phi y).
    { destruct (Rle_dec y 0) as [Y|Y].
      - destruct H as [H| ->]; [pose proof (Phi_lt_neg x y H Y); lra|lra].
      - pose proof (Phi_pos_ge y ltac:(lra)). lra. }
    rewrite (vx_out x), (vx_out y) by lra. destruct (Rle_dec y 0) as [Y|Y]; [apply xv_neg; lra|]. destruct (Rle_dec x 0) as [X|X].
    + apply Rle_trans with (0 + phi 0 / Phi 0); [apply xv_neg; lra|]. rewrite (Phi_Phip y) by lra. apply Rle_trans with (0 + phi 0 / Phip 0); [|apply xv_pos; lra].
      pose proof Phi_0. pose proof (Phip_range 0 ltac:(lra)). pose proof (phi_pos 0). apply Rplus_le_compat_l. unfold Rdiv. apply Rmult_le_compat_l; [lra|].
      apply Rinv_le_contravar; [lra|]. unfold Phip. replace (0 / sqrt 2) with 0 by (unfold Rdiv; ring). pose proof nr_pos_0. lra.
    + rewrite !Phi_Phip by lra. apply xv_pos; lra.
Qed.
Lemma xkv_lt k x y : 0 <= k < 1 -> x < y -> x + k * vx x < y + k * vx y.
Proof. intros K H. pose proof (xv_mono x y ltac:(lra)). nra. Qed.

(** Falling on each side of the margin, and in the asymptote. *)
Lemma vx_lt x y : x < y -> (y <= 0 \/ 0 < x) -> (Phi y < tiny \/ tiny <= Phi x) -> vx y < vx x.
Proof.
  intros H R [L|L].
  - assert (LX : Phi x < tiny).
    { destruct R as [R|R]; [pose proof (Phi_lt_neg x y H R); lra|pose proof (Phi_pos_ge y ltac:(lra)); pose proof tiny_small; lra]. }
    rewrite (vx_in x LX), (vx_in y L). lra.
  - destruct R as [R|R].
    + pose proof (Phi_lt_neg x y H R). rewrite (vx_out x), (vx_out y) by lra. apply v_neg_lt; auto.
    + pose proof (Phi_pos_ge y ltac:(lra)); pose proof tiny_small. rewrite (vx_out x), (vx_out y) by lra. apply v_pos_lt; auto.
Qed.
(** The step at the margin. *)
Lemma step0 : 0 < phi 0 / Phip 0 - phi 0 / Phi 0 < 0.0000002.
Proof.
  pose proof Phi_0 as P0. pose proof (Phip_range 0 ltac:(lra)) as P1. assert (E : Phip 0 = 1 - Phi 0).
  { unfold Phip. rewrite Phi_neg by lra. replace (0 / sqrt 2) with 0 by (unfold Rdiv; ring). replace (- 0 / sqrt 2) with 0 by (unfold Rdiv; ring). reflexivity. }
  assert (phi 0 = kap / 2). { rewrite kap_phi. replace (- (0 ^ 2 / 2)) with 0 by field. rewrite exp_0. ring. }
  pose proof kap_close. set (p := Phi 0) in *. rewrite E in *. replace (phi 0 / (1 - p) - phi 0 / p) with (phi 0 * (2 * p - 1) / (p * (1 - p))) by (field; lra).
  split; [apply Rdiv_lt_0_compat; [apply Rmult_lt_0_compat; lra|nra]|]. apply Rmult_lt_reg_r with (p * (1 - p)); [nra|].
  unfold Rdiv at 1. rewrite Rmult_assoc, Rinv_l, Rmult_1_r by nra. assert (0.2499 <= p * (1 - p)) by nra.
  assert (phi 0 * (2 * p - 1) <= 0.4 * 0.0000001) by (apply Rmult_le_compat; lra). lra.
Qed.
Lemma vx_almost x y : x < y -> tiny <= Phi x -> vx y < vx x + 0.0000002.
Proof.
  intros H L. pose proof step0 as S. destruct (Rle_dec y 0) as [Y|Y]; [pose proof (vx_lt x y H (or_introl Y) (or_intror L)); lra|].
  destruct (Rlt_dec 0 x) as [X|X]; [pose proof (vx_lt x y H (or_intror X) (or_intror L)); lra|].
  pose proof tiny_small as TS. pose proof Phi_0. assert (A : vx 0 <= vx x).
  { destruct (Req_dec x 0) as [->|N]; [lra|]. apply Rlt_le, vx_lt; lra. }
  pose proof (Phi_pos_ge y ltac:(lra)). rewrite (vx_out 0) in A by lra. rewrite (vx_out y) by lra. rewrite Phi_Phip by lra.
  assert (phi y / Phip y <= phi 0 / Phip 0); [|lra]. pose proof (Phip_range 0 ltac:(lra)) as P0. pose proof (Phip_range y ltac:(lra)) as P1.
  pose proof (phi_lt 0 y ltac:(lra) ltac:(lra)). pose proof (phi_pos y). unfold Rdiv. apply Rmult_le_compat; try lra; [apply Rlt_le, Rinv_0_lt_compat; lra|].
  apply Rinv_le_contravar; [lra|]. unfold Phip. replace (0 / sqrt 2) with 0 by (unfold Rdiv; ring). assert (0 < y / sqrt 2) by (pose proof sqrt2_pos; pos).
  pose proof (nr_pos_lt 0 (y / sqrt 2) ltac:(lra) ltac:(lra)). lra.
Qed.
