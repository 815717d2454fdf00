(** The variance correction of a decided game lies strictly between 0 and 1
    whenever the code does not use its asymptote.  No model code here. *)
From Coq Require Import ZArith List Bool Reals Lra Lia.
From Coquelicot Require Import Coquelicot.
From Verif Require Import Tac Spec SpecTS MathTS MathIval MathPoly.
Import ListNotations.
Local Open Scope R_scope.

(** ** Winner favoured *)
Lemma w_upper_pos x : 0 <= x -> 0.79789 * exp (- (x ^ 2 / 2)) * (0.79789 * exp (- (x ^ 2 / 2)) + x) < 1.
Proof.
  intros H. set (E := exp _). assert (HE : 0 < E) by apply exp_pos.
  assert (B : E * (1 + x ^ 2 / 2) <= 1).
  { unfold E. rewrite exp_Ropp. pose proof (exp_ineq1_le (x ^ 2 / 2)). pose proof (exp_pos (x ^ 2 / 2)).
    apply Rmult_le_reg_l with (exp (x ^ 2 / 2)); auto. rewrite <- Rmult_assoc, Rinv_r by lra. lra. }
  set (q := 2 + x ^ 2). assert (Q : 2 <= q) by (unfold q; nra). assert (B' : E * q <= 2) by (unfold q; lra).
  apply Rmult_lt_reg_r with (q ^ 2); [nra|].
  replace (0.79789 * E * (0.79789 * E + x) * q ^ 2) with (0.79789 ^ 2 * (E * q) ^ 2 + 0.79789 * x * q * (E * q)) by ring.
  assert (0 <= E * q) by nra. assert ((E * q) ^ 2 <= 4) by nra.
  assert (0.79789 * x * q * (E * q) <= 0.79789 * x * q * 2) by (apply Rmult_le_compat_l; [|lra]; nra).
  assert (0.79789 ^ 2 * 4 + 0.79789 * x * q * 2 < 1 * q ^ 2); [|lra].
  unfold q. assert (0 <= (x ^ 2 - 0.8 * x + 0) ^ 2) by apply pow2_ge_0. assert (0 <= (x - 0.6) ^ 2) by apply pow2_ge_0. nra.
Qed.

(** ** Upset *)
Definition dPz : list Z := [100002368; 74818392; 29035254; -74515224; 139434035; -681122388; 1041961109; -657721784; 153785493]%Z.
Lemma dPz_eval u : peval dPz u = 100000000 * nr_dP u.
Proof. unfold peval, dPz, nr_dP. cbn [fold_right]. lra. Qed.
Lemma poly_low u : 1 / 11 <= u <= 1 -> 0 < 1 - (1 - u) * nr_dP u.
Proof.
  intros H. assert (T : ppos 10 (paff 1 10 11 (padd [100000000]%Z (pscal (-1) (pmul [1; -1]%Z dPz)))) = true) by (vm_cast_no_check (eq_refl true)).
  pose proof (ppos_on 10 1 10 11 _ eq_refl eq_refl T u ltac:(cbn [Z.add Pos.add Pos.succ]; lra)) as K.
  rewrite peval_add, peval_scal, peval_mul, dPz_eval in K. unfold peval in K; cbn [fold_right] in K. lra.
Qed.
Lemma poly_up u : 1 / 11 <= u <= 1 -> 2 < (2 - 4 * u + 3 * u ^ 2) * (1 + u * nr_dP u) ^ 2.
Proof.
  intros H. pose (up := padd [100000000]%Z (0%Z :: dPz)).
  assert (T : ppos 10 (paff 1 10 11 (padd [-20000000000000000]%Z (pmul [2; -4; 3]%Z (pmul up up)))) = true) by (vm_cast_no_check (eq_refl true)).
  pose proof (ppos_on 10 1 10 11 _ eq_refl eq_refl T u ltac:(cbn [Z.add Pos.add Pos.succ]; lra)) as K.
  rewrite peval_add, !peval_mul in K. unfold up in K. rewrite peval_add, (peval_cons 0), dPz_eval in K. set (d := nr_dP u) in *.
  unfold peval in K; cbn [fold_right] in K. nra.
Qed.
Definition hP (u : R) : R :=
  - 1.26551223 + u * (1.00002368 + u * (0.37409196 + u * (0.09678418 + u * (- 0.18628806
  + u * (0.27886807 + u * (- 1.13520398 + u * (1.48851587 + u * (- 0.82215223 + u * 0.17087277)))))))).
Lemma hP_eq u : nr_P u = hP u.
Proof. unfold nr_P, hP. lra. Qed.

Lemma mono_of_deriv f df a b : (forall c, a <= c <= b -> is_derive f c (df c)) -> (forall c, a <= c <= b -> 0 <= df c) -> a <= b -> f a <= f b.
Proof.
  intros H1 H2 [H| ->]; [|lra]. destruct (MVT_cor2 f df a b H) as (c & E & Hc); [intros c Hc; apply is_derive_Reals; auto|].
  pose proof (H2 c ltac:(lra)). nra.
Qed.
(** y = |x| stays below v *)
Lemma w_low u : 1 / 11 <= u <= 1 -> (1 - u) * exp (nr_P u) < / (2 * sqrt PI).
Proof.
  intros H. apply Rle_lt_trans with ((1 - 1 / 11) * exp (nr_P (1 / 11))).
  - apply Ropp_le_cancel. apply (mono_of_deriv (fun u => - ((1 - u) * exp (nr_P u))) (fun u => (1 - (1 - u) * nr_dP u) * exp (nr_P u))); [| |lra].
    + intros c Hc. pose proof (nr_P_deriv c) as D. evar_last.
      { apply (is_derive_opp (fun u => (1 - u) * exp (nr_P u))). apply (is_derive_mult (fun u => 1 - u) (fun u => exp (nr_P u)) c (-1) (nr_dP c * exp (nr_P c))).
        - auto_derive; [exact I|ring].
        - apply (is_derive_comp exp nr_P); [apply is_derive_exp|auto].
        - intros; apply Rmult_comm. }
      unfold opp, plus, mult; cbn. ring.
    + intros c Hc. pose proof (poly_low c ltac:(lra)). pose proof (exp_pos (nr_P c)). nra.
  - clear H u. rewrite hP_eq. set (u := 1 / 11). assert (H : 0 < 1 - 2 * sqrt PI * (1 - u) * exp (hP u)).
    { unfold hP. ival_pos u 0%nat 1%Z 11%Z 1%Z 11%Z. unfold u; lra. }
    pose proof PI_RGT_0. assert (0 < sqrt PI) by pos. apply Rmult_lt_reg_l with (2 * sqrt PI); [lra|]. rewrite Rinv_r by lra. lra.
Qed.
Lemma s_pos u : 0 < 2 - 4 * u + 3 * u ^ 2.
Proof. pose proof (pow2_ge_0 (u - 2 / 3)); lra. Qed.
Lemma w_up u : 1 / 11 <= u <= 1 -> sqrt (2 / PI) < (sqrt 2 * (1 - u) + sqrt (2 - 4 * u + 3 * u ^ 2)) * exp (nr_P u).
Proof.
  intros H. pose (F := fun u => (sqrt 2 * (1 - u) + sqrt (2 - 4 * u + 3 * u ^ 2)) * exp (nr_P u)). apply Rlt_le_trans with (F (1 / 11)).
  - clear H u. unfold F. rewrite hP_eq. set (u := 1 / 11). apply Rminus_gt_0_lt. unfold hP.
    ival_pos u 0%nat 1%Z 11%Z 1%Z 11%Z. unfold u; lra.
  - change (F (1 / 11) <= F u). pose (s := fun u => sqrt (2 - 4 * u + 3 * u ^ 2)).
    apply (mono_of_deriv F (fun u => ((- sqrt 2 + (3 * u - 2) / s u) + (sqrt 2 * (1 - u) + s u) * nr_dP u) * exp (nr_P u))); [| |lra].
    + intros c Hc. pose proof (nr_P_deriv c) as D. evar_last.
      { apply (is_derive_mult (fun u => sqrt 2 * (1 - u) + sqrt (2 - 4 * u + 3 * u ^ 2)) (fun u => exp (nr_P u)) c (- sqrt 2 + (3 * c - 2) / s c) (nr_dP c * exp (nr_P c))).
        - pose proof (s_pos c). auto_derive; [cbn in *; lra|]. unfold s. assert (sqrt (2 - 4 * c + 3 * c ^ 2) <> 0) by (apply Rgt_not_eq, sqrt_lt_R0; auto).
          replace (2 + - (4 * c) + 3 * (c * (c * 1))) with (2 - 4 * c + 3 * c ^ 2) by ring. field. auto.
        - apply (is_derive_comp exp nr_P); [apply is_derive_exp|auto].
        - intros; apply Rmult_comm. }
      unfold plus, mult; cbn -[pow]. fold (s c). ring.
    + intros c Hc. apply Rmult_le_pos; [|apply Rlt_le, exp_pos]. pose proof (s_pos c) as SP. pose proof (poly_up c ltac:(lra)) as PU. pose proof (nr_dP_pos c ltac:(lra)) as DP.
      assert (HS : 0 < s c) by (apply sqrt_lt_R0; auto). assert (HS2 : s c * s c = 2 - 4 * c + 3 * c ^ 2) by (apply sqrt_sqrt; lra).
      pose proof sqrt2_pos as S2. assert (S22 : sqrt 2 * sqrt 2 = 2) by (apply sqrt_sqrt; lra).
      set (S := s c) in *. set (d := nr_dP c) in *. set (r := sqrt 2) in *.
      assert (K : r < S * (1 + c * d)).
      { apply Rnot_le_lt. intros L. assert (0 < S * (1 + c * d)) by (apply Rmult_lt_0_compat; nra).
        assert ((S * (1 + c * d)) * (S * (1 + c * d)) <= r * r) by (apply Rmult_le_compat; lra). nra. }
      apply Rmult_le_reg_r with (S * c); [nra|]. rewrite Rmult_0_l.
      replace ((- r + (3 * c - 2) / S + (r * (1 - c) + S) * d) * (S * c)) with (((- r * S + (3 * c - 2)) + (r * (1 - c) + S) * (d * S)) * c) by (field; lra).
      replace (((- r * S + (3 * c - 2)) + (r * (1 - c) + S) * (d * S)) * c) with ((r * (1 - c) + S) * (S * (1 + c * d) - r)).
      * apply Rmult_le_pos; [|lra]. apply Rplus_le_le_0_compat; [apply Rmult_le_pos|]; lra.
      * replace ((r * (1 - c) + S) * (S * (1 + c * d) - r)) with (r * (1 - c) * S + S * S * 1 - (r * r) * (1 - c) - r * S + (r * (1 - c) + S) * (d * S) * c) by ring.
        rewrite HS2, S22. ring.
Qed.

(** ** The bound *)
Definition kap : R := sqrt (2 / PI).
Lemma kap_pos : 0 < kap.
Proof. pose proof PI_RGT_0. apply sqrt_lt_R0. pos. Qed.
Lemma kap_phi x : phi x = kap / 2 * exp (- (x ^ 2 / 2)).
Proof.
  unfold phi, kap. pose proof PI_RGT_0. assert (0 < sqrt (2 * PI)) by pos. assert (0 < sqrt PI) by pos. pose proof sqrt2_pos.
  rewrite sqrt_div, sqrt_mult by lra. assert (S22 : sqrt 2 * sqrt 2 = 2) by (apply sqrt_sqrt; lra).
  apply Rmult_eq_reg_r with (sqrt 2 * sqrt PI); [|nra]. unfold Rdiv. rewrite Rmult_assoc, Rinv_l by nra. rewrite Rmult_1_r.
  replace (sqrt 2 * / sqrt PI * / 2 * exp (- (x ^ 2 * / 2)) * (sqrt 2 * sqrt PI)) with (sqrt 2 * sqrt 2 * / 2 * exp (- (x ^ 2 * / 2)) * (sqrt PI * / sqrt PI)) by ring.
  rewrite S22, Rinv_r by lra. field. lra.
Qed.
Lemma kap_close : 0.7978845 < kap < 0.7978846.
Proof.
  unfold kap. pose proof PI_close. split; [rewrite <- (sqrt_pow2 0.7978845) by lra|rewrite <- (sqrt_pow2 0.7978846) by lra]; apply sqrt_lt_1_alt; split.
  - nra.
  - apply Rmult_lt_reg_r with PI; [lra|]. unfold Rdiv. rewrite Rmult_assoc, Rinv_l by lra. nra.
  - apply Rlt_le. apply Rdiv_lt_0_compat; lra.
  - apply Rmult_lt_reg_r with PI; [lra|]. unfold Rdiv. rewrite Rmult_assoc, Rinv_l by lra. nra.
Qed.
Lemma exp_n x n : exp (INR n * x) = exp x ^ n.
Proof. induction n as [|n IH]; [cbn; rewrite Rmult_0_l; apply exp_0|]. rewrite S_INR. cbn [pow]. rewrite <- IH, <- exp_plus. f_equal. ring. Qed.
(** e^(-400) is below [tiny]. *)
Lemma exp400 : exp (-400) / 2 < tiny.
Proof.
  assert (E8 : 2980 < exp 8).
  { apply Rminus_gt_0_lt. pose (x := 8). change (0 < exp x - 2980). ival_pos x 0%nat 8%Z 1%Z 8%Z 1%Z. unfold x; lra. }
  assert (P : exp 400 = exp 8 ^ 50). { rewrite <- exp_n. f_equal. rewrite INR_IZR_INZ. cbn. lra. }
  assert (Q : 2980 ^ 50 <= exp 400). { rewrite P. apply pow_incr. lra. }
  replace (-400) with (- (400)) by lra. rewrite exp_Ropp. assert (0 < 2980 ^ 50) by (apply pow_lt; lra).
  assert (/ exp 400 <= / 2980 ^ 50) by (apply Rinv_le_contravar; auto). assert (0 < / 2980 ^ 50) by (apply Rinv_0_lt_compat; auto).
  apply Rlt_trans with (/ 2980 ^ 50); [lra|]. unfold tiny.
  apply Rmult_lt_reg_r with (2980 ^ 50); auto. rewrite Rinv_l by lra.
  apply Rmult_lt_reg_l with (10 ^ 171); [apply pow_lt; lra|].
  replace (10 ^ 171 * (2222758749 / 10 ^ 171 * 2980 ^ 50)) with (2222758749 * 2980 ^ 50) by (field; apply pow_nonzero; lra).
  rewrite !pow_IZR, <- !mult_IZR. apply IZR_lt. vm_cast_no_check (eq_refl Lt).
Qed.

Lemma not_tiny_u x : x < 0 -> tiny <= Phi x -> 1 / 11 <= / (1 + - x / sqrt 2 / 2) <= 1.
Proof.
  intros Hx H. rewrite Phi_neg in H by lra. pose proof sqrt2_pos as S2. set (z := - x / sqrt 2) in *. assert (Hz : 0 < z) by (unfold z; pos).
  pose proof (nr_t_range z ltac:(lra)) as T. split; [|lra]. apply Rnot_lt_le. intros L. pose proof exp400 as E4.
  assert (Z20 : 20 < z).
  { apply Rnot_le_lt. intros Q. assert (/ 11 <= / (1 + z / 2)) by (apply Rinv_le_contravar; lra). lra. }
  unfold nr_pos in H. cbv zeta in H. set (u := / (1 + z / 2)) in *.
  assert (exp (nr_P u - z ^ 2) <= exp (-400)).
  { destruct (Rle_lt_or_eq_dec (nr_P u - z ^ 2) (-400)) as [Q|Q]; [|apply Rlt_le, exp_increasing; auto|rewrite Q; lra].
    pose proof (nr_P_le u (1 / 11) ltac:(lra) ltac:(lra) ltac:(lra)). assert (nr_P (1 / 11) < 0) by (unfold nr_P; lra). nra. }
  pose proof (exp_pos (nr_P u - z ^ 2)). nra.
Qed.
Lemma wwin_range t e : tiny <= Phi (t - e) -> 0 < wwin t e < 1.
Proof.
  intros H. unfold wwin, vwin. destruct (Rlt_dec _ _) as [L|_]; [lra|]. set (x := t - e) in *.
  replace (phi x / Phi x * (phi x / Phi x + t - e)) with (phi x / Phi x * (phi x / Phi x + x)) by (unfold x; ring).
  pose proof (Phi_range x) as PR. pose proof (phi_pos x) as PP. pose proof kap_close as KC. clearbody x. clear t e.
  destruct (Rle_dec 0 x) as [Hx|Hx].
  - pose proof (Phi_pos_ge x Hx) as PG. assert (V0 : 0 < phi x / Phi x) by pos. split; [apply Rmult_lt_0_compat; lra|].
    assert (V : phi x / Phi x <= 0.79789 * exp (- (x ^ 2 / 2))).
    { apply Rmult_le_reg_r with (Phi x); [lra|]. unfold Rdiv at 1. rewrite Rmult_assoc, Rinv_l, Rmult_1_r by lra. rewrite kap_phi. pose proof (exp_pos (- (x ^ 2 / 2))). nra. }
    pose proof (w_upper_pos x Hx). eapply Rle_lt_trans; [|eassumption]. apply Rmult_le_compat; lra.
  - assert (Hx' : x < 0) by lra. pose proof (not_tiny_u x Hx' H) as U. pose proof sqrt2_pos as S2. set (z := - x / sqrt 2) in *. assert (Hz : 0 < z) by (unfold z; pos).
    assert (S22 : sqrt 2 * sqrt 2 = 2) by (apply sqrt_sqrt; lra).
    assert (Ex : x = - (sqrt 2 * z)) by (unfold z; field; lra). assert (Ez : x ^ 2 / 2 = z ^ 2) by (rewrite Ex; replace ((- (sqrt 2 * z)) ^ 2 / 2) with ((sqrt 2 * sqrt 2) * z ^ 2 / 2) by field; rewrite S22; field).
    assert (EPh : Phi x = nr_pos z / 2) by (rewrite Phi_neg by lra; reflexivity). unfold nr_pos in EPh. cbv zeta in EPh.
    set (u := / (1 + z / 2)) in *. assert (Eu : z * u = 2 * (1 - u)) by (unfold u; field; lra).
    pose proof (exp_pos (nr_P u)) as EP. set (G := exp (nr_P u)) in *.
    assert (EV : phi x / Phi x = kap / (u * G)).
    { rewrite EPh, kap_phi, Ez. replace (nr_P u - z ^ 2) with (nr_P u + - z ^ 2) by ring. rewrite exp_plus. fold G. pose proof (exp_pos (- z ^ 2)). field. lra. }
    rewrite EV. clear EV EPh. pose proof (w_low u U) as WL. pose proof (w_up u U) as WU. fold kap in WU. fold G in WL, WU.
    assert (EK : kap = sqrt 2 / sqrt PI) by (unfold kap; pose proof PI_RGT_0; apply sqrt_div; lra).
    pose proof PI_RGT_0. assert (SP : 0 < sqrt PI) by pos.
    assert (A : 2 * sqrt 2 * (1 - u) * G < kap).
    { rewrite EK. replace (sqrt 2 / sqrt PI) with (2 * sqrt 2 * / (2 * sqrt PI)) by (field; lra). replace (2 * sqrt 2 * (1 - u) * G) with (2 * sqrt 2 * ((1 - u) * G)) by ring.
      apply Rmult_lt_compat_l; lra. }
    set (r := kap / (u * G)). assert (ER : r * u * G = kap) by (unfold r; field; lra).
    assert (R0 : 0 < r) by (unfold r; apply Rdiv_lt_0_compat; [lra|apply Rmult_lt_0_compat; lra]).
    assert (EA : x * u = - (2 * sqrt 2 * (1 - u))) by (rewrite Ex; replace (- (sqrt 2 * z) * u) with (- (sqrt 2 * (z * u))) by ring; rewrite Eu; ring).
    set (a := 2 * sqrt 2 * (1 - u)) in *. assert (A0 : 0 <= a) by (unfold a; apply Rmult_le_pos; lra).
    assert (A1 : a < r * u) by (apply Rmult_lt_reg_r with G; lra).
    split.
    + apply Rmult_lt_0_compat; auto. apply Rmult_lt_reg_r with u; [lra|]. rewrite Rmult_0_l. rewrite Rmult_plus_distr_r, EA. lra.
    + set (s := sqrt (2 - 4 * u + 3 * u ^ 2)) in *. assert (SS : s * s = 2 - 4 * u + 3 * u ^ 2) by (apply sqrt_sqrt; pose proof (s_pos u); lra).
      assert (HS : 0 < s) by (apply sqrt_lt_R0, s_pos). replace (sqrt 2 * (1 - u)) with (a / 2) in WU by (unfold a; field).
      assert (B : r * u < a / 2 + s) by (apply Rmult_lt_reg_r with G; lra).
      assert (AA : a * a = 8 * (1 - u) ^ 2) by (unfold a; replace (2 * sqrt 2 * (1 - u) * (2 * sqrt 2 * (1 - u))) with (4 * (sqrt 2 * sqrt 2) * (1 - u) ^ 2) by ring; rewrite S22; ring).
      apply Rmult_lt_reg_r with (u * u); [nra|]. replace (r * (r + x) * (u * u)) with ((r * u) * (r * u + x * u)) by ring. rewrite EA. set (q := r * u) in *. nra.
Qed.
