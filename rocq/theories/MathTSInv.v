(** The inverse of the complementary error function as computed: sign and
    accuracy, and the accuracy of the distribution function itself.
    No model code here. *)
From Coq Require Import ZArith List Bool Reals Lra Lia.
From Coquelicot Require Import Coquelicot.
From Verif Require Import Tac Spec SpecTS SpecNormal MathTS MathIval MathPoly MathTSW.
Import ListNotations.
Local Open Scope R_scope.

(** ** The approximation lies above the tangent of erfc at 0 *)
Definition Pz : list Z := [-126551223; 100002368; 37409196; 9678418; -18628806; 27886807; -113520398; 148851587; -82215223; 17087277]%Z.
Lemma Pz_eval u : peval Pz u = 100000000 * nr_P u.
Proof. unfold peval, Pz, nr_P. cbn [fold_right]. lra. Qed.
Definition ksp : R := 2 / sqrt PI.
Lemma ksp_close : 1.1283791 < ksp < 1.1283793.
Proof.
  unfold ksp. pose proof PI_close as [P1 P2]. assert (S1 : 1.7724538 < sqrt PI). { rewrite <- (sqrt_pow2 1.7724538) by lra. apply sqrt_lt_1_alt. nra. }
  assert (S2 : sqrt PI < 1.7724539). { rewrite <- (sqrt_pow2 1.7724539) by lra. apply sqrt_lt_1_alt. nra. }
  split; apply Rmult_lt_reg_r with (sqrt PI); try lra; unfold Rdiv; rewrite Rmult_assoc, Rinv_l by lra; nra.
Qed.
(** T3(A/u^2) with A = u^2 P(u) - 4(1-u)^2, against 1 - k x, times u^6. *)
Definition Az : list Z := padd (pmul [0; 0; 1]%Z Pz) (pscal (-400000000) (pmul [1; -1] [1; -1])%Z).
Definition lin_z : list Z :=
  padd (padd (padd (pscal (6 * 100000000 ^ 3) [0; 0; 0; 0; 0; 0; 0; 1]%Z) (pscal (6 * 100000000 ^ 2) (pmul [0; 0; 0; 0; 0; 1]%Z Az)))
             (padd (pscal 300000000 (pmul [0; 0; 0; 1]%Z (pmul Az Az))) (pmul [0; 1]%Z (pmul Az (pmul Az Az)))))
       (padd (pscal (-6 * 100000000 ^ 3) [0; 0; 0; 0; 0; 0; 1]%Z) (pscal (12 * 112837910 * 100000000 ^ 2) (pmul [1; -1] [0; 0; 0; 0; 0; 1])%Z)).
Lemma lin_check : ppos 12 (paff 69 31 100 lin_z) = true.
Proof. vm_cast_no_check (eq_refl true). Qed.
Lemma lin_poly u : 69 / 100 <= u <= 1 -> let A := u ^ 2 * nr_P u - 4 * (1 - u) ^ 2 in
  0 < 6 * u ^ 7 + 6 * u ^ 5 * A + 3 * u ^ 3 * A ^ 2 + u * A ^ 3 - 6 * u ^ 6 + 12 * 1.1283791 * (1 - u) * u ^ 5.
Proof.
  intros H A. pose proof (ppos_on 12 69 31 100 _ eq_refl eq_refl lin_check u ltac:(change (69 + 31)%Z with 100%Z; lra)) as K.
  assert (EA : peval Az u = 100000000 * A).
  { unfold Az. rewrite peval_add, peval_scal, !peval_mul, Pz_eval. unfold A, peval. cbn [fold_right]. ring. }
  unfold lin_z in K. rewrite !peval_add, !peval_scal, !peval_mul, EA in K.
  replace (IZR (6 * 100000000 ^ 3)) with (6 * 100000000 ^ 3) in K by (rewrite pow_IZR, <- mult_IZR; f_equal).
  replace (IZR (6 * 100000000 ^ 2)) with (6 * 100000000 ^ 2) in K by (rewrite pow_IZR, <- mult_IZR; f_equal).
  replace (IZR (-6 * 100000000 ^ 3)) with (-6 * 100000000 ^ 3) in K by (rewrite pow_IZR, <- mult_IZR; f_equal).
  replace (IZR (12 * 112837910 * 100000000 ^ 2)) with (12 * 112837910 * 100000000 ^ 2) in K by (rewrite pow_IZR, <- !mult_IZR; f_equal).
  unfold peval in K. cbn [fold_right] in K.
  replace 1.1283791 with (11283791 / 10000000) by lra.
  apply Rmult_lt_reg_l with (100000000 ^ 3); [apply pow_lt; lra|]. rewrite Rmult_0_r. eapply Rlt_le_trans; [exact K|]. right. field.
Qed.
Lemma nr_tangent x : 0 <= x -> 1 - ksp * x <= nr_pos x.
Proof.
  intros H. pose proof ksp_close as [K1 K2]. destruct (Rle_dec 0.89 x) as [L|L]; [pose proof (nr_pos_gt0 x H); nra|].
  unfold nr_pos. cbv zeta. pose proof (nr_t_range x H) as T. set (u := / (1 + x / 2)) in *.
  assert (Eu : x * u = 2 * (1 - u)) by (unfold u; field; lra). assert (U : 69 / 100 <= u <= 1).
  { split; [|lra]. apply Rmult_le_reg_r with (1 + x / 2); [lra|]. unfold u. rewrite Rinv_l by lra. lra. }
  pose proof (lin_poly u U) as K. cbv zeta in K. set (w := nr_P u - x ^ 2).
  assert (EA : u ^ 2 * nr_P u - 4 * (1 - u) ^ 2 = u ^ 2 * w).
  { unfold w. replace (u ^ 2 * (nr_P u - x ^ 2)) with (u ^ 2 * nr_P u - (x * u) ^ 2) by ring. rewrite Eu. ring. }
  rewrite EA in K.
  pose proof (exp_tay_odd 3 w eq_refl) as ET. assert (E3 : tay 3 w = 1 + w + w ^ 2 / 2 + w ^ 3 / 6) by (unfold tay; cbn; field).
  rewrite E3 in ET. assert (0 < u ^ 6) by (apply pow_lt; lra).
  assert (Q : 0 < u * (1 + w + w ^ 2 / 2 + w ^ 3 / 6) - 1 + 1.1283791 * x).
  { apply Rmult_lt_reg_l with (6 * u ^ 6); [lra|]. rewrite Rmult_0_r. eapply Rlt_le_trans; [exact K|]. right.
    replace (12 * 1.1283791 * (1 - u) * u ^ 5) with (6 * 1.1283791 * (2 * (1 - u)) * u ^ 5) by (set (q := 1.1283791); ring). rewrite <- Eu. set (q := 1.1283791). field. }
  assert (1.1283791 * x <= ksp * x) by (apply Rmult_le_compat_r; lra).
  assert (u * (1 + w + w ^ 2 / 2 + w ^ 3 / 6) <= u * exp w) by (apply Rmult_le_compat_l; lra). lra.
Qed.

(** ** Halley's step keeps the sign *)
Lemma hstep_nonneg y x : 0 < y <= 1 -> 0 <= x -> 0 <= hstep y x.
Proof.
  intros Hy Hx. pose proof (hden_pos y x Hy ltac:(lra)) as HD. unfold hstep.
  apply Rmult_le_reg_r with (hden y x); auto. rewrite Rmult_0_l.
  replace ((x + (nr_erfc x - y) / hden y x) * hden y x) with (x * hden y x + (nr_erfc x - y)) by (field; lra).
  unfold hden, nr_erfc. destruct (Rlt_dec x 0); [lra|]. fold ksp. pose proof ksp_close as [K1 K2]. pose proof (nr_pos_range x Hx) as [E0 _].
  pose proof (exp_pos (- (x * x))) as EX. pose proof (exp_ineq1_le (- (x * x))) as EI. set (e := exp (- (x * x))) in *.
  replace (x * (ksp * e + - x * (nr_pos x - y)) + (nr_pos x - y)) with (ksp * x * e + (1 - x * x) * (nr_pos x - y)) by ring.
  destruct (Rle_dec x 1) as [L|L].
  - pose proof (nr_tangent x Hx). assert (0 <= 1 - x * x) by nra.
    assert (A : (1 - x * x) * (- (ksp * x)) <= (1 - x * x) * (nr_pos x - y)) by (apply Rmult_le_compat_l; lra).
    assert (B : ksp * x * (1 - x * x) <= ksp * x * e) by (apply Rmult_le_compat_l; [nra|lra]). lra.
  - pose proof (nr_pos_mul x Hx) as M. replace (- x ^ 2) with (- (x * x)) in M by ring. fold e in M.
    assert (A : x * (x * nr_pos x) <= x * (1.11 * e)) by (apply Rmult_le_compat_l; lra).
    assert (B : 1.11 * (x * e) <= ksp * (x * e)) by (apply Rmult_le_compat_r; [nra|lra]).
    assert (C : 0 <= (x * x - 1) * y) by (apply Rmult_le_pos; [nra|lra]). set (E := nr_pos x) in *.
    replace (ksp * x * e + (1 - x * x) * (E - y)) with (ksp * (x * e) - x * (x * E) + E + (x * x - 1) * y) by ring. lra.
Qed.
(** ** The start is not negative *)
Lemma ln_half' y : 0 < y <= 1 -> 0.693147 <= - ln (y / 2).
Proof.
  intros H. assert (ln (y / 2) <= - (693147 / 1000000)); [|lra].
  apply Rle_trans with (ln (/ 2)); [apply ln_mono; lra|]. rewrite <- (ln_exp (- (693147 / 1000000))). apply ln_mono; [lra|].
  pose (x := - (693147 / 1000000)). apply Rlt_le, Rminus_gt_0_lt. change (0 < exp x - / 2).
  ival_pos x 0%nat (-693147)%Z 1000000%Z (-693147)%Z 1000000%Z. unfold x; lra.
Qed.
Lemma hstart_nonneg t : 1.177409 <= t -> 0 <= hstart t.
Proof.
  intros H. unfold hstart. pose proof sqrt2_pos. assert (0 < / sqrt 2) by pos. set (N := t * 0.27061 + 2.30753). set (D := t * (t * 0.04481 + 0.99229) + 1).
  assert (HD : 0 < D) by (unfold D; nra).
  assert (Q : N / D - t <= 0); [|nra]. apply Rmult_le_reg_r with D; auto. unfold Rdiv. rewrite Rmult_minus_distr_r, Rmult_assoc, Rinv_l, Rmult_1_r by lra.
  assert (1.386291 <= t * t) by nra. assert (1.6322 < t * t * t) by nra. unfold N, D. nra.
Qed.
Lemma hinv_nonneg y : 0 < y <= 1 -> 0 <= hinv y.
Proof.
  intros H. unfold hinv. apply hstep_nonneg, hstep_nonneg; auto. apply hstart_nonneg.
  pose proof (ln_half' y H). rewrite <- (sqrt_square 1.177409) by lra. apply sqrt_le_1_alt. lra.
Qed.

(** ** The slope of the approximation *)
Fixpoint pderiv (p : list Z) : list Z := match p with [] => [] | _ :: p' => padd p' (0%Z :: pderiv p') end.
Lemma peval_deriv p x : is_derive (peval p) x (peval (pderiv p) x).
Proof.
  induction p as [|c p IH]; [apply (is_derive_const 0 x)|]. cbn [pderiv]. rewrite peval_add, peval_cons.
  apply (is_derive_ext (fun x => plus (IZR c) (x * peval p x))); [intros t; reflexivity|]. evar_last.
  - apply (is_derive_plus (fun _ => IZR c) (fun x => x * peval p x)); [apply (is_derive_const (IZR c) x)|].
    apply (is_derive_mult (fun x => x) (peval p) x 1 (peval (pderiv p) x)); [apply (is_derive_id x)|apply IH|intros; apply Rmult_comm].
  - unfold plus, mult, zero; cbn. ring.
Qed.
(** -E'(x) e^(x^2) for x = 2 (1 - u) / u *)
Definition sB (u : R) : R := u ^ 2 * (1 + u * nr_dP u) / 2 + 4 * (1 - u).
Definition Bz : list Z := padd (pmul [0; 0; 1]%Z (padd [100000000]%Z (0%Z :: dPz))) (pscal 800000000 [1; -1]%Z).
Lemma Bz_eval u : peval Bz u = 200000000 * sB u.
Proof.
  unfold Bz. rewrite peval_add, peval_mul, peval_add, (peval_cons 0 dPz), dPz_eval, peval_scal. unfold sB, peval. cbn [fold_right]. field.
Qed.
Definition sdB (u : R) : R := peval (pderiv Bz) u / 200000000.
Lemma sB_deriv u : is_derive sB u (sdB u).
Proof.
  apply (is_derive_ext (fun u => / 200000000 * peval Bz u)); [intros t; rewrite Bz_eval; cbn; field|]. evar_last.
  - apply (is_derive_scal (peval Bz) u (/ 200000000) (peval (pderiv Bz) u)), peval_deriv.
  - unfold sdB, mult; cbn. field.
Qed.
(** P'B + B', times 2*10^16 *)
Definition Lz : list Z := padd (pmul dPz Bz) (pscal 100000000 (pderiv Bz)).
Lemma Lz_eval u : peval Lz u = 20000000000000000 * (nr_dP u * sB u + sdB u).
Proof. unfold Lz. rewrite peval_add, peval_mul, peval_scal, dPz_eval, Bz_eval. unfold sdB. field. Qed.
Definition rr (u : R) : R := exp (nr_P u) * sB u.

Definition slope_ok (B L : list Z) (s : Z) (a b : Z) : bool :=
  ppos 12 (paff a b 100 (padd (pscal s B) L)) && ppos 12 (paff a b 100 (padd (pscal s B) (pscal (-1) L))).
Lemma sB_pos u : 0 <= u <= 1 -> 0 < sB u.
Proof.
  intros H. assert (T : ppos 12 (paff 0 100 100 Bz) = true) by (vm_cast_no_check (eq_refl true)).
  pose proof (ppos_on 12 0 100 100 _ eq_refl eq_refl T u ltac:(change (0 + 100)%Z with 100%Z; lra)) as K. rewrite Bz_eval in K. lra.
Qed.
Lemma slope_gen s a b B L u x y : slope_ok B L s a b = true ->
  (0 < b)%Z -> IZR a / 100 <= u <= IZR (a + b) / 100 -> peval B u = 200000000 * x -> peval L u = 20000000000000000 * y ->
  Rabs y <= IZR s / 100000000 * x.
Proof.
  intros H Hb Hu EB EL. apply andb_prop in H as [H1 H2].
  pose proof (ppos_on 12 a b 100 _ Hb eq_refl H1 u Hu) as K1. pose proof (ppos_on 12 a b 100 _ Hb eq_refl H2 u Hu) as K2.
  rewrite peval_add, !peval_scal, EB, EL in K1. rewrite peval_add, !peval_scal, EB, EL in K2. apply Rabs_le. lra.
Qed.
Lemma slope_bound s a b u : slope_ok Bz Lz s a b = true -> (0 < b)%Z -> IZR a / 100 <= u <= IZR (a + b) / 100 ->
  Rabs (nr_dP u * sB u + sdB u) <= IZR s / 100000000 * sB u.
Proof. intros H Hb Hu. exact (slope_gen s a b Bz Lz u _ _ H Hb Hu (Bz_eval u) (Lz_eval u)). Qed.
(** ln rr is flat *)
Lemma rr_flat s a b u c : slope_ok Bz Lz s a b = true -> (0 < b)%Z -> 0 <= IZR a / 100 -> IZR (a + b) / 100 <= 1 ->
  IZR a / 100 <= u <= IZR (a + b) / 100 -> IZR a / 100 <= c <= IZR (a + b) / 100 -> forall d, IZR s / 100000000 * Rabs (u - c) <= d ->
  rr c * (1 - d) <= rr u /\ rr u * (1 - d) <= rr c.
Proof.
  intros H Hb H0 H1 Hu Hc d Hd. pose (L := fun u => nr_P u + ln (sB u)).
  assert (EL : forall v, 0 <= v <= 1 -> rr v = exp (L v)).
  { intros v Hv. unfold L. rewrite exp_plus, exp_ln by (apply sB_pos; auto). reflexivity. }
  assert (DL : forall v, 0 <= v <= 1 -> is_derive L v (nr_dP v + / sB v * sdB v)).
  { intros v Hv. pose proof (sB_pos v Hv). unfold L. apply (is_derive_plus nr_P (fun v => ln (sB v))); [apply nr_P_deriv|]. evar_last.
    - apply (is_derive_comp ln sB v (/ sB v)); [apply is_derive_ln; auto|apply sB_deriv].
    - unfold scal; cbn. unfold mult; cbn. ring. }
  assert (BL : forall v, IZR a / 100 <= v <= IZR (a + b) / 100 -> Rabs (nr_dP v + / sB v * sdB v) <= IZR s / 100000000).
  { intros v Hv. pose proof (slope_bound s a b v H Hb Hv) as K. assert (P : 0 < sB v) by (apply sB_pos; lra).
    replace (nr_dP v + / sB v * sdB v) with ((nr_dP v * sB v + sdB v) * / sB v) by (field; lra).
    rewrite Rabs_mult, (Rabs_pos_eq (/ sB v)) by (apply Rlt_le, Rinv_0_lt_compat; auto).
    apply Rmult_le_reg_r with (sB v); auto. rewrite Rmult_assoc, Rinv_l, Rmult_1_r by lra. exact K. }
  assert (M : Rabs (L u - L c) <= d).
  { destruct (MVT_gen L c u (fun v => nr_dP v + / sB v * sdB v)) as (v & Hv & E).
    - intros v Hv. apply DL. unfold Rmin, Rmax in Hv. destruct (Rle_dec c u); lra.
    - intros v Hv. apply derivable_continuous_pt, ex_derive_Reals_0. eexists. apply DL. unfold Rmin, Rmax in Hv. destruct (Rle_dec c u); lra.
    - rewrite E, Rabs_mult. eapply Rle_trans; [|exact Hd]. apply Rmult_le_compat_r; [apply Rabs_pos|]. apply BL. unfold Rmin, Rmax in Hv. destruct (Rle_dec c u); lra. }
  rewrite !EL by lra. pose proof (exp_pos (L u)). pose proof (exp_pos (L c)). apply Rabs_le_between in M. split.
  - replace (L u) with (L c + (L u - L c)) by ring. rewrite exp_plus. apply Rmult_le_compat_l; [lra|]. pose proof (exp_ineq1_le (L u - L c)). lra.
  - replace (L c) with (L u + (L c - L u)) by ring. rewrite exp_plus. apply Rmult_le_compat_l; [lra|]. pose proof (exp_ineq1_le (L c - L u)). lra.
Qed.
(** rr at a point *)
Definition hB (u : R) : R := u ^ 2 * (1 + u * (1.00002368 + u * (0.74818392 + u * (0.29035254 + u * (- 0.74515224
  + u * (1.39434035 + u * (- 6.81122388 + u * (10.41961109 + u * (- 6.57721784 + u * 1.53785493))))))))) / 2 + 4 * (1 - u).
Lemma hB_eq u : sB u = hB u.
Proof. unfold sB, hB, nr_dP. lra. Qed.
Lemma rr_15 : ksp * 0.9999985 < rr (15 / 100) < ksp * 1.0000015.
Proof.
  unfold rr. rewrite hP_eq, hB_eq. unfold ksp. set (u := 15 / 100). split; apply Rminus_gt_0_lt; unfold hP, hB;
  ival_pos u 0%nat 15%Z 100%Z 15%Z 100%Z; unfold u; lra.
Qed.
Lemma rr_60 : ksp * 0.9999985 < rr (60 / 100) < ksp * 1.0000015.
Proof.
  unfold rr. rewrite hP_eq, hB_eq. unfold ksp. set (u := 60 / 100). split; apply Rminus_gt_0_lt; unfold hP, hB;
  ival_pos u 0%nat 60%Z 100%Z 60%Z 100%Z; unfold u; lra.
Qed.
Lemma rr_93 : ksp * 0.9999985 < rr (93 / 100) < ksp * 1.0000015.
Proof.
  unfold rr. rewrite hP_eq, hB_eq. unfold ksp. set (u := 93 / 100). split; apply Rminus_gt_0_lt; unfold hP, hB;
  ival_pos u 0%nat 93%Z 100%Z 93%Z 100%Z; unfold u; lra.
Qed.
Lemma rr_985 : ksp * 0.9999985 < rr (985 / 1000) < ksp * 1.0000015.
Proof.
  unfold rr. rewrite hP_eq, hB_eq. unfold ksp. set (u := 985 / 1000). split; apply Rminus_gt_0_lt; unfold hP, hB;
  ival_pos u 0%nat 985%Z 1000%Z 985%Z 1000%Z; unfold u; lra.
Qed.

Lemma rr_piece s a b u c : slope_ok Bz Lz s a b = true -> (0 < b)%Z -> 0 <= IZR a / 100 -> IZR (a + b) / 100 <= 1 ->
  IZR a / 100 <= u <= IZR (a + b) / 100 -> IZR a / 100 <= c <= IZR (a + b) / 100 ->
  ksp * 0.9999985 < rr c < ksp * 1.0000015 -> IZR s / 100000000 * Rabs (u - c) <= 0.0000084 ->
  ksp * 0.99999 <= rr u <= ksp * 1.00001.
Proof.
  intros H Hb H0 H1 Hu Hc HR HS. pose proof (rr_flat s a b u c H Hb H0 H1 Hu Hc 0.0000084 HS). pose proof ksp_close. lra.
Qed.
Lemma rr_bound u : 0 <= u <= 1 -> ksp * 0.99999 <= rr u <= ksp * 1.00001.
Proof.
  intros H.
  destruct (Rle_dec u 0.3); [|destruct (Rle_dec u 0.9); [|destruct (Rle_dec u 0.97)]].
  - apply (rr_piece 3000 0 30 u (15 / 100)); [vm_cast_no_check (eq_refl true)|reflexivity|lra|change (0 + 30)%Z with 30%Z; lra..|apply rr_15|].
    assert (Rabs (u - 15 / 100) <= 0.15) by (apply Rabs_le; lra). lra.
  - apply (rr_piece 2000 30 60 u (60 / 100)); [vm_cast_no_check (eq_refl true)|reflexivity|lra|change (30 + 60)%Z with 90%Z; lra..|apply rr_60|].
    assert (Rabs (u - 60 / 100) <= 0.3) by (apply Rabs_le; lra). lra.
  - apply (rr_piece 6000 90 7 u (93 / 100)); [vm_cast_no_check (eq_refl true)|reflexivity|lra|change (90 + 7)%Z with 97%Z; lra..|apply rr_93|].
    assert (Rabs (u - 93 / 100) <= 0.04) by (apply Rabs_le; lra). lra.
  - apply (rr_piece 55000 97 3 u (985 / 1000)); [vm_cast_no_check (eq_refl true)|reflexivity|lra|change (97 + 3)%Z with 100%Z; lra..|apply rr_985|].
    assert (Rabs (u - 985 / 1000) <= 0.015) by (apply Rabs_le; lra). lra.
Qed.
Lemma nr_pos_deriv z : 0 <= z -> is_derive nr_pos z (- (rr (/ (1 + z / 2)) * exp (- z ^ 2))).
Proof.
  intros H. pose proof (nr_t_range z H) as T. pose (t := fun z => / (1 + z / 2)).
  assert (DT : is_derive t z (- (t z ^ 2 / 2))). { unfold t. auto_derive; [lra|]. field. lra. }
  apply (is_derive_ext (fun z => t z * exp (nr_P (t z) - z ^ 2))); [intros; reflexivity|]. evar_last.
  - apply (is_derive_mult t (fun z => exp (nr_P (t z) - z ^ 2)) z (- (t z ^ 2 / 2)) ((nr_dP (t z) * (- (t z ^ 2 / 2)) - 2 * z) * exp (nr_P (t z) - z ^ 2))); [exact DT| |intros; apply Rmult_comm].
    apply (is_derive_comp exp (fun z => nr_P (t z) - z ^ 2)); [apply is_derive_exp|].
    apply (is_derive_minus (fun z => nr_P (t z)) (fun z => z ^ 2) z (nr_dP (t z) * (- (t z ^ 2 / 2))) (2 * z)).
    + evar_last; [apply (is_derive_comp nr_P t); [apply nr_P_deriv|exact DT]|]. unfold scal; cbn. unfold mult; cbn. ring.
    + auto_derive; [exact I|ring].
  - unfold plus, mult; cbn -[pow]. change (/ (1 + z / 2)) with (t z). unfold rr, sB.
    assert (ET : z * t z = 2 * (1 - t z)) by (unfold t; field; lra).
    replace (exp (nr_P (t z)) * (t z ^ 2 * (1 + t z * nr_dP (t z)) / 2 + 4 * (1 - t z)) * exp (- z ^ 2)) with ((t z ^ 2 * (1 + t z * nr_dP (t z)) / 2 + 2 * (2 * (1 - t z))) * (exp (nr_P (t z)) * exp (- z ^ 2))) by field.
    rewrite <- exp_plus, <- ET. unfold Rminus. field.
Qed.

(** ** Distance to the normal distribution function *)
Lemma phi_cont x : continuous phi x.
Proof.
  apply (ex_derive_continuous phi). unfold phi. auto_derive. pose proof PI_RGT_0. assert (0 < sqrt (2 * PI)) by pos. lra.
Qed.
Lemma phi_RInt a b : ex_RInt phi a b.
Proof. apply (ex_RInt_continuous phi). intros; apply phi_cont. Qed.
Lemma Ncdf_deriv x : is_derive Ncdf x (phi x).
Proof.
  unfold Ncdf. evar_last.
  - apply (is_derive_plus (fun _ => 1 / 2) (fun x => RInt phi 0 x)); [apply (is_derive_const (1 / 2) x)|].
    apply (is_derive_RInt phi (fun x => RInt phi 0 x) 0 x); [|apply phi_cont]. apply filter_forall. intros y. apply (RInt_correct phi), phi_RInt.
  - unfold plus, zero; cbn. ring.
Qed.
Lemma Ncdf_0 : Ncdf 0 = 1 / 2.
Proof. unfold Ncdf. rewrite RInt_point. unfold zero; cbn. ring. Qed.
Lemma Ncdf_neg x : Ncdf (- x) = 1 - Ncdf x.
Proof.
  unfold Ncdf. assert (E : RInt phi 0 (- x) = - RInt phi 0 x); [|lra].
  pose proof (RInt_comp_lin phi (-1) 0 0 x (phi_RInt _ _)) as L. replace (-1 * 0 + 0) with 0 in L by ring. replace (-1 * x + 0) with (- x) in L by ring.
  rewrite <- L. rewrite <- (RInt_opp phi) by apply phi_RInt. apply RInt_ext. intros y _. replace (-1 * y + 0) with (- y) by ring. rewrite phi_even.
  unfold scal, opp; cbn. unfold mult; cbn. ring.
Qed.
Lemma ksp_phi x : phi x = ksp / (2 * sqrt 2) * exp (- (x / sqrt 2) ^ 2).
Proof.
  rewrite kap_phi. pose proof sqrt2_pos. assert (S22 : sqrt 2 * sqrt 2 = 2) by (apply sqrt_sqrt; lra). pose proof PI_RGT_0. assert (SP : 0 < sqrt PI) by pos.
  f_equal.
  - unfold kap, ksp. rewrite sqrt_div by lra. apply Rmult_eq_reg_r with (sqrt 2 * sqrt PI); [|nra].
    replace (sqrt 2 / sqrt PI / 2 * (sqrt 2 * sqrt PI)) with (sqrt 2 * sqrt 2 / 2) by (field; lra). rewrite S22. field. lra.
  - f_equal. f_equal. unfold Rdiv. rewrite Rpow_mult_distr. replace ((/ sqrt 2) ^ 2) with (/ (sqrt 2 * sqrt 2)) by (field; lra). now rewrite S22.
Qed.
(** Upper half of the distribution function, with its value at 0 continued. *)
Definition Phip (x : R) : R := 1 - nr_pos (x / sqrt 2) / 2.
Lemma Phip_deriv x : 0 <= x -> is_derive Phip x (rr (/ (1 + x / sqrt 2 / 2)) / ksp * phi x).
Proof.
  intros H. pose proof sqrt2_pos. assert (Hz : 0 <= x / sqrt 2) by pos. pose proof (nr_pos_deriv _ Hz) as D. pose proof ksp_close.
  unfold Phip. evar_last.
  - apply (is_derive_minus (fun _ => 1) (fun x => nr_pos (x / sqrt 2) / 2)); [apply (is_derive_const 1 x)|].
    apply (is_derive_ext (fun x => / 2 * nr_pos (x / sqrt 2))); [intros t; cbn; field|].
    apply (is_derive_scal (fun x => nr_pos (x / sqrt 2)) x (/ 2)).
    apply (is_derive_comp nr_pos (fun x => x / sqrt 2) x _ (/ sqrt 2) D). auto_derive; [lra|field; lra].
  - unfold minus, plus, opp, zero, scal, mult; cbn -[pow]. unfold mult; cbn -[pow]. rewrite ksp_phi. field. lra.
Qed.
Lemma mono_diff f g df dg a b : (forall c, a <= c <= b -> is_derive f c (df c)) -> (forall c, a <= c <= b -> is_derive g c (dg c)) ->
  (forall c, a <= c <= b -> df c <= dg c) -> a <= b -> f b - f a <= g b - g a.
Proof.
  intros Hf Hg HL Hab. enough (g a - f a <= g b - f b) by lra.
  apply (mono_of_deriv (fun x => g x - f x) (fun x => dg x - df x)); auto.
  - intros c Hc. apply (is_derive_minus g f); auto.
  - intros c Hc. pose proof (HL c Hc). lra.
Qed.
Lemma Phip_close x y : 0 <= x <= y -> 0.99999 * (Ncdf y - Ncdf x) <= Phip y - Phip x <= 1.00001 * (Ncdf y - Ncdf x).
Proof.
  intros H. pose proof ksp_close as K. pose proof sqrt2_pos.
  assert (Q : forall c, 0 <= c -> 0.99999 * phi c <= rr (/ (1 + c / sqrt 2 / 2)) / ksp * phi c <= 1.00001 * phi c).
  { intros c Hc. assert (0 <= c / sqrt 2) by pos. pose proof (nr_t_range _ H1). pose proof (rr_bound (/ (1 + c / sqrt 2 / 2)) ltac:(lra)) as B. pose proof (phi_pos c).
    assert (0.99999 <= rr (/ (1 + c / sqrt 2 / 2)) / ksp <= 1.00001); [|split; apply Rmult_le_compat_r; lra].
    split; apply Rmult_le_reg_r with ksp; try lra; unfold Rdiv; rewrite Rmult_assoc, Rinv_l by lra; lra. }
  rewrite !Rmult_minus_distr_l. split.
  - apply (mono_diff (fun x => 0.99999 * Ncdf x) Phip (fun x => 0.99999 * phi x) (fun x => rr (/ (1 + x / sqrt 2 / 2)) / ksp * phi x)); try lra.
    + intros c Hc. apply (is_derive_scal Ncdf), Ncdf_deriv.
    + intros c Hc. apply Phip_deriv. lra.
    + intros c Hc. apply Q. lra.
  - apply (mono_diff Phip (fun x => 1.00001 * Ncdf x) (fun x => rr (/ (1 + x / sqrt 2 / 2)) / ksp * phi x) (fun x => 1.00001 * phi x)); try lra.
    + intros c Hc. apply Phip_deriv. lra.
    + intros c Hc. apply (is_derive_scal Ncdf), Ncdf_deriv.
    + intros c Hc. apply Q. lra.
Qed.
Lemma Phi_close x : Rabs (Phi x - Ncdf x) <= 0.0000051.
Proof.
  assert (P : forall x, 0 <= x -> Rabs (Phip x - Ncdf x) <= 0.0000051).
  { intros y Hy. pose proof (Phip_close 0 y ltac:(lra)) as C. rewrite Ncdf_0 in C. pose proof sqrt2_pos.
    assert (E0 : Phip 0 = 1 - nr_pos 0 / 2) by (unfold Phip; do 3 f_equal; field; lra). pose proof nr_pos_0 as N0. rewrite E0 in C.
    assert (R : Phip y < 1). { unfold Phip. pose proof (nr_pos_gt0 (y / sqrt 2) ltac:(pos)). lra. }
    assert (0 <= Ncdf y - 1 / 2). { enough (0 <= RInt phi 0 y) by (unfold Ncdf; lra). apply RInt_ge_0; [lra|apply phi_RInt|]. intros; apply Rlt_le, phi_pos. }
    apply Rabs_le. lra. }
  destruct (Rtotal_order x 0) as [H|[->|H]].
  - assert (E : Phi x = 1 - Phip (- x)) by (rewrite Phi_neg by lra; unfold Phip; lra).
    assert (EN : Ncdf x = 1 - Ncdf (- x)) by (rewrite <- Ncdf_neg; f_equal; ring).
    rewrite E, EN. replace (1 - Phip (- x) - (1 - Ncdf (- x))) with (- (Phip (- x) - Ncdf (- x))) by ring. rewrite Rabs_Ropp. apply P. lra.
  - rewrite Phi_neg, Ncdf_0 by lra. pose proof sqrt2_pos. replace (- 0 / sqrt 2) with 0 by (field; lra). pose proof nr_pos_0. apply Rabs_le. lra.
  - rewrite Phi_pos by lra. apply (P x). lra.
Qed.
