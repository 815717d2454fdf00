(** Facts about the error-function fit and its inverse.  No model code here. *)
From Coq Require Import ZArith List Bool Reals Lra Lia.
From Coquelicot Require Import Coquelicot.
From Verif Require Import Tac Spec SpecTS.
Local Open Scope R_scope.

(** ** Numerical facts about the error function fit *)
Definition nr_dP (u : R) : R :=
  1.00002368 + 2 * 0.37409196 * u + 3 * 0.09678418 * u ^ 2 - 4 * 0.18628806 * u ^ 3
  + 5 * 0.27886807 * u ^ 4 - 6 * 1.13520398 * u ^ 5 + 7 * 1.48851587 * u ^ 6 - 8 * 0.82215223 * u ^ 7 + 9 * 0.17087277 * u ^ 8.
Lemma nr_dP_pos u : 0 <= u <= 1 ->
  0 < nr_dP u.
Proof.
  intros H. unfold nr_dP.
  assert (Q : - (3 / 10) <= 5 * 0.27886807 - 6 * 1.13520398 * u + 7 * 1.48851587 * u ^ 2 - 8 * 0.82215223 * u ^ 3 + 9 * 0.17087277 * u ^ 4).
  { assert (0 <= u ^ 2) by nra.
    replace (5 * 0.27886807 - 6 * 1.13520398 * u + 7 * 1.48851587 * u ^ 2 - 8 * 0.82215223 * u ^ 3 + 9 * 0.17087277 * u ^ 4)
      with (9 * 0.17087277 * (u ^ 2 - 2.138 * u + 1) ^ 2 + (5 * 0.27886807 - 9 * 0.17087277 + (9 * 0.17087277 * 2 * 2.138 - 6 * 1.13520398) * u
        + (7 * 1.48851587 - 9 * 0.17087277 * (2.138 ^ 2 + 2)) * u ^ 2 + (9 * 0.17087277 * 2 * 2.138 - 8 * 0.82215223) * u ^ 3)) by ring.
    assert (0 <= (u ^ 2 - 2.138 * u + 1) ^ 2) by apply pow2_ge_0. assert (u ^ 3 <= u ^ 2) by nra. assert (0 <= u ^ 3) by nra. nra. }
  assert (0 <= u ^ 2 <= 1) by nra. assert (0 <= u ^ 3 <= 1) by (split; nra). assert (0 <= u ^ 4 <= 1) by (split; nra).
  set (q := 5 * 0.27886807 - _ + _ - _ + _) in Q.
  replace (1.00002368 + _ + _ - _ + _ - _ + _ - _ + _) with
    (1.00002368 + 2 * 0.37409196 * u + 3 * 0.09678418 * u ^ 2 - 4 * 0.18628806 * u ^ 3 + q * u ^ 4) by (unfold q; ring).
  assert (- (3 / 10) * u ^ 4 <= q * u ^ 4) by nra. assert (u ^ 4 <= u) by nra. assert (u ^ 3 <= u) by nra. nra.
Qed.

Lemma nr_P_deriv u : is_derive nr_P u (nr_dP u).
Proof. unfold nr_P, nr_dP. auto_derive; [exact I|]. ring. Qed.
Lemma nr_P_lt a b : 0 <= a -> a < b -> b <= 1 -> nr_P a < nr_P b.
Proof.
  intros Ha Hab Hb. destruct (MVT_cor2 nr_P nr_dP a b Hab) as (c & E & Hc).
  - intros c _. apply is_derive_Reals, nr_P_deriv.
  - pose proof (nr_dP_pos c ltac:(lra)). nra.
Qed.
Lemma nr_P_le a b : 0 <= a -> a <= b -> b <= 1 -> nr_P a <= nr_P b.
Proof. intros Ha [H| ->] Hb; [apply Rlt_le, nr_P_lt; auto|lra]. Qed.
Lemma nr_t_range z : 0 <= z -> 0 < / (1 + z / 2) <= 1.
Proof. intros; split; [pos|apply Rinv_le_1; lra]. Qed.
Lemma nr_pos_gt0 z : 0 <= z -> 0 < nr_pos z.
Proof. intros H. unfold nr_pos. cbv zeta. pose proof (nr_t_range z H). pos. Qed.
Lemma nr_pos_lt z1 z2 : 0 <= z1 -> z1 < z2 -> nr_pos z2 < nr_pos z1.
Proof.
  intros H1 H2. unfold nr_pos. cbv zeta. pose proof (nr_t_range z1 H1). pose proof (nr_t_range z2 ltac:(lra)).
  assert (T : / (1 + z2 / 2) < / (1 + z1 / 2)) by (apply Rinv_lt_mono; lra).
  set (t1 := / (1 + z1 / 2)) in *. set (t2 := / (1 + z2 / 2)) in *.
  pose proof (nr_P_lt t2 t1 ltac:(lra) T ltac:(lra)).
  assert (exp (nr_P t2 - z2 ^ 2) < exp (nr_P t1 - z1 ^ 2)) by (apply exp_increasing; nra).
  pose proof (exp_pos (nr_P t2 - z2 ^ 2)). nra.
Qed.
Lemma nr_pos_0 : 1 < nr_pos 0 < 1.0000001.
Proof.
  unfold nr_pos. cbv zeta. replace (/ (1 + 0 / 2)) with 1 by field. replace (nr_P 1 - 0 ^ 2) with 0.00000003 by (unfold nr_P; lra).
  rewrite Rmult_1_l. split.
  - rewrite <- exp_0 at 1. apply exp_increasing. lra.
  - set (x := 0.00000003). assert (Hx : 0 < x < 1 / 20000000) by (unfold x; lra).
    replace (exp x) with (/ exp (- x)) by (rewrite exp_Ropp; apply Rinv_inv).
    pose proof (exp_ineq1_le (- x)). apply Rle_lt_trans with (/ (1 + - x)); [apply Rinv_le_mono; lra|].
    apply Rmult_lt_reg_r with (1 + - x); [lra|]. rewrite Rinv_l by lra. lra.
Qed.
Lemma nr_pos_range z : 0 <= z -> 0 < nr_pos z < 1.0000001.
Proof.
  intros H. split; [apply nr_pos_gt0; auto|]. pose proof nr_pos_0. destruct H as [H|<-]; [|lra].
  pose proof (nr_pos_lt 0 z ltac:(lra) H). lra.
Qed.
Lemma nr_erfc_range x : 0 < nr_erfc x < 2.
Proof.
  unfold nr_erfc. destruct (Rlt_dec x 0).
  - pose proof (nr_pos_range (- x) ltac:(lra)). lra.
  - pose proof (nr_pos_range x ltac:(lra)). lra.
Qed.
Lemma sqrt2_pos : 0 < sqrt 2.
Proof. apply sqrt_lt_R0. lra. Qed.
Lemma Phi_range x : 0 < Phi x < 1.
Proof. unfold Phi. pose proof (nr_erfc_range (- x / sqrt 2)). lra. Qed.
Lemma Phi_neg x : x <= 0 -> Phi x = nr_pos (- x / sqrt 2) / 2.
Proof.
  intros H. unfold Phi, nr_erfc. assert (0 <= - x / sqrt 2) by (pose proof sqrt2_pos; unfold Rdiv; apply Rmult_le_pos; [lra|pos]).
  destruct (Rlt_dec _ _); [lra|reflexivity].
Qed.
Lemma Phi_pos x : 0 < x -> Phi x = 1 - nr_pos (x / sqrt 2) / 2.
Proof.
  intros H. unfold Phi, nr_erfc. assert (0 < x / sqrt 2) by (pose proof sqrt2_pos; pos).
  replace (- x / sqrt 2) with (- (x / sqrt 2)) by (field; apply Rgt_not_eq, sqrt2_pos).
  destruct (Rlt_dec _ _); [|lra]. rewrite Ropp_involutive. lra.
Qed.
(** The fit is symmetric except at the jump at 0. *)
Lemma Phi_compl x : x <> 0 -> Phi x + Phi (- x) = 1.
Proof.
  intros H. destruct (Rlt_dec 0 x).
  - rewrite Phi_pos, Phi_neg by lra. rewrite Ropp_involutive. lra.
  - rewrite Phi_neg, Phi_pos by lra. lra.
Qed.
Lemma Phi_0 : 1 / 2 < Phi 0 < 0.50000005.
Proof.
  rewrite Phi_neg by lra. replace (- 0 / sqrt 2) with 0 by (unfold Rdiv; ring). pose proof nr_pos_0. lra.
Qed.
Lemma Phi_lt_neg x y : x < y -> y <= 0 -> Phi x < Phi y.
Proof.
  intros H1 H2. rewrite !Phi_neg by lra. pose proof sqrt2_pos.
  assert (nr_pos (- x / sqrt 2) < nr_pos (- y / sqrt 2)); [|lra]. apply nr_pos_lt; unfold Rdiv.
  - apply Rmult_le_pos; [lra|pos].
  - apply Rmult_lt_compat_r; [pos|lra].
Qed.
Lemma Phi_lt_pos x y : 0 < x -> x < y -> Phi x < Phi y.
Proof. intros H1 H2. pose proof (Phi_lt_neg (- y) (- x) ltac:(lra) ltac:(lra)). pose proof (Phi_compl x ltac:(lra)). pose proof (Phi_compl y ltac:(lra)). lra. Qed.
Lemma Phi_pos_ge x : 0 <= x -> 0.4999999 < Phi x.
Proof.
  intros H. pose proof Phi_0. destruct H as [H|<-]; [|lra]. rewrite Phi_pos by auto.
  pose proof sqrt2_pos. pose proof (nr_pos_range (x / sqrt 2) ltac:(apply Rlt_le; pos)). lra.
Qed.
(** Monotone up to the jump. *)
Lemma Phi_almost_mono x y : x <= y -> Phi x <= Phi y + 0.0000002.
Proof.
  intros H. pose proof Phi_0. destruct (Rle_dec y 0).
  - destruct H as [H| ->]; [|lra]. pose proof (Phi_lt_neg x y H r). lra.
  - destruct (Rlt_dec 0 x).
    + destruct H as [H| ->]; [|lra]. pose proof (Phi_lt_pos x y r H). lra.
    + pose proof (Phi_pos_ge y ltac:(lra)). assert (Phi x <= Phi 0); [|lra].
      destruct (Req_dec x 0) as [->|]; [lra|]. apply Rlt_le, Phi_lt_neg; lra.
Qed.
Lemma phi_pos x : 0 < phi x.
Proof. unfold phi. apply Rdiv_lt_0_compat; [apply exp_pos|]. pose proof PI_RGT_0. pos. Qed.
Lemma phi_even x : phi (- x) = phi x.
Proof. unfold phi. replace ((- x) ^ 2) with (x ^ 2) by ring. reflexivity. Qed.
Lemma tiny_small : 0 < tiny < 1 / 10.
Proof.
  unfold tiny. assert (H : 0 < 10 ^ 171) by (apply pow_lt; lra). split; [pos|].
  apply Rmult_lt_reg_r with (10 ^ 171); auto. unfold Rdiv. rewrite Rmult_assoc, Rinv_l by lra.
  change (171)%nat with (11 + 160)%nat. rewrite pow_add. assert (1 <= 10 ^ 160) by (apply pow_R1_Rle; lra). lra.
Qed.


(** ** The inverse: two Halley steps from a rational start *)
Lemma PI_bounds : 3.14 < PI < 3.15.
Proof.
  pose proof (PI_2_3_7_ineq 1) as [L U]. cbn [Nat.mul Nat.add sum_f_R0] in L, U. unfold tg_alt, PI_2_3_7_tg, Ratan_seq in L, U.
  cbn in L, U. lra.
Qed.
Lemma two_sqrtpi : 1.12 < 2 / sqrt PI < 1.13.
Proof.
  pose proof PI_bounds. assert (P : 0 < sqrt PI) by (apply sqrt_lt_R0; lra).
  assert (S : sqrt PI * sqrt PI = PI) by (apply sqrt_sqrt; lra).
  split; apply Rmult_lt_reg_r with (sqrt PI); auto; unfold Rdiv; rewrite Rmult_assoc, Rinv_l by lra; nra.
Qed.
Lemma nr_pos_mul x : 0 <= x -> x * nr_pos x < 1.11 * exp (- x ^ 2).
Proof.
  intros Hx. unfold nr_pos. cbv zeta. pose proof (nr_t_range x Hx) as [U1 U2]. set (u := / (1 + x / 2)) in *.
  assert (E : x * u = 2 * (1 - u)) by (unfold u; field; lra).
  unfold Rminus at 1. rewrite exp_plus. pose proof (exp_pos (- x ^ 2)).
  replace (x * (u * (exp (nr_P u) * exp (- x ^ 2)))) with (x * u * exp (nr_P u) * exp (- x ^ 2)) by ring. rewrite E.
  apply Rmult_lt_compat_r; auto. pose proof (exp_pos (nr_P u)). destruct (Rle_dec 0.45 u).
  - assert (exp (nr_P u) <= exp (nr_P 1)) by (apply exp_mono, nr_P_le; lra).
    assert (exp (nr_P 1) < 1.0000001).
    { pose proof nr_pos_0 as Z. unfold nr_pos in Z. cbv zeta in Z. replace (/ (1 + 0 / 2)) with 1 in Z by field.
      replace (nr_P 1 - 0 ^ 2) with (nr_P 1) in Z by ring. lra. }
    nra.
  - assert (exp (nr_P u) <= exp (nr_P 0.45)) by (apply exp_mono, nr_P_le; lra).
    assert (nr_P 0.45 < - (72 / 100)) by (unfold nr_P; lra).
    assert (exp (nr_P 0.45) < exp (- (72 / 100))) by (apply exp_increasing; auto).
    assert (exp (- (72 / 100)) < 0.55).
    { rewrite exp_Ropp. replace (72 / 100) with (0.36 + 0.36) by lra. rewrite exp_plus. pose proof (exp_ineq1_le 0.36).
      assert (1.84 < exp 0.36 * exp 0.36) by nra. apply Rlt_trans with (/ 1.84); [apply Rinv_lt_mono; lra|lra]. }
    nra.
Qed.
Definition hden (y x : R) : R := 2 / sqrt PI * exp (- (x * x)) + - x * (nr_erfc x - y).
Definition hstep (y x : R) : R := x + (nr_erfc x - y) / hden y x.
Lemma hden_pos y x : 0 < y <= 1 -> -1 <= x -> 0 < hden y x.
Proof.
  intros Hy Hx. unfold hden. pose proof two_sqrtpi as K. set (k := 2 / sqrt PI) in *. clearbody k.
  destruct (Rlt_dec x 0).
  - unfold nr_erfc. destruct (Rlt_dec x 0); [|lra]. pose proof (nr_pos_range (- x) ltac:(lra)).
    assert (/ 3 <= exp (- (x * x))).
    { apply Rle_trans with (exp (Ropp 1)). - rewrite exp_Ropp. apply Rinv_le_mono; [apply exp_pos|apply exp_le_3]. - apply exp_mono. nra. }
    nra.
  - unfold nr_erfc. destruct (Rlt_dec x 0); [lra|]. pose proof (nr_pos_mul x ltac:(lra)).
    replace (- x ^ 2) with (- (x * x)) in * by ring. pose proof (exp_pos (- (x * x))). nra.
Qed.
Lemma hstep_ge y x : 0 < y <= 1 -> - (2 / 100) <= x -> -1 <= hstep y x.
Proof.
  intros Hy Hx. pose proof (hden_pos y x Hy ltac:(lra)) as HD. unfold hstep.
  destruct (Rle_dec 0 (nr_erfc x - y)) as [H|H].
  - assert (0 <= (nr_erfc x - y) / hden y x) by pos. lra.
  - set (k := y - nr_erfc x). replace (nr_erfc x - y) with (- k) by (unfold k; ring).
    assert (Hk : 0 < k) by (unfold k; lra). assert (Hk1 : k < 1) by (unfold k; pose proof (nr_erfc_range x); lra).
    replace (- k / hden y x) with (- (k / hden y x)) by (field; lra).
    enough (k / hden y x <= x + 1) by lra.
    apply Rmult_le_reg_r with (hden y x); auto. unfold Rdiv. rewrite Rmult_assoc, Rinv_l, Rmult_1_r by lra.
    unfold hden. replace (nr_erfc x - y) with (- k) by (unfold k; ring). pose proof two_sqrtpi as K. set (q := 2 / sqrt PI) in *. clearbody q.
    pose proof (exp_ineq1_le (- (x * x))) as EX. pose proof (exp_pos (- (x * x))) as EP. set (ex := exp _) in *. clearbody ex.
    destruct (Rlt_dec x 0).
    + assert (k < 0.000001). { unfold k, nr_erfc. destruct (Rlt_dec x 0); [|lra]. pose proof (nr_pos_range (- x) ltac:(lra)). lra. }
      assert (0.9 <= ex) by nra. assert (1 <= q * ex) by nra. nra.
    + destruct (Rle_dec 1 x).
      * assert (0 < q * ex) by nra. assert (1 <= x * x) by nra. assert (k <= x * x * k) by nra.
        replace ((x + 1) * (q * ex + - x * - k)) with (x * (q * ex) + q * ex + x * x * k + x * k) by ring. assert (0 <= x * (q * ex)) by nra. nra.
      * assert (A : 1.12 * (1 - x * x) <= q * ex) by nra.
        assert (1.12 * (1 - x * x) * k <= q * ex). { assert (0 <= 1.12 * (1 - x * x)) by nra. nra. }
        assert (k <= k * (1.12 + 2.12 * x - 0.12 * x * x - 1.12 * x * x * x)).
        { assert (1 <= 1.12 + 2.12 * x - 0.12 * x * x - 1.12 * x * x * x) by nra. nra. }
        nra.
Qed.
(** Rational start for probability y/2, t = sqrt (-2 ln (y/2)). *)
Definition hstart (t : R) : R :=
  - / sqrt 2 * ((t * 0.27061 + 2.30753) / (t * (t * 0.04481 + 0.99229) + 1) - t).
Lemma exp_nat n x : exp (INR n * x) = exp x ^ n.
Proof.
  induction n as [|n IH]; [cbn; rewrite Rmult_0_l; apply exp_0|].
  rewrite S_INR, Rmult_plus_distr_r, Rmult_1_l, exp_plus, IH. cbn. ring.
Qed.
Lemma ln_half y : 0 < y <= 1 -> 0.68 <= - ln (y / 2).
Proof.
  intros H. assert (ln (y / 2) <= - (68 / 100)); [|lra].
  apply Rle_trans with (ln (/ 2)); [apply ln_mono; lra|]. rewrite <- (ln_exp (- (68 / 100))). apply ln_mono; [lra|].
  replace (- (68 / 100)) with (INR 32 * - (2125 / 100000)) by (rewrite INR_IZR_INZ; cbn; lra). rewrite exp_nat.
  apply Rle_trans with ((1 + - (2125 / 100000)) ^ 32); [lra|]. apply pow_incr. split; [lra|apply exp_ineq1_le].
Qed.
Lemma hstart_ge t : 1.166 <= t -> - (2 / 100) <= hstart t.
Proof.
  intros H. unfold hstart. assert (S : sqrt 2 * sqrt 2 = 2) by (apply sqrt_sqrt; lra). pose proof sqrt2_pos.
  assert (1.41 < sqrt 2) by nra. set (N := t * 0.27061 + 2.30753). set (D := t * (t * 0.04481 + 0.99229) + 1).
  assert (HD : 0 < D) by (unfold D; nra).
  assert (Q : N / D - t <= 0.028). { apply Rmult_le_reg_r with D; auto. unfold Rdiv. rewrite Rmult_minus_distr_r, Rmult_assoc, Rinv_l, Rmult_1_r by lra. unfold N, D. nra. }
  set (q := N / D - t) in *. clearbody q. assert (0 < / sqrt 2 < 0.71). { split; [pos|]. apply Rlt_le_trans with (/ 1.41); [apply Rinv_lt_mono; lra|lra]. }
  set (i := / sqrt 2) in *. clearbody i. destruct (Rle_dec q 0); nra.
Qed.
(** The value of the inverse for y in (0, 1]. *)
Definition hinv (y : R) : R := hstep y (hstep y (hstart (sqrt (-2 * ln (y / 2))))).
Lemma hinv_dens y : 0 < y <= 1 ->
  let x := hstart (sqrt (-2 * ln (y / 2))) in 0 < y / 2 /\ 0 <= -2 * ln (y / 2) /\
  0 < sqrt (-2 * ln (y / 2)) * (sqrt (-2 * ln (y / 2)) * 0.04481 + 0.99229) + 1 /\ 0 < hden y x /\ 0 < hden y (hstep y x).
Proof.
  intros Hy x. pose proof (ln_half y Hy) as L. pose proof (sqrt_pos (-2 * ln (y / 2))) as S0.
  assert (S1 : 1.166 <= sqrt (-2 * ln (y / 2))).
  { apply Rle_trans with (sqrt (1.166 * 1.166)); [rewrite sqrt_square by lra; lra|]. apply sqrt_le_1_alt. lra. }
  pose proof (hstart_ge _ S1). fold x in H. split; [lra|]. split; [lra|]. split; [nra|]. split.
  - apply hden_pos; auto. lra.
  - apply hden_pos; auto. apply hstep_ge; auto.
Qed.

(** The approximate erfc exceeds 1 at 0, hence also close to 0. *)
Lemma nr_pos_near0 : exists z, 0 < z /\ 1 < nr_pos z.
Proof.
  destruct nr_pos_0 as [N0 _].
  assert (C : continuity_pt nr_pos 0).
  { apply derivable_continuous_pt. apply ex_derive_Reals_0. unfold nr_pos, nr_P. auto_derive. repeat split; lra. }
  destruct (C ((nr_pos 0 - 1) / 2) ltac:(lra)) as (d & Hd & D). exists (d / 2). split; [lra|].
  specialize (D (d / 2)). assert (E : R_dist (nr_pos (d / 2)) (nr_pos 0) < (nr_pos 0 - 1) / 2).
  { apply D. split; [split; [exact I|lra]|]. cbn. unfold R_dist. rewrite Rminus_0_r, Rabs_right; lra. }
  unfold R_dist in E. apply Rabs_def2 in E. lra.
Qed.
