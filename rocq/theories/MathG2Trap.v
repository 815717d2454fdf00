(** A double zero of Glickman's volatility function on which the Illinois
    iteration never stops.  No model code in this file. *)
From Coq Require Import ZArith List Bool Reals Lra Lia.
From Coquelicot Require Import Coquelicot.
From Verif Require Import Tac Spec MathIllinois MathGlicko2 MathPoly MathIval.
Import ListNotations.
Local Open Scope R_scope.

(** ** The trap: B approaches the double zero p from the left, the other end b
    and its value [-g], halved at every step, stay where they are. *)
Section Trap.
  Variables (f : R -> R) (p b m K dm : R).
  Hypothesis Hb : p < b.
  Hypothesis Hm : 0 < m.
  Hypothesis HK : K < 2 * m.
  Hypothesis Hq : forall d, 0 < d <= dm -> m * d ^ 2 <= f (p - d) <= K * d ^ 2.
  Definition trap (g d : R) : Prop := 0 < g /\ 0 < d <= dm /\ f (p - d) * (b - p) < d * g.

  Lemma trap_step g d : trap g d ->
    let C := nxt b (- g) (p - d) (f (p - d)) in
    exists d', C = p - d' /\ 0 < d' <= dm /\ 0 < f C /\ trap (g / 2) d' /\ trap g d'.
  Proof using All.
    intros (Hg & Hd & Hw) C. destruct (Hq d Hd) as [Q1 Q2]. assert (D2 : 0 < d ^ 2) by (apply pow_lt; lra).
    assert (F0 : 0 < f (p - d)) by nra. set (F := f (p - d)) in *.
    set (d' := (d * g - F * (b - p)) / (F + g)).
    assert (EC : C = p - d') by (unfold C, nxt, d'; field; lra).
    assert (P' : 0 < d') by (unfold d'; apply Rdiv_lt_0_compat; lra).
    assert (L' : d' * g <= d * g - F * (b - p)).
    { unfold d'. apply Rmult_le_reg_r with (F + g); [lra|].
      replace ((d * g - F * (b - p)) / (F + g) * g * (F + g)) with ((d * g - F * (b - p)) * g) by (field; lra).
      apply Rmult_le_compat_l; lra. }
    assert (M' : d' < d) by nra.
    destruct (Hq d' ltac:(lra)) as [R1 R2]. assert (D2' : 0 < d' ^ 2) by (apply pow_lt; lra).
    assert (T : trap (g / 2) d').
    { split; [lra|]. split; [lra|].
      (* f(p-d') b <= K d'^2 b and m d^2 <= F *)
      apply Rle_lt_trans with (K * d' ^ 2 * (b - p)); [apply Rmult_le_compat_r; lra|].
      assert (Z1 : m * d * (b - p) < g).
      { apply Rmult_lt_reg_r with d; [lra|]. apply Rle_lt_trans with (F * (b - p)); [|lra].
        replace (m * d * (b - p) * d) with (m * d ^ 2 * (b - p)) by ring. apply Rmult_le_compat_r; lra. }
      assert (Z2 : d' * g <= d * (g - m * d * (b - p))).
      { apply Rle_trans with (d * g - F * (b - p)); [lra|].
        replace (d * (g - m * d * (b - p))) with (d * g - m * d ^ 2 * (b - p)) by ring.
        assert (m * d ^ 2 * (b - p) <= F * (b - p)) by (apply Rmult_le_compat_r; lra). lra. }
      set (e := b - p) in *. set (x := m * d * e) in *. assert (He : 0 < e) by (unfold e; lra).
      assert (HK0 : 0 < K) by nra.
      (* K d' e < g / 2 *)
      assert (Z3 : K * d' * e < g / 2).
      { apply Rmult_lt_reg_r with g; [lra|]. replace (K * d' * e * g) with (K * e * (d' * g)) by ring.
        apply Rle_lt_trans with (K * e * (d * (g - x))); [apply Rmult_le_compat_l; [nra|lra]|].
        apply Rlt_le_trans with (2 * m * e * (d * (g - x))).
        - apply Rmult_lt_compat_r; [apply Rmult_lt_0_compat; lra|]. apply Rmult_lt_compat_r; lra.
        - replace (2 * m * e * (d * (g - x))) with (2 * (x * (g - x))) by (unfold x; ring).
          assert (0 <= (g - 2 * x) ^ 2) by apply pow2_ge_0. nra. }
      replace (K * d' ^ 2 * e) with (d' * (K * d' * e)) by ring. apply Rmult_lt_compat_l; lra. }
    exists d'. split; [exact EC|]. split; [lra|]. split; [rewrite EC; nra|]. split; [exact T|].
    destruct T as (T1 & T2 & T3). split; [lra|]. split; [lra|]. nra.
  Qed.
End Trap.

(** ** The function: S = 685, D = 7, a = -171/128, tau^2 = 1/4, double zero at 0. *)
Definition tf (u : R) : R := hf 685 7 (- (171 / 128)) (1 / 4) u.
Definition tf' (u : R) : R := hf' 685 7 (1 / 4) u.
Definition tf'' (u : R) : R := let y := exp u in y * (33565 - 19376 * y + 699 * y ^ 2) / (2 * (7 + y) ^ 4).
Lemma tf_deriv u : derivable_pt_lim tf u (tf' u).
Proof. apply hf_dlim; lra. Qed.
Lemma tf'_deriv u : derivable_pt_lim tf' u (tf'' u).
Proof.
  apply is_derive_Reals. unfold tf', tf'', hf'. pose proof (exp_pos u). auto_derive.
  - apply Rgt_not_eq. unfold Rgt. assert (0 < (7 + exp u) ^ 3) by (apply pow_lt; lra). cbn -[pow] in *. cbn. nra.
  - field. lra.
Qed.
Lemma tf_0 : tf 0 = 0. Proof. unfold tf, hf. rewrite exp_0. lra. Qed.
Lemma tf'_0 : tf' 0 = 0. Proof. unfold tf', hf'. rewrite exp_0. lra. Qed.
Lemma poly_up' y : 26 / 100 <= y <= 1 -> y * (33565 - 19376 * y + 699 * y ^ 2) < 4.2 * (7 + y) ^ 4.
Proof.
  intros H. assert (0 < 42 * (7 + y) ^ 4 - 10 * (y * (33565 - 19376 * y + 699 * y ^ 2))); [|lra].
  ival_pos y 20%nat 26%Z 100%Z 1%Z 1%Z. lra.
Qed.
Lemma poly_lo' y : 26 / 100 <= y <= 1 -> 2.6 * (7 + y) ^ 4 < y * (33565 - 19376 * y + 699 * y ^ 2).
Proof.
  intros H. assert (0 < 10 * (y * (33565 - 19376 * y + 699 * y ^ 2)) - 26 * (7 + y) ^ 4); [|lra].
  ival_pos y 20%nat 26%Z 100%Z 1%Z 1%Z. lra.
Qed.
Lemma exp_26 u : - (171 / 128) <= u <= 0 -> 26 / 100 <= exp u <= 1.
Proof.
  intros H. split.
  - apply Rlt_le. assert (0 < exp u - 26 / 100); [|lra]. ival_pos u 20%nat (-171)%Z 128%Z 0%Z 1%Z. lra.
  - rewrite <- exp_0. destruct H as [_ [H| ->]]; [left; now apply exp_increasing|lra].
Qed.
Lemma tf''_range u : - (171 / 128) <= u <= 0 -> 1.3 <= tf'' u <= 2.1.
Proof.
  intros H. pose proof (exp_26 u H) as E. unfold tf''. set (y := exp u) in *.
  pose proof (poly_up' y E). pose proof (poly_lo' y E). assert (0 < (7 + y) ^ 4) by (apply pow_lt; lra).
  split; apply Rmult_le_reg_r with (2 * (7 + y) ^ 4); try lra.
  - unfold Rdiv. rewrite Rmult_assoc, Rinv_l by lra. lra.
  - unfold Rdiv. rewrite Rmult_assoc, Rinv_l by lra. lra.
Qed.
Lemma tf'_range u : - (171 / 128) <= u <= 0 -> 2.1 * u <= tf' u <= 1.3 * u.
Proof.
  intros [H1 [H2| ->]]; [|rewrite tf'_0; lra].
  destruct (MVT_cor2 tf' tf'' u 0 H2) as (c & E & Hc).
  - intros. apply tf'_deriv.
  - rewrite tf'_0 in E. pose proof (tf''_range c ltac:(lra)). nra.
Qed.
Lemma tf_quad d : 0 < d <= 171 / 128 -> 0.65 * d ^ 2 <= tf (0 - d) <= 1.05 * d ^ 2.
Proof.
  intros H. rewrite Rminus_0_l. split.
  - destruct (MVT_cor2 (fun u => tf u - 0.65 * u ^ 2) (fun u => tf' u - 1.3 * u) (- d) 0 ltac:(lra)) as (c & E & Hc).
    + intros c Hc. apply is_derive_Reals. apply (is_derive_ext (fun u => minus (tf u) (0.65 * u ^ 2))); [reflexivity|].
      apply (is_derive_minus tf (fun u => 0.65 * u ^ 2)); [apply is_derive_Reals, tf_deriv|]. auto_derive; auto. lra.
    + rewrite tf_0 in E. pose proof (tf'_range c ltac:(lra)). nra.
  - destruct (MVT_cor2 (fun u => tf u - 1.05 * u ^ 2) (fun u => tf' u - 2.1 * u) (- d) 0 ltac:(lra)) as (c & E & Hc).
    + intros c Hc. apply is_derive_Reals. apply (is_derive_ext (fun u => minus (tf u) (1.05 * u ^ 2))); [reflexivity|].
      apply (is_derive_minus tf (fun u => 1.05 * u ^ 2)); [apply is_derive_Reals, tf_deriv|]. auto_derive; auto. lra.
    + rewrite tf_0 in E. pose proof (tf'_range c ltac:(lra)). nra.
Qed.

(** The same function at another scale. *)
Lemma hf_scale S D a T y u : 0 < y -> 0 < D -> 0 < T -> hf (S * y) (D * y) (ln y + a) T (ln y + u) = hf S D a T u.
Proof.
  intros Hy HD HT. unfold hf. rewrite exp_plus, exp_ln by auto. pose proof (exp_pos u). field. nra.
Qed.
