(** Analysis of Glickman's volatility function.  No model code in this file. *)
From Coq Require Import ZArith List Bool Reals Lra Lia Classical_Prop.
From Coquelicot Require Import Coquelicot.
From Verif Require Import Tac Spec.
Local Open Scope R_scope.

(** Shape of f: S = delta^2 - phi^2 - v, D = phi^2 + v, a = ln sigma^2, T = tau^2. *)
Definition hf (S D a T x : R) : R := exp x * (S - exp x) / (2 * (D + exp x) ^ 2) - (x - a) / T.
Definition hf' (S D T x : R) : R := exp x * (S * D - exp x * (S + 2 * D)) / (2 * (D + exp x) ^ 3) - / T.

Lemma hf_deriv S D a T x : 0 < D -> 0 < T -> is_derive (hf S D a T) x (hf' S D T x).
Proof.
  intros HD HT. unfold hf, hf'. pose proof (exp_pos x).
  auto_derive.
  - apply Rgt_not_eq. unfold Rgt. cbn. nra.
  - field. lra.
Qed.
Lemma hf_dlim S D a T x : 0 < D -> 0 < T -> derivable_pt_lim (hf S D a T) x (hf' S D T x).
Proof. intros. apply is_derive_Reals, hf_deriv; auto. Qed.
Lemma hf_cont S D a T : 0 < D -> 0 < T -> continuity (hf S D a T).
Proof. intros HD HT x. apply derivable_continuous_pt. exists (hf' S D T x). apply hf_dlim; auto. Qed.

Lemma hf'_lower S D T x : 0 < D -> 0 < T -> - (((Rabs S + Rabs S + 2 * D) / D) + / T) <= hf' S D T x.
Proof.
  intros HD HT. unfold hf'. pose proof (exp_pos x) as He. set (e := exp x) in *.
  enough (- ((Rabs S + Rabs S + 2 * D) / D) <= e * (S * D - e * (S + 2 * D)) / (2 * (D + e) ^ 3)) by lra.
  assert (HP : 0 < (D + e) ^ 3) by (apply pow_lt; lra).
  pose proof (Rabs_pos S) as HA. assert (HS : - Rabs S <= S <= Rabs S) by (unfold Rabs; destruct (Rcase_abs S); lra).
  apply Rmult_le_reg_r with (2 * (D + e) ^ 3 * D); [nra|].
  replace (e * (S * D - e * (S + 2 * D)) / (2 * (D + e) ^ 3) * (2 * (D + e) ^ 3 * D)) with (e * (S * D - e * (S + 2 * D)) * D) by (field; lra).
  replace (- ((Rabs S + Rabs S + 2 * D) / D) * (2 * (D + e) ^ 3 * D)) with (- (2 * Rabs S + 2 * D) * (2 * (D + e) ^ 3)) by (field; lra).
  set (A := Rabs S) in *.
  assert (L1 : - (A * D * D * e + D * e * e * A + 2 * D * D * e * e) <= e * (S * D - e * (S + 2 * D)) * D).
  { assert (- (A * (e * D * D)) <= S * (e * D * D)) by (assert (0 < e * D * D) by (repeat apply Rmult_lt_0_compat; auto); nra).
    assert (S * (e * e * D) <= A * (e * e * D)) by (assert (0 < e * e * D) by (repeat apply Rmult_lt_0_compat; auto); nra). nra. }
  assert (0 < D * D * D /\ 0 < e * e * e /\ 0 < D * D * e /\ 0 < D * e * e) as (p1 & p2 & p3 & p4) by (repeat split; repeat apply Rmult_lt_0_compat; auto).
  assert (L2 : A * D * D * e + D * e * e * A + 2 * D * D * e * e <= (2 * A + 2 * D) * (2 * (D + e) ^ 3)).
  { replace ((2 * A + 2 * D) * (2 * (D + e) ^ 3)) with
      (4 * A * (D * D * D + 3 * (D * D * e) + 3 * (D * e * e) + e * e * e) + 4 * D * (D * D * D + 3 * (D * D * e) + 3 * (D * e * e) + e * e * e)) by ring.
    assert (0 <= A * (D * D * D) /\ 0 <= A * (D * D * e) /\ 0 <= A * (D * e * e) /\ 0 <= A * (e * e * e)) by (repeat split; apply Rmult_le_pos; lra).
    assert (0 < D * (D * D * D) /\ 0 < D * (D * D * e) /\ 0 < D * (D * e * e) /\ 0 < D * (e * e * e)) by (repeat split; apply Rmult_lt_0_compat; lra).
    lra. }
  lra.
Qed.

(** Upper slope bound: 2S/(27D) - 1/T for S > 0, -1/T otherwise. *)
Definition hm (S D T : R) : R := / T - 2 * Rmax S 0 / (27 * D).
Lemma hf'_upper S D T x : 0 < D -> 0 < T -> 0 < S + 2 * D -> hf' S D T x <= - hm S D T.
Proof.
  intros HD HT HSD. unfold hf', hm. pose proof (exp_pos x) as He. set (e := exp x) in *.
  enough (e * (S * D - e * (S + 2 * D)) / (2 * (D + e) ^ 3) <= 2 * Rmax S 0 / (27 * D)) by lra.
  assert (HP : 0 < (D + e) ^ 3) by (apply pow_lt; lra).
  set (M := Rmax S 0). assert (HM : S <= M /\ 0 <= M) by (split; [apply Rmax_l|apply Rmax_r]).
  apply Rmult_le_reg_r with (2 * (D + e) ^ 3 * (27 * D)); [nra|].
  replace (e * (S * D - e * (S + 2 * D)) / (2 * (D + e) ^ 3) * (2 * (D + e) ^ 3 * (27 * D))) with (e * (S * D - e * (S + 2 * D)) * (27 * D)) by (field; lra).
  replace (2 * M / (27 * D) * (2 * (D + e) ^ 3 * (27 * D))) with (4 * M * (D + e) ^ 3) by (field; lra).
  (* e*S*D*27*D <= 27 M e D^2 <= 4 M (D+e)^3 *)
  assert (K : 27 * (e * D * D) <= 4 * (D + e) ^ 3).
  { assert (0 <= (D + 4 * e) * ((D - 2 * e) * (D - 2 * e))) by (apply Rmult_le_pos; [lra|apply Rle_0_sqr]). nra. }
  assert (0 < e * D * D) by (repeat apply Rmult_lt_0_compat; auto).
  assert (0 < e * e * (S + 2 * D) * (27 * D)) by (repeat apply Rmult_lt_0_compat; lra).
  assert (S * (e * D * D) <= M * (e * D * D)) by (apply Rmult_le_compat_r; lra). nra.
Qed.

Lemma hf_slope S D a T : 0 < D -> 0 < T -> 0 < S + 2 * D -> forall x y, x <= y ->
  hm S D T * (y - x) <= hf S D a T x - hf S D a T y <= (((Rabs S + Rabs S + 2 * D) / D) + / T) * (y - x).
Proof.
  intros HD HT HSD x y [Hxy| ->]; [|split; lra].
  destruct (MVT_cor2 (hf S D a T) (hf' S D T) x y Hxy) as (c & E & _).
  - intros c _. apply hf_dlim; auto.
  - pose proof (hf'_lower S D T c HD HT) as B1. pose proof (hf'_upper S D T c HD HT HSD) as B2.
    set (L := _ / D + / T) in *. nra.
Qed.

(** IVT. *)
Lemma hf_root S D a T x y : 0 < D -> 0 < T -> hf S D a T x * hf S D a T y <= 0 ->
  exists z, hf S D a T z = 0 /\ (x <= z <= y \/ y <= z <= x).
Proof.
  intros HD HT H. destruct (Rle_dec x y) as [h|h].
  - destruct (IVT_cor (hf S D a T) x y (hf_cont S D a T HD HT) h H) as (z & Hz & E). eauto.
  - destruct (IVT_cor (hf S D a T) y x (hf_cont S D a T HD HT) ltac:(lra) ltac:(lra)) as (z & Hz & E). eauto.
Qed.

(** Left of a, f exceeds k/tau - 1/2. *)
Lemma hf_left S D a T x : 0 < D -> - D <= S -> 0 < T -> - (1 / 2) + (a - x) / T < hf S D a T x.
Proof.
  intros HD HS HT. unfold hf. pose proof (exp_pos x) as He. set (e := exp x) in *.
  replace ((a - x) / T) with (- ((x - a) / T)) by (field; lra).
  enough (- (1 / 2) < e * (S - e) / (2 * (D + e) ^ 2)) by lra.
  assert (HP : 0 < (D + e) ^ 2) by (apply pow_lt; lra).
  apply Rmult_lt_reg_r with (2 * (D + e) ^ 2); [nra|].
  replace (e * (S - e) / (2 * (D + e) ^ 2) * (2 * (D + e) ^ 2)) with (e * (S - e)) by (field; lra). nra.
Qed.
(** Sign at a and at ln S. *)
Lemma hf_at_a S D a T : 0 < D -> 0 < T ->
  (S < exp a -> hf S D a T a < 0) /\ (S = exp a -> hf S D a T a = 0) /\ (exp a < S -> 0 < hf S D a T a).
Proof.
  intros HD HT. unfold hf. pose proof (exp_pos a) as He. set (e := exp a) in *.
  replace ((a - a) / T) with 0 by (field; lra). rewrite Rminus_0_r.
  assert (HP : 0 < 2 * (D + e) ^ 2) by (assert (0 < (D + e) ^ 2) by (apply pow_lt; lra); lra).
  split; [|split]; intros H.
  - apply Ropp_lt_cancel. rewrite Ropp_0. replace (- (e * (S - e) / (2 * (D + e) ^ 2))) with (e * (e - S) / (2 * (D + e) ^ 2)) by (field; nra).
    apply Rdiv_lt_0_compat; auto. apply Rmult_lt_0_compat; lra.
  - rewrite H. field. lra.
  - apply Rdiv_lt_0_compat; auto. apply Rmult_lt_0_compat; lra.
Qed.
Lemma hf_at_lnS S D a T : 0 < S -> 0 < T -> hf S D a T (ln S) = (a - ln S) / T.
Proof. intros HS HT. unfold hf. rewrite exp_ln by auto. unfold Rdiv at 1. rewrite Rminus_eq_0, Rmult_0_r, Rmult_0_l. field. lra. Qed.
Lemma hf_bracket_S S D a T : 0 < D -> 0 < S -> 0 < T -> hf S D a T a * hf S D a T (ln S) <= 0.
Proof.
  intros HD HS HT. rewrite hf_at_lnS by auto. destruct (hf_at_a S D a T HD HT) as (h1 & h2 & h3).
  destruct (Rtotal_order S (exp a)) as [h|[h|h]].
  - specialize (h1 h). assert (ln S < a) by (rewrite <- (ln_exp a); apply ln_increasing; auto).
    assert (0 < (a - ln S) / T) by (apply Rdiv_lt_0_compat; lra). nra.
  - rewrite (h2 h). lra.
  - specialize (h3 h). assert (a < ln S) by (rewrite <- (ln_exp a); apply ln_increasing; auto; apply exp_pos).
    assert ((a - ln S) / T < 0). { apply Ropp_lt_cancel. rewrite Ropp_0. replace (- ((a - ln S) / T)) with ((ln S - a) / T) by (field; lra). apply Rdiv_lt_0_compat; lra. }
    nra.
Qed.

(** The critical points of f lie at no more than two places, which do not depend
    on the old volatility. *)
Lemma cubic_three B C E x y z : 0 < B -> 0 < x -> 0 < y -> 0 < z ->
  - 2 * x ^ 3 - B * x ^ 2 + C * x - E = 0 -> - 2 * y ^ 3 - B * y ^ 2 + C * y - E = 0 -> - 2 * z ^ 3 - B * z ^ 2 + C * z - E = 0 ->
  x <> y -> x <> z -> y <> z -> False.
Proof.
  intros HB Hx Hy Hz Px Py Pz n1 n2 n3.
  assert (Q1 : - 2 * (x ^ 2 + x * y + y ^ 2) - B * (x + y) + C = 0).
  { apply Rmult_eq_reg_l with (x - y); [|lra]. rewrite Rmult_0_r. lra. }
  assert (Q2 : - 2 * (x ^ 2 + x * z + z ^ 2) - B * (x + z) + C = 0).
  { apply Rmult_eq_reg_l with (x - z); [|lra]. rewrite Rmult_0_r. lra. }
  assert (Q3 : - 2 * (x + y + z) - B = 0).
  { apply Rmult_eq_reg_l with (y - z); [|lra]. rewrite Rmult_0_r. lra. }
  lra.
Qed.
Lemma hf'_cubic S D T x : 0 < D -> 0 < T -> hf' S D T x = 0 ->
  let y := exp x in - 2 * y ^ 3 - (6 * D + T * (S + 2 * D)) * y ^ 2 + (T * (S * D) - 6 * D ^ 2) * y - 2 * D ^ 3 = 0.
Proof.
  intros HD HT H y. unfold hf' in H. pose proof (exp_pos x) as He. fold y in H, He.
  assert (E : (y * (S * D - y * (S + 2 * D)) / (2 * (D + y) ^ 3) - / T) * (2 * (D + y) ^ 3 * T) =
    - 2 * y ^ 3 - (6 * D + T * (S + 2 * D)) * y ^ 2 + (T * (S * D) - 6 * D ^ 2) * y - 2 * D ^ 3) by (field; lra).
  rewrite H in E. lra.
Qed.
Lemma at_most_two (P : R -> Prop) : (forall x y z, P x -> P y -> P z -> x <> y -> x <> z -> y <> z -> False) ->
  exists l : list R, (length l <= 2)%nat /\ forall x, P x -> In x l.
Proof.
  intros H. destruct (classic (exists x, P x)) as [(x & Px)|N].
  - destruct (classic (exists y, P y /\ x <> y)) as [(y & Py & n)|N].
    + exists (x :: y :: nil)%list. split; [auto|]. intros z Pz. cbn. destruct (Req_EM_T x z); auto. destruct (Req_EM_T y z); auto.
      exfalso. apply (H x y z); auto.
    + exists (x :: nil)%list. split; [auto|]. intros z Pz. cbn. destruct (Req_EM_T x z); auto. exfalso. apply N. eauto.
  - exists nil. split; [auto|]. intros z Pz. exfalso. eauto.
Qed.
Lemma hf'_zeros S D T : 0 < D -> 0 < T -> 0 < S + 2 * D ->
  exists l : list R, (length l <= 2)%nat /\ forall x, hf' S D T x = 0 -> In x l.
Proof.
  intros HD HT HS. apply at_most_two. intros x y z Px Py Pz n1 n2 n3.
  assert (EN : forall u v, u <> v -> exp u <> exp v) by (intros u v n e; apply n; now apply exp_inv).
  apply hf'_cubic in Px, Py, Pz; auto. cbv zeta in *.
  eapply (cubic_three _ _ _ (exp x) (exp y) (exp z) _ (exp_pos _) (exp_pos _) (exp_pos _) Px Py Pz); auto.
  Unshelve. nra.
Qed.

Lemma g2f_hf delta phi v sigma tau x :
  g2f delta phi v sigma tau x = hf (delta ^ 2 - phi ^ 2 - v) (phi ^ 2 + v) (ln (sigma ^ 2)) (tau ^ 2) x.
Proof. reflexivity. Qed.
