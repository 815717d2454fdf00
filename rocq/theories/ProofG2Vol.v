(** Proofs for C128: the volatility iteration of Glicko-2 finds the small solution. *)
From Coq Require Import ZArith List Bool Reals Lra Lia.
From Verif Require Import Arith XR Tac ModelLib ModelElo ModelGlicko ModelGlicko2 Spec MathIllinois MathIllinois2 MathGlicko2 ProofGlicko2.
Import Spec ListNotations.
Local Open Scope R_scope.

(** ** The abstract loop inside a half-line *)
Lemma nxt_between A fA B fB : fA * fB <= 0 -> A <= nxt A fA B fB <= B \/ B <= nxt A fA B fB <= A.
Proof.
  intros H. unfold nxt. destruct (Req_EM_T (fB - fA) 0) as [e|e].
  - assert (fA = 0) by nra. subst fA. rewrite Rmult_0_r. unfold Rdiv. rewrite Rmult_0_l, Rplus_0_r. lra.
  - assert (Q : 0 <= fA / (fA - fB) <= 1).
    { destruct (Rlt_dec fB fA) as [h|h].
      - assert (0 <= fA /\ fB <= 0) as [P1 P2] by (split; nra). split; [apply Rmult_le_pos; [lra|apply Rlt_le, Rinv_0_lt_compat; lra]|].
        apply Rmult_le_reg_r with (fA - fB); [lra|]. replace (fA / (fA - fB) * (fA - fB)) with fA by (field; lra). lra.
      - assert (fA <= 0 /\ 0 <= fB) as [P1 P2] by (split; nra). replace (fA / (fA - fB)) with (- fA / (fB - fA)) by (field; lra).
        split; [apply Rmult_le_pos; [lra|apply Rlt_le, Rinv_0_lt_compat; lra]|].
        apply Rmult_le_reg_r with (fB - fA); [lra|]. replace (- fA / (fB - fA) * (fB - fA)) with (- fA) by (field; lra). lra. }
    replace (A + (A - B) * fA / (fB - fA)) with (A + (B - A) * (fA / (fA - fB))) by (field; lra).
    set (k := fA / (fA - fB)) in *. destruct (Rle_dec A B); [left|right]; split; nra.
Qed.
Lemma keep_sign fA fB fC : fA * fB <= 0 -> 0 < fC * fB -> fA / 2 * fC <= 0.
Proof. intros H1 H2. destruct (Rlt_dec 0 fB) as [h|h]; [assert (0 < fC) by nra; assert (fA <= 0) by nra; nra|]. assert (fB < 0) by (destruct (Req_dec fB 0) as [e|e]; [rewrite e in H2; lra|lra]). assert (fC < 0) by nra. assert (0 <= fA) by nra. nra. Qed.

Lemma ill_ext f g tol u : (forall x, x <= u -> f x = g x) -> forall n A fA B fB, A <= u -> B <= u -> fA * fB <= 0 -> ill f tol n A fA B fB = ill g tol n A fA B fB.
Proof.
  intros E. induction n as [|n IH]; intros A fA B fB HA HB H; [reflexivity|]. cbn [ill]. destruct (Rlt_dec tol (Rabs (B - A))); [|reflexivity].
  cbv zeta. pose proof (nxt_between A fA B fB H) as N. set (C := nxt A fA B fB) in *. assert (HC : C <= u) by (destruct N; lra). rewrite (E C HC).
  destruct (Rle_dec (g C * fB) 0) as [h|h]; apply IH; auto; [lra|]. apply keep_sign with fB; auto. lra.
Qed.

Lemma ill_terminates_w f m L tol r A B j :
  0 < m -> m <= L -> 0 < tol -> (forall x y, x <= y -> m * (y - x) <= f x - f y <= L * (y - x)) ->
  f r = 0 -> (A <= r <= B \/ B <= r <= A) ->
  exists n x, ill f tol n A (wt j * f A) B (f B) = Some x.
Proof.
  intros Hm HmL Htol Hs Hr HB.
  set (W := Rmax (Rabs (A - B)) tol).
  assert (HW : tol <= W) by apply Rmax_r.
  destruct (archimed_nat (L * W / (m * (tol / 2)))) as [J0 HJ]. set (J := (j + J0)%nat).
  assert (HJ' : L * W < 2 ^ J * (m * (tol / 2))).
  { assert (0 < m * (tol / 2)) by pos. pose proof (INR_le_pow2 J0). assert (2 ^ J0 <= 2 ^ J) by (apply Rle_pow; [lra|unfold J; lia]).
    replace (L * W) with (L * W / (m * (tol / 2)) * (m * (tol / 2))) by (field; split; lra). apply Rmult_lt_compat_r; lra. }
  pose proof (eta1_pos m L W tol Hm HmL Htol HW) as He1.
  destruct (archimed_nat (W / eta1 m L W tol)) as [K1 HK1].
  assert (HK1' : W <= INR K1 * eta1 m L W tol).
  { replace W with (W / eta1 m L W tol * eta1 m L W tol) at 1 by (field; lra). apply Rmult_le_compat_r; lra. }
  pose proof (eta2_pos m L W tol Hm HmL Htol HW (J2 J K1)) as He2.
  destruct (archimed_nat (W / eta2 m L W tol (J2 J K1))) as [k2 Hk2].
  eexists.
  eapply (main f m L W tol Hm HmL Htol HW Hs r Hr J K1 HJ' HK1' _ A B j K1 k2).
  - unfold MathIllinois.inv, brk. split; [auto|]. assert (Rabs (A - B) <= W) by apply Rmax_l. repeat split; try lra; unfold J; lia.
  - assert (H : Rabs (A - B) <= W) by apply Rmax_l.
    replace W with (W / eta2 m L W tol (J2 J K1) * eta2 m L W tol (J2 J K1)) in H at 1 by (field; lra).
    eapply Rle_trans; [exact H|]. apply Rmult_le_compat_r; lra.
  - apply Nat.lt_succ_diag_r.
Qed.

(** ** The first steps *)
Section Trace.
  Variables (f : R -> R) (a b T be tol : R) (G : R -> R -> R -> R -> Prop).
  Hypothesis HT : 0 < T.
  Hypothesis Hbe : 0 <= be <= 3 / 20.
  Hypothesis Hab : a < b.
  Hypothesis Hfa : 0 < f a.
  Hypothesis Hfb : f b = - ((b - a) / T).
  Hypothesis Hup : forall x, a <= x <= a + 1 -> T * f x <= be - (x - a).
  Hypothesis Hdn : forall x y, x <= y <= a + 1 -> (1 - be) / T * (y - x) <= f x - f y.
  Hypothesis R1 : forall A fA B fB, fA * fB <= 0 -> fB - fA <> 0 -> tol < Rabs (B - A) ->
    (let C := nxt A fA B fB in if Rle_dec (f C * fB) 0 then G B fB C (f C) else G A (fA / 2) C (f C)) -> G A fA B fB.
  Hypothesis R2 : forall A fA B fB, Rabs (B - A) <= tol -> A <= a + be + tol -> G A fA B fB.
  Hypothesis R3 : forall A B j, A <= a + 1 -> B <= a + 1 -> f A * f B <= 0 -> G A (wt j * f A) B (f B).

  Lemma R3' A B : A <= a + 1 -> B <= a + 1 -> f A * f B <= 0 -> G A (f A) B (f B).
  Proof using R3. intros. replace (f A) with (wt 0 * f A) by (unfold wt; cbn; field). now apply R3. Qed.
  Lemma trace : G a (f a) b (f b).
  Proof using All.
    set (L := b - a) in *. assert (HL : 0 < L) by (unfold L; lra). assert (HLT : 0 < L / T) by (apply Rdiv_lt_0_compat; auto).
    destruct (Rle_dec L 1) as [hL|hL].
    { apply R3'; [lra|unfold L in hL; lra|]. rewrite Hfb. nra. }
    destruct (Rlt_dec tol (Rabs (b - a))) as [t1|t1].
    2:{ apply R2; [lra|]. pose proof (Rabs_pos (b - a)). lra. }
    apply R1; auto; [rewrite Hfb; nra|rewrite Hfb; lra|]. cbv zeta. unfold nxt.
    set (C1 := a + (a - b) * f a / (f b - f a)).
    assert (E1 : C1 - a = L * f a / (L / T + f a)) by (unfold C1; rewrite Hfb; replace (a - b) with (- L) by (unfold L; ring); set (q := L / T) in *; field; lra).
    assert (P0 : 0 < L / T + f a) by lra.
    assert (B1 : 0 < C1 - a <= T * f a).
    { rewrite E1. split; [apply Rdiv_lt_0_compat; nra|]. apply Rmult_le_reg_r with (L / T + f a); auto.
      replace (L * f a / (L / T + f a) * (L / T + f a)) with (L * f a) by (set (q := L / T) in *; field; lra).
      replace (T * f a * (L / T + f a)) with (L * f a + T * (f a * f a)) by (field; lra). assert (0 < f a * f a) by nra. nra. }
    pose proof (Hup a ltac:(lra)) as U0. assert (HC1 : a <= C1 <= a + be) by lra.
    destruct (Rle_dec (f C1 * f b) 0) as [h1|h1].
    2:{ assert (F1 : f C1 < 0) by (rewrite Hfb in h1; nra). replace (f a / 2) with (wt 1 * f a) by (unfold wt; cbn; field). apply R3; try lra. nra. }
    assert (F1 : 0 <= f C1) by (rewrite Hfb in h1; apply Rnot_lt_le; intros c; assert (0 < - f C1 * (L / T)) by (apply Rmult_lt_0_compat; lra); lra).
    destruct (Rlt_dec tol (Rabs (C1 - b))) as [t2|t2].
    2:{ apply R2; [lra|]. apply Rnot_lt_le in t2. rewrite Rabs_left1 in t2 by (unfold L in hL; lra). lra. }
    apply R1; auto; [rewrite Hfb; nra|rewrite Hfb; lra|]. cbv zeta. unfold nxt.
    set (C2 := b + (b - C1) * f b / (f C1 - f b)).
    pose proof (Hup C1 ltac:(lra)) as U1.
    assert (bC1 : 0 <= b - C1 <= L) by (unfold L in *; lra).
    assert (E2 : C2 - C1 = (b - C1) * f C1 / (f C1 + L / T)) by (unfold C2; rewrite Hfb; set (q := L / T) in *; field; lra).
    assert (step : forall w y k, 0 < k -> 0 <= y -> 0 <= w <= L -> 0 <= w * y / (y + L / (k * T)) <= k * T * y).
    { intros w y k Hk Hy Hw. assert (P : 0 < L / (k * T)) by (apply Rdiv_lt_0_compat; nra).
      split; [apply Rmult_le_pos; [nra|apply Rlt_le, Rinv_0_lt_compat; lra]|].
      apply Rmult_le_reg_r with (y + L / (k * T)); [lra|]. replace (w * y / (y + L / (k * T)) * (y + L / (k * T))) with (w * y) by (set (q := L / (k * T)) in *; field; lra).
      replace (k * T * y * (y + L / (k * T))) with (k * T * (y * y) + L * y) by (field; nra). assert (0 <= k * T * (y * y)) by (apply Rmult_le_pos; nra). nra. }
    pose proof (step (b - C1) (f C1) 1 ltac:(lra) F1 bC1) as B2. rewrite !Rmult_1_l, <- E2 in B2.
    assert (HC2 : a <= C2 <= a + be) by lra.
    destruct (Rle_dec (f C2 * f C1) 0) as [h2|h2]; [apply R3'; lra|].
    assert (F2 : 0 < f C2) by (apply Rnot_le_lt in h2; nra).
    destruct (Rlt_dec tol (Rabs (C2 - b))) as [t3|t3].
    2:{ apply R2; [lra|]. apply Rnot_lt_le in t3. rewrite Rabs_left1 in t3 by (unfold L in hL; lra). lra. }
    apply R1; auto; [rewrite Hfb; nra|rewrite Hfb; lra|]. cbv zeta. unfold nxt.
    set (C3 := b + (b - C2) * (f b / 2) / (f C2 - f b / 2)).
    pose proof (Hup C2 ltac:(lra)) as U2.
    assert (bC2 : 0 <= b - C2 <= L) by (unfold L in *; lra).
    assert (E3 : C3 - C2 = (b - C2) * f C2 / (f C2 + L / (2 * T))) by (unfold C3; rewrite Hfb; replace (L / (2 * T)) with (L / T / 2) by (field; lra); set (q := L / T) in *; field; lra).
    pose proof (step (b - C2) (f C2) 2 ltac:(lra) ltac:(lra) bC2) as B3. rewrite <- E3 in B3.
    assert (HC3 : a <= C3 <= a + 1) by lra.
    assert (Lo : 13 / 10 * T * f C2 <= C3 - C2).
    { rewrite E3. assert (P : 0 < f C2 + L / (2 * T)) by (assert (0 < L / (2 * T)) by (apply Rdiv_lt_0_compat; lra); lra).
      apply Rmult_le_reg_r with (f C2 + L / (2 * T)); auto. replace ((b - C2) * f C2 / (f C2 + L / (2 * T)) * (f C2 + L / (2 * T))) with ((b - C2) * f C2) by (set (q := L / (2 * T)) in *; field; lra).
      replace (13 / 10 * T * f C2 * (f C2 + L / (2 * T))) with (13 / 10 * (T * f C2 + L / 2) * f C2) by (field; lra).
      apply Rmult_le_compat_r; [lra|]. unfold L in *. lra. }
    pose proof (Hdn C2 C3 ltac:(lra)) as D3.
    assert (F3 : f C3 <= 0).
    { assert (M : (1 - be) / T * (13 / 10 * T * f C2) <= (1 - be) / T * (C3 - C2)) by (apply Rmult_le_compat_l; [apply Rlt_le, Rdiv_lt_0_compat; lra|exact Lo]).
      replace ((1 - be) / T * (13 / 10 * T * f C2)) with ((1 - be) * (13 / 10) * f C2) in M by (field; lra). nra. }
    destruct (Rle_dec (f C3 * f C2) 0) as [h3|h3]; [apply R3'; lra|]. exfalso. apply h3. nra.
  Qed.
End Trace.

(** ** Glickman's function near the old volatility *)
Section Shape.
  Variables (S D a T m be : R).
  Hypothesis HD : 0 < D.
  Hypothesis HT : 0 < T.
  Hypothesis Hm : 0 <= m.
  Hypothesis HS : S <= m * D ^ 2.
  Hypothesis HSD : - D <= S.
  Hypothesis Hbe : 3 / 2 * (T * exp a * m) <= be.

  Lemma exp_le_3a x : x <= a + 1 -> exp x <= 3 * exp a.
  Proof. intros H. apply Rle_trans with (exp (a + 1)); [destruct H as [H| ->]; [left; now apply exp_increasing|lra]|]. rewrite exp_plus. pose proof exp_le_3. pose proof (exp_pos a). nra. Qed.
  Lemma cut_be x : x <= a + 1 -> T * (exp x * m / 2) <= be.
  Proof using Hbe HT Hm.
    intros H. apply exp_le_3a in H. eapply Rle_trans; [|exact Hbe]. replace (3 / 2 * (T * exp a * m)) with (T * (3 * exp a * m / 2)) by field.
    apply Rmult_le_compat_l; [lra|]. assert (exp x * m <= 3 * exp a * m) by (apply Rmult_le_compat_r; auto). lra.
  Qed.
  Lemma shape_up x : x <= a + 1 -> T * hf S D a T x <= be - (x - a).
  Proof using All.
    intros H. unfold hf. pose proof (cut_be x H) as K. pose proof (exp_pos x) as He. set (e := exp x) in *.
    replace (T * (e * (S - e) / (2 * (D + e) ^ 2) - (x - a) / T)) with (T * (e * (S - e) / (2 * (D + e) ^ 2)) - (x - a)) by (field; split; nra).
    enough (e * (S - e) / (2 * (D + e) ^ 2) <= e * m / 2) as Q by (apply (Rmult_le_compat_l T) in Q; lra).
    assert (P : 0 < (D + e) ^ 2) by (apply pow_lt; lra). assert (Q : D ^ 2 <= (D + e) ^ 2) by (apply pow_incr; lra).
    apply Rmult_le_reg_r with (2 * (D + e) ^ 2); [lra|].
    replace (e * (S - e) / (2 * (D + e) ^ 2) * (2 * (D + e) ^ 2)) with (e * (S - e)) by (field; lra).
    replace (e * m / 2 * (2 * (D + e) ^ 2)) with (e * (m * (D + e) ^ 2)) by field.
    apply Rmult_le_compat_l; [lra|]. apply (Rmult_le_compat_l m) in Q; auto. lra.
  Qed.
  Lemma shape_slope x : x <= a + 1 -> hf' S D T x <= - ((1 - be) / T).
  Proof using All.
    intros H. unfold hf'. pose proof (cut_be x H) as K. pose proof (exp_pos x) as He. set (e := exp x) in *.
    assert (P : 0 < (D + e) ^ 3) by (apply pow_lt; lra).
    enough (e * (S * D - e * (S + 2 * D)) / (2 * (D + e) ^ 3) <= e * m / 2) as Q.
    { apply Rmult_le_reg_l with T; auto. replace (T * - ((1 - be) / T)) with (be - 1) by (field; lra).
      apply (Rmult_le_compat_l T) in Q; [|lra]. rewrite Rmult_minus_distr_l, Rinv_r by lra. lra. }
    apply Rmult_le_reg_r with (2 * (D + e) ^ 3); [lra|].
    replace (e * (S * D - e * (S + 2 * D)) / (2 * (D + e) ^ 3) * (2 * (D + e) ^ 3)) with (e * (S * D - e * (S + 2 * D))) by (field; lra).
    replace (e * m / 2 * (2 * (D + e) ^ 3)) with (e * (m * (D + e) ^ 3)) by field. apply Rmult_le_compat_l; [lra|].
    assert (Q : D ^ 3 <= (D + e) ^ 3) by (apply pow_incr; lra). apply (Rmult_le_compat_l m) in Q; auto.
    assert (S * D <= m * D ^ 3) by (replace (m * D ^ 3) with (m * D ^ 2 * D) by ring; apply Rmult_le_compat_r; lra).
    assert (0 <= e * (S + 2 * D)) by (apply Rmult_le_pos; lra). lra.
  Qed.
  Lemma shape_dn x y : x <= y <= a + 1 -> (1 - be) / T * (y - x) <= hf S D a T x - hf S D a T y.
  Proof using All.
    intros [[H| ->] Hy]; [|lra]. destruct (MVT_cor2 (hf S D a T) (hf' S D T) x y H) as (c & E & Hc).
    { intros c _. now apply hf_dlim. }
    pose proof (shape_slope c ltac:(lra)) as Q. apply (Rmult_le_compat_r (y - x)) in Q; lra.
  Qed.
  Lemma zero_low z : hf S D a T z = 0 -> a - T * exp a / (2 * D) <= z.
  Proof using HD HT HSD.
    intros Hz. pose proof (exp_pos a) as Ha. destruct (Rle_dec a z) as [h|h].
    { assert (0 < T * exp a / (2 * D)) by (apply Rdiv_lt_0_compat; nra). lra. }
    assert (He : exp z <= exp a) by (left; apply exp_increasing; lra). unfold hf in Hz. pose proof (exp_pos z) as Pz. set (e := exp z) in *.
    assert (Q : - (e / (2 * D)) <= e * (S - e) / (2 * (D + e) ^ 2)).
    { assert (P : 0 < (D + e) ^ 2) by (apply pow_lt; lra). apply Rmult_le_reg_r with (2 * (D + e) ^ 2); [lra|].
      replace (e * (S - e) / (2 * (D + e) ^ 2) * (2 * (D + e) ^ 2)) with (e * (S - e)) by (field; lra).
      replace (- (e / (2 * D)) * (2 * (D + e) ^ 2)) with (e * - ((D + e) ^ 2 / D)) by (field; lra). apply Rmult_le_compat_l; [lra|].
      assert (D + e <= (D + e) ^ 2 / D); [|lra]. apply Rmult_le_reg_r with D; auto. replace ((D + e) ^ 2 / D * D) with ((D + e) ^ 2) by (field; lra). nra. }
    assert (E : (a - z) / T <= e / (2 * D)) by (replace ((a - z) / T) with (- ((z - a) / T)) by (field; lra); lra).
    apply (Rmult_le_compat_l T) in E; [|lra]. replace (T * ((a - z) / T)) with (a - z) in E by (field; lra).
    assert (T * (e / (2 * D)) <= T * exp a / (2 * D)).
    { unfold Rdiv. rewrite <- Rmult_assoc. apply Rmult_le_compat_r; [apply Rlt_le, Rinv_0_lt_compat; lra|]. apply Rmult_le_compat_l; lra. }
    lra.
  Qed.
End Shape.

Section Vol2.
  Variables (d2 p2 v s t tol m be : R).
  Hypothesis Hd2 : 0 <= d2.
  Hypothesis Hp2 : 0 <= p2.
  Hypothesis Hv : 0 < v.
  Hypothesis Hs : 0 < s.
  Hypothesis Ht : 0 < t.
  Hypothesis Hm : 0 <= m.
  Hypothesis Hmv : d2 <= m * v ^ 2.
  Hypothesis Hbe : 3 / 2 * (t ^ 2 * s ^ 2 * m) <= be.
  Hypothesis Hbe' : be <= 3 / 20.
  Let D := p2 + v.
  Let S0 := d2 - p2 - v.
  Let a := ln (s ^ 2).
  Let T := t ^ 2.
  Let f := hf S0 D a T.
  Let ILL n A fA B fB := g2_illinois n (Fin A) (Fin fA) (Fin B) (Fin fB) (Fin d2) (Fin p2) (Fin v) (Fin s) (Fin t) (Fin tol).

  Lemma pD : 0 < D. Proof using Hp2 Hv. clear -Hp2 Hv. unfold D. lra. Qed.
  Lemma pT : 0 < T. Proof using Ht. clear -Ht. unfold T. apply pow_lt; auto. Qed.
  Lemma pSD : - D <= S0. Proof using Hd2. unfold S0, D. lra. Qed.
  Lemma ea : exp a = s ^ 2. Proof using Hs. clear -Hs. unfold a. apply exp_ln. apply pow_lt; auto. Qed.
  Lemma pbe : 0 <= be.
  Proof using Hbe Hm Hs Ht. eapply Rle_trans; [|exact Hbe]. assert (0 <= t ^ 2 * s ^ 2 * m) by (apply Rmult_le_pos; [apply Rmult_le_pos; apply pow_le; lra|auto]). lra. Qed.
  Lemma pS : S0 <= m * D ^ 2.
  Proof using Hp2 Hv Hm Hmv.
    clear -Hp2 Hv Hm Hmv. assert (v ^ 2 <= D ^ 2) by (apply pow_incr; unfold D; lra). apply (Rmult_le_compat_l m) in H; auto. unfold S0. lra.
  Qed.
  Lemma Hbe3 : 3 / 2 * (T * exp a * m) <= be. Proof using Hbe Hs. rewrite ea. exact Hbe. Qed.
  Lemma f_up x : x <= a + 1 -> T * f x <= be - (x - a).
  Proof using Hd2 Hp2 Hv Hs Ht Hm Hmv Hbe. apply (shape_up S0 D a T m be pD pT Hm pS pSD Hbe3). Qed.
  Lemma f_dn x y : x <= y <= a + 1 -> (1 - be) / T * (y - x) <= f x - f y.
  Proof using Hd2 Hp2 Hv Hs Ht Hm Hmv Hbe. apply (shape_dn S0 D a T m be pD pT Hm pS pSD Hbe3). Qed.

  (** A bracket below a + 1 keeps the iteration near the small zero. *)
  Lemma near_zero z : f z = 0 -> z <= a + 1 -> z <= a + be.
  Proof using Hd2 Hp2 Hv Hs Ht Hm Hmv Hbe. intros Hz H. pose proof (f_up z H) as U. rewrite Hz, Rmult_0_r in U. lra. Qed.
  Lemma near_sound n A fA B fB x : 0 <= tol -> A <= a + 1 -> B <= a + 1 -> inv d2 p2 v s t A fA B fB -> ILL n A fA B fB = Some x ->
    exists X, x = Fin X /\ X <= a + be + tol.
  Proof using Hd2 Hp2 Hv Hs Ht Hm Hmv Hbe.
    intros Htol. unfold ILL. revert A fA B fB. induction n as [|n IH]; intros A fA B fB HA HB HI; [discriminate|].
    rewrite (ill_step d2 p2 v s t tol Hp2 Hv Hs Ht n A fA B fB HI). destruct (Rltb_spec tol (Rabs (B - A))) as [h|h].
    - destruct (Reqb_spec (fB - fA) 0) as [e|e].
      + destruct n; [discriminate|]. intros [= <-]. exists A. split; [reflexivity|].
        enough (f A = 0) as Z by (pose proof (near_zero A Z HA); lra).
        destruct HI as (EB & HS & p & Hp & EA). fold D S0 a T in EB, HS, EA. fold f in EB, HS, EA. assert (E : fB = fA) by lra. rewrite <- EB, E, EA in HS.
        assert (0 <= f A * f A) by nra. assert (f A * f A <= 0) by nra. nra.
      + cbv zeta. set (C := A + (A - B) * fA / (fB - fA)).
        assert (HC : C <= a + 1).
        { assert (Q : fA * fB <= 0) by (destruct HI as (EB & HS & p & Hp & EA); rewrite EA, EB; nra).
          pose proof (nxt_between A fA B fB Q) as [N|N]; unfold nxt in N; fold C in N; lra. }
        destruct (Rleb_spec (hf (d2 - p2 - v) (p2 + v) (ln (s ^ 2)) (t ^ 2) C * fB) 0) as [hc|hc].
        * apply IH; auto. now apply (inv_cross d2 p2 v s t A fA B fB).
        * apply IH; auto. apply (inv_keep d2 p2 v s t A fA B fB); auto. lra.
    - intros [= <-]. destruct HI as (EB & HS & _). destruct (hf_root S0 D a T A B pD pT HS) as (z & Hz & Hb).
      exists A. split; [reflexivity|]. pose proof (near_zero z Hz ltac:(destruct Hb; lra)) as N.
      apply Rnot_lt_le in h. revert h. unfold Rabs. destruct (Rcase_abs (B - A)); lra.
  Qed.
  Lemma near_term A B j : 0 < tol -> A <= a + 1 -> B <= a + 1 -> f A * f B <= 0 -> exists n x, ill f tol n A (wt j * f A) B (f B) = Some x.
  Proof using Hd2 Hp2 Hv Hs Ht Hm Hmv Hbe Hbe'.
    intros Htol HA HB HI. pose proof pT as hT. pose proof pD as hD. pose proof pbe as hb.
    set (g := fun x => if Rle_dec x (a + 1) then f x else f (a + 1) - (x - (a + 1)) / T).
    assert (E : forall x, x <= a + 1 -> f x = g x) by (intros x H; unfold g; destruct (Rle_dec x (a + 1)); [reflexivity|lra]).
    assert (Hw : 0 < wt j) by (unfold wt; apply Rinv_0_lt_compat, pow_lt; lra).
    rewrite (E A HA), (E B HB) in *.
    set (mm := (1 - be) / T). set (L := (Rabs S0 + Rabs S0 + 2 * D) / D + / T).
    assert (iT : 0 < / T) by (apply Rinv_0_lt_compat; auto).
    assert (Hmm : 0 < mm <= / T) by (unfold mm, Rdiv; split; nra).
    assert (HL : / T <= L) by (unfold L; enough (0 <= (Rabs S0 + Rabs S0 + 2 * D) / D) by lra; apply Rmult_le_pos; [pose proof (Rabs_pos S0); lra|apply Rlt_le, Rinv_0_lt_compat; auto]).
    assert (lo : forall x y, x <= y <= a + 1 -> mm * (y - x) <= f x - f y <= L * (y - x)).
    { intros x y H. split; [now apply f_dn|]. apply hf_slope; auto; [|lra]. pose proof pSD. lra. }
    assert (Hsl : forall x y, x <= y -> mm * (y - x) <= g x - g y <= L * (y - x)).
    { intros x y H. unfold g. destruct (Rle_dec x (a + 1)) as [hx|hx], (Rle_dec y (a + 1)) as [hy|hy]; try lra.
      - apply lo; lra.
      - pose proof (lo x (a + 1) ltac:(lra)) as Q. unfold Rdiv. assert (mm * (y - (a + 1)) <= (y - (a + 1)) * / T <= L * (y - (a + 1))) by (split; nra). nra.
      - unfold Rdiv. split; nra. }
    destruct (hf_root S0 D a T A B pD pT) as (r & Hr & Hb).
    { unfold f in E. rewrite (E A HA), (E B HB). exact HI. }
    destruct (ill_terminates_w g mm L tol r A B j) as (n & x & H); try lra; auto.
    { rewrite <- E by (destruct Hb; lra). exact Hr. }
    exists n, x. rewrite <- H. apply (ill_ext f g tol (a + 1)); auto. rewrite Rmult_assoc. nra.
  Qed.

  (** The start of the iteration. *)
  Lemma start_low n b : S0 <= s ^ 2 -> (if (Fin d2 >? Fin p2 + Fin v)%flt then Some (fln (Fin d2 - Fin p2 - Fin v)%flt)
       else g2_bracket n (#1)%flt (Fin a) (Fin d2) (Fin p2) (Fin v) (Fin s) (Fin t)) = Some (Fin b) -> b <= a.
  Proof using Hd2 Hp2 Hv Hs Ht.
    intros HS. rewrite !xr_add, !xr_sub, xr_ltb. destruct (Rltb_spec (p2 + v) d2) as [h|h].
    - rewrite xr_ln by lra. intros [= <-]. unfold a. fold S0. destruct HS as [HS|HS]; [left; apply ln_increasing; unfold S0; unfold S0 in HS; lra|rewrite HS; lra].
    - intros H. destruct (archimed_nat (t / 2)) as (N & HN).
      destruct (bracket_spec d2 p2 v s t Hd2 Hp2 Hv Hs Ht (max n (max 1 N)) 1) as (j & Hj & E & _ & _); [lia| |].
      { apply Rle_trans with (INR N); [lra|]. apply le_INR. lia. }
      apply (g2_bracket_fuel n (max n (max 1 N))) in H; [|lia]. change (Fin (INR 1)) with (@fofZ XR XRA 1) in E. fold a in E. rewrite E in H.
      injection H as <-. assert (0 <= INR j * t) by (apply Rmult_le_pos; [apply pos_INR|lra]). lra.
  Qed.
  Lemma start_high n b : s ^ 2 < S0 -> (if (Fin d2 >? Fin p2 + Fin v)%flt then Some (fln (Fin d2 - Fin p2 - Fin v)%flt)
       else g2_bracket n (#1)%flt (Fin a) (Fin d2) (Fin p2) (Fin v) (Fin s) (Fin t)) = Some (Fin b) -> b = ln S0.
  Proof using Hs.
    intros HS. rewrite !xr_add, !xr_sub, xr_ltb. assert (0 < s ^ 2) by (apply pow_lt; auto). unfold S0 in HS.
    rewrite Rltb_true by lra. rewrite xr_ln by lra. intros [= <-]. reflexivity.
  Qed.
  Lemma high_facts : s ^ 2 < S0 -> a < ln S0 /\ 0 < f a /\ f (ln S0) = - ((ln S0 - a) / T).
  Proof using Hp2 Hv Hs Ht.
    intros HS. assert (0 < s ^ 2) by (apply pow_lt; auto). pose proof pT as hT. pose proof pD as hD.
    split; [apply ln_increasing; auto|]. split.
    - unfold f, hf. rewrite ea. replace ((a - a) / T) with 0 by (field; lra). rewrite Rminus_0_r. apply Rdiv_lt_0_compat; [nra|].
      apply Rmult_lt_0_compat; [lra|]. apply pow_lt. lra.
    - unfold f. rewrite hf_at_lnS by lra. field. lra.
  Qed.

  Lemma run_sound n b x : 0 <= tol -> f a * f b <= 0 -> (b <= a \/ (s ^ 2 < S0 /\ b = ln S0)) -> ILL n a (f a) b (f b) = Some x ->
    exists X, x = Fin X /\ X <= a + be + tol.
  Proof using Hd2 Hp2 Hv Hs Ht Hm Hmv Hbe Hbe'.
    intros Htol P [H|[H ->]].
    - apply near_sound; auto; try lra. split; [reflexivity|]. split; [exact P|]. exists 1. split; [lra|symmetry; apply Rmult_1_l].
    - destruct (high_facts H) as (H1 & H2 & H3). pose proof pbe as hb.
      set (G := fun A fA B fB => inv d2 p2 v s t A fA B fB -> forall n x, ILL n A fA B fB = Some x -> exists X, x = Fin X /\ X <= a + be + tol).
      assert (K : G a (f a) (ln S0) (f (ln S0))).
      { apply (trace f a (ln S0) T be tol G pT (conj hb Hbe') H1 H2 H3).
        - intros y Hy. apply f_up. lra.
        - exact f_dn.
        - intros A fA B fB Hs1 He Hd Hn I k y. unfold ILL. destruct k as [|k]; [discriminate|].
          rewrite (ill_step d2 p2 v s t tol Hp2 Hv Hs Ht k A fA B fB I). rewrite Rltb_true, Reqb_false by auto. cbv zeta in *. unfold nxt in Hn.
          set (C := A + (A - B) * fA / (fB - fA)) in *. unfold Rleb. fold D S0 a T. change (hf S0 D a T C) with (f C).
          destruct (Rle_dec (f C * fB) 0) as [hc|hc].
          + apply Hn. now apply (inv_cross d2 p2 v s t A fA B fB).
          + apply Hn. apply (inv_keep d2 p2 v s t A fA B fB); auto. apply Rnot_le_lt in hc. exact hc.
        - intros A fA B fB Hd Ha I k y. unfold ILL. destruct k as [|k]; [discriminate|].
          rewrite (ill_step d2 p2 v s t tol Hp2 Hv Hs Ht k A fA B fB I). rewrite Rltb_false by lra. intros [= <-]. eauto.
        - intros A B j HA HB HI I k y. apply near_sound; auto. }
      apply K. split; [reflexivity|]. split; [exact P|]. exists 1. split; [lra|symmetry; apply Rmult_1_l].
  Qed.
  Lemma run_term b : 0 < tol -> f a * f b <= 0 -> (b <= a \/ (s ^ 2 < S0 /\ b = ln S0)) -> exists n x, ill f tol n a (f a) b (f b) = Some x.
  Proof using Hd2 Hp2 Hv Hs Ht Hm Hmv Hbe Hbe'.
    intros Htol P [H|[H ->]].
    - replace (f a) with (wt 0 * f a) by (unfold wt; cbn; field). apply near_term; auto; lra.
    - destruct (high_facts H) as (H1 & H2 & H3). pose proof pbe as hb.
      apply (trace f a (ln S0) T be tol (fun A fA B fB => exists n x, ill f tol n A fA B fB = Some x) pT (conj hb Hbe') H1 H2 H3).
      + intros y Hy. apply f_up. lra.
      + exact f_dn.
      + intros A fA B fB _ _ Hd Hn. cbv zeta in Hn.
        destruct (Rle_dec (f (nxt A fA B fB) * fB) 0) as [hc|hc] eqn:Ec; destruct Hn as (n & x & E); exists (Datatypes.S n), x; cbn [ill]; cbv zeta;
          (destruct (Rlt_dec tol (Rabs (B - A))); [|lra]); rewrite Ec; exact E.
      + intros A fA B fB Hd _. exists 1%nat, A. cbn [ill]. destruct (Rlt_dec tol (Rabs (B - A))); [lra|reflexivity].
      + intros A B j HA HB HI. now apply near_term.
  Qed.
  Lemma start_cases n b : (if (Fin d2 >? Fin p2 + Fin v)%flt then Some (fln (Fin d2 - Fin p2 - Fin v)%flt)
       else g2_bracket n (#1)%flt (Fin a) (Fin d2) (Fin p2) (Fin v) (Fin s) (Fin t)) = Some (Fin b) -> b <= a \/ (s ^ 2 < S0 /\ b = ln S0).
  Proof using Hd2 Hp2 Hv Hs Ht.
    intros E. destruct (Rle_dec S0 (s ^ 2)) as [h|h]; [left; now apply (start_low n)|right]. apply Rnot_le_lt in h. split; auto. now apply (start_high n).
  Qed.

  Lemma vol_small n x : 0 <= tol -> g2_new_volatility n (Fin s) (Fin d2) (Fin p2) (Fin v) (Fin t) (Fin tol) = Some x ->
    exists s', x = Fin s' /\ 0 < s' /\ a - T * s ^ 2 / (2 * v) - tol <= ln (s' ^ 2) <= a + be + tol.
  Proof using Hd2 Hp2 Hv Hs Ht Hm Hmv Hbe Hbe'.
    intros Htol E. destruct (vol_sound d2 p2 v s t tol Hd2 Hp2 Hv Hs Ht n x Htol E) as (s' & z & -> & P & Hz & Hd).
    exists s'. split; [reflexivity|]. split; auto. split.
    - pose proof (zero_low S0 D a T pD pT pSD z Hz) as Q. rewrite ea in Q. pose proof pT as hT. pose proof pD as hD.
      assert (T * s ^ 2 / (2 * D) <= T * s ^ 2 / (2 * v)).
      { apply Rmult_le_compat_l; [apply Rmult_le_pos; [lra|apply pow_le; lra]|]. apply Rinv_le_contravar; [lra|]. unfold D. lra. }
      revert Hd. unfold Rabs. destruct (Rcase_abs (ln (s' ^ 2) - z)); lra.
    - revert E. unfold g2_new_volatility. cbv zeta. rewrite (a_eval s Hs). fold a.
      match goal with |- context [match ?X with Some _ => _ | None => None end] => set (ob := X); pose proof (start_some d2 p2 v s t Hd2 Hp2 Hv Hs Ht n) as SS; pose proof (start_cases n) as SC; fold a in SS; fold ob in SS, SC end.
      destruct ob as [b|]; [|discriminate]. destruct (SS b eq_refl) as (b' & -> & Q). specialize (SC b' eq_refl). rewrite !(feval d2 p2 v s t Hp2 Hv Hs Ht).
      destruct (g2_illinois _ _ _ _ _ _ _ _ _ _ _) as [y|] eqn:E; [|discriminate].
      destruct (run_sound n b' y Htol Q SC E) as (X & -> & B). rewrite (xr_ofZ 2), xr_div, xr_exp by lra. intros [= <-].
      replace (exp (X / 2) ^ 2) with (exp X) by (cbn [pow]; rewrite Rmult_1_r, <- exp_plus; f_equal; field). now rewrite ln_exp.
  Qed.
  Lemma vol_small_terminates : 0 < tol -> exists n0, forall n, (n0 <= n)%nat ->
      exists s', g2_new_volatility n (Fin s) (Fin d2) (Fin p2) (Fin v) (Fin t) (Fin tol) = Some (Fin s').
  Proof using Hd2 Hp2 Hv Hs Ht Hm Hmv Hbe Hbe'.
    intros Htol. destruct (archimed_nat (t / 2)) as (N & HN).
    destruct (start_bracket d2 p2 v s t Hd2 Hp2 Hv Hs Ht (max 1 N)) as (b & EB & P); [|lia|].
    { apply Rle_trans with (INR N); [lra|]. apply le_INR. lia. }
    pose proof (start_cases (max 1 N) b EB) as SC.
    destruct (run_term b Htol P SC) as (n1 & x1 & E1).
    assert (I : inv d2 p2 v s t a (f a) b (f b)) by (split; [reflexivity|]; split; [exact P|]; exists 1; split; [lra|symmetry; apply Rmult_1_l]).
    apply (ill_agrees' d2 p2 v s t tol Hp2 Hv Hs Ht) in E1; auto. destruct E1 as (x & E).
    set (n2 := Datatypes.S n1) in *. exists (max n2 (max 1 N)). intros n Hn. exists (exp (x / 2)).
    apply (g2_new_volatility_fuel (max n2 (max 1 N))); [lia|].
    unfold g2_new_volatility. cbv zeta. rewrite (a_eval s Hs). fold a.
    assert (EB' : (if (Fin d2 >? Fin p2 + Fin v)%flt then Some (fln (Fin d2 - Fin p2 - Fin v)%flt)
       else g2_bracket (max n2 (max 1 N)) (#1)%flt (Fin a) (Fin d2) (Fin p2) (Fin v) (Fin s) (Fin t)) = Some (Fin b)).
    { destruct (_ >? _)%flt; auto. apply (g2_bracket_fuel (max 1 N)); [lia|auto]. }
    rewrite EB', !(feval d2 p2 v s t Hp2 Hv Hs Ht).
    apply (g2_illinois_fuel n2 (max n2 (max 1 N))) in E; [|lia]. change (hf (d2 - p2 - v) (p2 + v) (ln (s ^ 2)) (t ^ 2)) with f. rewrite E.
    rewrite (xr_ofZ 2), xr_div, xr_exp by lra. reflexivity.
  Qed.
End Vol2.

(** ** Games and rating periods *)
Definition unit_scores (games : list (R * R * R)) : Prop := List.Forall (fun '(_, _, s) => 0 <= s <= 1) games.
Lemma M_bound mu games : unit_scores games -> Rabs (g2M mu games) <= INR (length games).
Proof.
  induction 1 as [|[[m p] s] l H _ IH]; [unfold g2M; cbn; rewrite Rabs_R0; lra|]. change (length ((m, p, s) :: l)) with (S (length l)). rewrite S_INR.
  change (g2M mu ((m, p, s) :: l)) with (g2g p * (s - g2E mu m p) + g2M mu l).
  eapply Rle_trans; [apply Rabs_triang|]. enough (Rabs (g2g p * (s - g2E mu m p)) <= 1) by lra.
  pose proof (g2g_range p). pose proof (g2E_range mu m p). apply Rabs_le. split; nra.
Qed.
Lemma v_bound mu games : games <> [] -> 4 / INR (length games) <= g2v mu games.
Proof.
  intros Hg. rewrite g2v_def. pose proof (g2v_sum_pos mu games Hg) as P.
  assert (L : Rsum (map (g2t mu) games) <= INR (length games) / 4).
  { clear. induction games as [|[[m p] s] l IH]; [cbn; lra|]. change (length ((m, p, s) :: l)) with (S (length l)). rewrite S_INR.
    change (Rsum (map (g2t mu) ((m, p, s) :: l))) with (g2t mu (m, p, s) + Rsum (map (g2t mu) l)). enough (g2t mu (m, p, s) <= / 4) by lra.
    unfold g2t. pose proof (g2g_range p) as Gg. set (E := g2E mu m p). assert (E * (1 - E) <= / 4) by (assert (0 <= (E - / 2) ^ 2) by apply pow2_ge_0; nra).
    pose proof (g2E_range mu m p) as RE. fold E in RE. assert (g2g p ^ 2 <= 1) by nra. assert (0 < E * (1 - E)) by nra. rewrite Rmult_assoc. nra. }
  replace (4 / INR (length games)) with (/ (INR (length games) / 4)) by (field; lra). apply Rinv_le_contravar; auto.
Qed.
Lemma g2_new_r_bound r RD s' games : games <> [] -> unit_scores games -> 0 < s' ->
  Rabs (g2_new_r r RD s' games - r) <= g2s * (g2phi RD ^ 2 + s' ^ 2) * INR (length games).
Proof.
  intros Hg Hu Hs. unfold g2_new_r. cbv zeta. pose proof g2s_pos as Gs. pose proof (g2v_pos (g2mu r) games Hg) as Hv.
  set (v := g2v (g2mu r) games) in *. pose proof (M_bound (g2mu r) games Hu) as HM. set (M := g2M (g2mu r) games) in *.
  set (p2 := g2_phi' (g2phi RD) s' v ^ 2).
  replace (g2s * (g2mu r + p2 * M) + 1500 - r) with (g2s * p2 * M) by (unfold g2mu; field; lra).
  assert (Q : 0 <= p2 <= g2phi RD ^ 2 + s' ^ 2).
  { split; [apply pow2_ge_0|]. unfold p2, g2_phi'. assert (P : 0 < g2phi RD ^ 2 + s' ^ 2) by (assert (0 < s' ^ 2) by (apply pow_lt; auto); pose proof (pow2_ge_0 (g2phi RD)); lra).
    assert (iv : 0 < / v) by (apply Rinv_0_lt_compat; auto). assert (ip := Rinv_0_lt_compat _ P).
    rewrite <- Rinv_pow by (apply Rgt_not_eq, sqrt_lt_R0; lra). rewrite pow2_sqrt by lra. rewrite <- (Rinv_inv (g2phi RD ^ 2 + s' ^ 2)) at 2. apply Rinv_le_contravar; lra. }
  rewrite Rabs_mult, (Rabs_right (g2s * p2)) by nra. pose proof (Rabs_pos M). apply Rmult_le_compat; auto; nra.
Qed.
Lemma sq_bounds s s' x y : 0 < s -> 0 < s' -> ln (s ^ 2) - x <= ln (s' ^ 2) <= ln (s ^ 2) + y -> s ^ 2 * exp (- x) <= s' ^ 2 <= s ^ 2 * exp y.
Proof.
  intros Hs Hs' [H1 H2]. assert (P : 0 < s ^ 2) by (apply pow_lt; auto). assert (P' : 0 < s' ^ 2) by (apply pow_lt; auto).
  assert (Ex : forall u w, u <= w -> exp u <= exp w) by (intros u w [h| ->]; [left; now apply exp_increasing|lra]).
  apply Ex in H1, H2. rewrite exp_ln in H1, H2 by auto. unfold Rminus in H1. rewrite exp_plus, exp_ln in H1, H2 by auto. lra.
Qed.
Lemma g2_vol_small fuel r RD s t tol games x : games <> [] -> unit_scores games -> 0 < s -> 0 < t -> 0 <= tol ->
  let n := INR (length games) in
  t ^ 2 * s ^ 2 * n ^ 2 <= 1 / 10 -> g2_vol fuel r RD s t tol games = Some x ->
  exists s', x = Fin s' /\ 0 < s' /\ s ^ 2 * exp (- (n * t ^ 2 * s ^ 2 / 8 + tol)) <= s' ^ 2 <= s ^ 2 * exp (3 / 2 * n ^ 2 * t ^ 2 * s ^ 2 + tol).
Proof.
  intros Hg Hu Hs Ht Htol n Hk H. pose proof (g2v_pos (g2mu r) games Hg) as Hv. unfold g2_vol in H. cbv zeta in H.
  pose proof (M_bound (g2mu r) games Hu) as HM. pose proof (v_bound (g2mu r) games Hg) as HV. fold n in HM, HV.
  set (v := g2v (g2mu r) games) in *. set (M := g2M (g2mu r) games) in *.
  assert (Hn : 0 < n) by (unfold n; apply lt_0_INR; destruct games; [congruence|cbn; lia]).
  apply (vol_small ((v * M) ^ 2) (g2phi RD ^ 2) v s t tol (n ^ 2) (3 / 2 * (t ^ 2 * s ^ 2 * n ^ 2))) in H; auto; try apply pow2_ge_0; try lra.
  - destruct H as (s' & E & P & B). exists s'. split; auto. split; auto. apply sq_bounds; auto. destruct B as [B1 B2]. split; [|lra].
    eapply Rle_trans; [|exact B1]. enough (t ^ 2 * s ^ 2 / (2 * v) <= n * t ^ 2 * s ^ 2 / 8) by lra.
    assert (W : / v <= n / 4) by (replace (n / 4) with (/ (4 / n)) by (field; lra); apply Rinv_le_contravar; [apply Rdiv_lt_0_compat; lra|auto]).
    replace (t ^ 2 * s ^ 2 / (2 * v)) with (t ^ 2 * s ^ 2 / 2 * / v) by (field; lra).
    replace (n * t ^ 2 * s ^ 2 / 8) with (t ^ 2 * s ^ 2 / 2 * (n / 4)) by field. apply Rmult_le_compat_l; auto.
    assert (0 <= t ^ 2 * s ^ 2) by (apply Rmult_le_pos; apply pow2_ge_0). lra.
  - rewrite Rpow_mult_distr, Rmult_comm. apply Rmult_le_compat_r; [apply pow2_ge_0|]. rewrite <- (pow2_abs M). apply pow_incr. split; [apply Rabs_pos|auto].
Qed.
Lemma g2_vol_small_term r RD s t tol games : games <> [] -> unit_scores games -> 0 < s -> 0 < t -> 0 < tol ->
  t ^ 2 * s ^ 2 * INR (length games) ^ 2 <= 1 / 10 ->
  exists n0, forall n, (n0 <= n)%nat -> exists s', g2_vol n r RD s t tol games = Some (Fin s').
Proof.
  intros Hg Hu Hs Ht Htol Hk. pose proof (g2v_pos (g2mu r) games Hg) as Hv. unfold g2_vol. cbv zeta.
  pose proof (M_bound (g2mu r) games Hu) as HM. set (v := g2v (g2mu r) games) in *. set (M := g2M (g2mu r) games) in *. set (k := INR (length games)) in *.
  apply (vol_small_terminates ((v * M) ^ 2) (g2phi RD ^ 2) v s t tol (k ^ 2) (3 / 2 * (t ^ 2 * s ^ 2 * k ^ 2))); auto; try apply pow2_ge_0; try lra.
  rewrite Rpow_mult_distr, Rmult_comm. apply Rmult_le_compat_r; [apply pow2_ge_0|]. rewrite <- (pow2_abs M). apply pow_incr. split; [apply Rabs_pos|auto].
Qed.
Lemma points_unit o : 0 <= points o <= 1. Proof. destruct o; cbn [points]; lra. Qed.
Lemma one_unit m p o : unit_scores [(m, p, points o)]. Proof. constructor; [apply points_unit|constructor]. Qed.
Lemma period_unit (rs : list (R * R * R * Outcomes)) : unit_scores (map (fun '(rj, RDj, _, o) => (g2mu rj, g2phi RDj, points o)) rs).
Proof. unfold unit_scores. induction rs as [|[[[rj RDj] sj] o] l IH]; cbn [map]; constructor; auto. apply points_unit. Qed.

Lemma C128_game_proof : forall fuel r1 RD1 s1 r2 RD2 s2 o t tol p q,
  0 < s1 -> 0 < s2 -> 0 < t -> 0 <= tol -> t ^ 2 * s1 ^ 2 <= 1 / 10 -> t ^ 2 * s2 ^ 2 <= 1 / 10 ->
  glicko2 fuel (mkGlicko2 (Fin r1) (Fin RD1) (Fin s1)) (mkGlicko2 (Fin r2) (Fin RD2) (Fin s2)) o
    (mkGlicko2Config (Fin t) (Fin tol)) = Some (p, q) ->
  exists r1' s1' r2' s2', 0 < s1' /\ 0 < s2' /\
    g2_rating p = Fin r1' /\ g2_volatility p = Fin s1' /\ g2_rating q = Fin r2' /\ g2_volatility q = Fin s2' /\
    s1 ^ 2 * exp (- (t ^ 2 * s1 ^ 2 / 8 + tol)) <= s1' ^ 2 <= s1 ^ 2 * exp (3 / 2 * t ^ 2 * s1 ^ 2 + tol) /\
    s2 ^ 2 * exp (- (t ^ 2 * s2 ^ 2 / 8 + tol)) <= s2' ^ 2 <= s2 ^ 2 * exp (3 / 2 * t ^ 2 * s2 ^ 2 + tol) /\
    Rabs (r1' - r1) <= g2s * (g2phi RD1 ^ 2 + s1' ^ 2) /\ Rabs (r2' - r2) <= g2s * (g2phi RD2 ^ 2 + s2' ^ 2).
Proof.
  intros fuel r1 RD1 s1 r2 RD2 s2 o t tol p q H1 H2 Ht Htol K1 K2. rewrite g2_game_eval. cbv zeta.
  set (ga := [(g2mu r2, g2phi RD2, points o)]). set (gb := [(g2mu r1, g2phi RD1, points (invert o))]).
  assert (ua : unit_scores ga) by apply one_unit. assert (ub : unit_scores gb) by apply one_unit.
  destruct (g2_vol fuel r1 RD1 s1 t tol ga) as [x|] eqn:Ex; [|discriminate].
  destruct (g2_vol fuel r2 RD2 s2 t tol gb) as [y|] eqn:Ey; [|discriminate].
  apply g2_vol_small in Ex; auto; [|discriminate|cbn [length ga INR]; lra]. apply g2_vol_small in Ey; auto; [|discriminate|cbn [length gb INR]; lra].
  destruct Ex as (s1' & -> & P1 & B1), Ey as (s2' & -> & P2 & B2). cbn [length ga gb INR] in B1, B2.
  rewrite !pow1, !Rmult_1_r, !Rmult_1_l in B1, B2.
  intros E. assert (E' : (g2_out r1 RD1 ga (Fin s1'), g2_out r2 RD2 gb (Fin s2')) = (p, q)).
  { unfold ga, gb in *. rewrite <- !g2_new_rating_out by auto. congruence. }
  rewrite !g2_out_eval in E' by (auto; discriminate). injection E' as <- <-. cbn [g2_rating g2_volatility].
  pose proof (g2_new_r_bound r1 RD1 s1' ga ltac:(discriminate) ua P1) as N1. pose proof (g2_new_r_bound r2 RD2 s2' gb ltac:(discriminate) ub P2) as N2.
  change (INR (length ga)) with 1 in N1. change (INR (length gb)) with 1 in N2. rewrite Rmult_1_r in N1, N2.
  exists (g2_new_r r1 RD1 s1' ga), s1', (g2_new_r r2 RD2 s2' gb), s2'. repeat (split; [first [reflexivity|assumption]|]). assumption.
Qed.
Lemma C128_period_proof : forall fuel r RD s t tol rs p,
  0 < s -> 0 < t -> 0 <= tol -> rs <> [] ->
  let n := INR (length rs) in
  t ^ 2 * s ^ 2 * n ^ 2 <= 1 / 10 ->
  glicko2_rating_period fuel (mkGlicko2 (Fin r) (Fin RD) (Fin s))
    (map (fun '(rj, RDj, sj, o) => (mkGlicko2 (Fin rj) (Fin RDj) (Fin sj), o)) rs)
    (mkGlicko2Config (Fin t) (Fin tol)) = Some p ->
  exists r' s', 0 < s' /\ g2_rating p = Fin r' /\ g2_volatility p = Fin s' /\
    s ^ 2 * exp (- (n * t ^ 2 * s ^ 2 / 8 + tol)) <= s' ^ 2 <= s ^ 2 * exp (3 / 2 * n ^ 2 * t ^ 2 * s ^ 2 + tol) /\
    Rabs (r' - r) <= g2s * (g2phi RD ^ 2 + s' ^ 2) * n.
Proof.
  intros fuel r RD s t tol rs p Hs Ht Htol Hne n Hk. rewrite g2_period_eval by auto. cbv zeta.
  pose proof (period_unit rs) as Hu. set (games := map (fun '(rj, RDj, _, o) => (g2mu rj, g2phi RDj, points o)) rs) in *.
  assert (Hg : games <> []) by (unfold games; destruct rs; [congruence|discriminate]).
  assert (Hl : INR (length games) = n) by (unfold games, n; now rewrite map_length).
  destruct (g2_vol fuel r RD s t tol games) as [x|] eqn:Ex; [|discriminate].
  apply g2_vol_small in Ex; auto; [|rewrite Hl; auto]. destruct Ex as (s' & -> & P & B). rewrite Hl in B.
  rewrite g2_out_eval by auto. intros [= <-]. cbn [g2_rating g2_volatility].
  exists (g2_new_r r RD s' games), s'. repeat (split; [first [reflexivity|assumption]|]). rewrite <- Hl. now apply g2_new_r_bound.
Qed.
Lemma C128_game_term_proof : forall r1 RD1 s1 r2 RD2 s2 o t tol,
  0 < s1 -> 0 < s2 -> 0 < t -> 0 < tol -> t ^ 2 * s1 ^ 2 <= 1 / 10 -> t ^ 2 * s2 ^ 2 <= 1 / 10 ->
  exists n0, forall n, (n0 <= n)%nat -> exists p q,
    glicko2 n (mkGlicko2 (Fin r1) (Fin RD1) (Fin s1)) (mkGlicko2 (Fin r2) (Fin RD2) (Fin s2)) o
      (mkGlicko2Config (Fin t) (Fin tol)) = Some (p, q).
Proof.
  intros r1 RD1 s1 r2 RD2 s2 o t tol H1 H2 Ht Htol C1 C2.
  destruct (g2_vol_small_term r1 RD1 s1 t tol [(g2mu r2, g2phi RD2, points o)] ltac:(discriminate) (one_unit _ _ _) H1 Ht Htol) as (n1 & T1); [cbn [length INR]; lra|].
  destruct (g2_vol_small_term r2 RD2 s2 t tol [(g2mu r1, g2phi RD1, points (invert o))] ltac:(discriminate) (one_unit _ _ _) H2 Ht Htol) as (n2 & T2); [cbn [length INR]; lra|].
  exists (max n1 n2). intros n Hn. rewrite g2_game_eval. cbv zeta.
  destruct (T1 n ltac:(lia)) as (s1' & ->), (T2 n ltac:(lia)) as (s2' & ->). eauto.
Qed.
Lemma C128_period_term_proof : forall r RD s t tol rs, 0 < s -> 0 < t -> 0 < tol -> rs <> [] ->
  t ^ 2 * s ^ 2 * INR (length rs) ^ 2 <= 1 / 10 ->
  exists n0, forall n, (n0 <= n)%nat -> exists p,
    glicko2_rating_period n (mkGlicko2 (Fin r) (Fin RD) (Fin s))
      (map (fun '(rj, RDj, sj, o) => (mkGlicko2 (Fin rj) (Fin RDj) (Fin sj), o)) rs)
      (mkGlicko2Config (Fin t) (Fin tol)) = Some p.
Proof.
  intros r RD s t tol rs Hs Ht Htol Hne Hc. pose proof (period_unit rs) as Hu.
  destruct (g2_vol_small_term r RD s t tol (map (fun '(rj, RDj, _, o) => (g2mu rj, g2phi RDj, points o)) rs)) as (n0 & H); auto.
  { destruct rs; [congruence|discriminate]. } { now rewrite map_length. }
  exists n0. intros n Hn. destruct (H n Hn) as (s' & E). rewrite g2_period_eval by auto. cbv zeta. rewrite E. eauto.
Qed.

(** Glickman's equation can have a second, arbitrarily large solution. *)
Lemma C128_other_proof : forall r1 RD1 s1 RD2 t N, 0 < s1 -> 0 < t -> exists r2,
  let ga := [(g2mu r2, g2phi RD2, points WIN)] in
  let v := g2v (g2mu r1) ga in
  exists x, g2f (v * g2M (g2mu r1) ga) (g2phi RD1) v s1 t x = 0 /\ N <= exp (x / 2).
Proof.
  intros r1 RD1 s t0 t N Hs Ht. rename t0 into RD2.
  pose proof (g2g_range (g2phi RD2)) as Gg. set (g := g2g (g2phi RD2)) in *. set (a := ln (s ^ 2)). set (T := t ^ 2).
  assert (HT : 0 < T) by (apply pow_lt; auto). set (c := g ^ 2 / 36). assert (Hc : 0 < c) by (unfold c; assert (0 < g ^ 2) by (apply pow_lt; lra); lra).
  set (y := 4 * (1 + Rabs a) / (c * T) + 1 + Rabs (2 * ln (Rmax N 1))).
  pose proof (Rabs_pos a) as Aa. pose proof (Rabs_pos (2 * ln (Rmax N 1))) as An.
  assert (Q0 : 0 < 4 * (1 + Rabs a) / (c * T)) by (apply Rdiv_lt_0_compat; [lra|nra]).
  assert (Hy : 1 <= y) by (unfold y; lra).
  assert (Y1 : (y - a) / T < exp y * c).
  { assert (E2 : y ^ 2 / 4 < exp y).
    { replace (exp y) with (exp (y / 2) * exp (y / 2)) by (rewrite <- exp_plus; f_equal; field). pose proof (exp_ineq1_le (y / 2)). nra. }
    apply Rmult_lt_reg_r with T; auto. replace ((y - a) / T * T) with (y - a) by (field; lra).
    assert (y - a <= y * (1 + Rabs a)) by (pose proof (Rle_abs (- a)) as h; rewrite Rabs_Ropp in h; nra).
    assert (y * (1 + Rabs a) <= y ^ 2 / 4 * (c * T)).
    { replace (y ^ 2 / 4 * (c * T)) with (y * (y * (c * T) / 4)) by field. apply Rmult_le_compat_l; [lra|].
      assert (4 * (1 + Rabs a) / (c * T) * (c * T) <= y * (c * T)) as h by (apply Rmult_le_compat_r; [nra|unfold y; lra]).
      replace (4 * (1 + Rabs a) / (c * T) * (c * T)) with (4 * (1 + Rabs a)) in h by (field; lra). lra. }
    assert (0 < c * T) by nra. nra. }
  pose proof (exp_pos y) as PX. set (X := exp y) in *.
  set (K := g2phi RD1 ^ 2 + X). assert (HK : 0 < K) by (unfold K; pose proof (pow2_ge_0 (g2phi RD1)); lra).
  set (e := / (6 + K * g ^ 2)). assert (g2 : 0 < g ^ 2 <= 1) by (split; [apply pow_lt; lra|nra]).
  assert (HKg : 0 < K * g ^ 2) by nra.
  exists (r1 + g2s * (ln (5 + K * g ^ 2) / g)). cbv zeta. set (mu2 := g2mu (r1 + g2s * (ln (5 + K * g ^ 2) / g))).
  assert (EE : g2E (g2mu r1) mu2 (g2phi RD2) = e).
  { unfold g2E. fold g. pose proof g2s_pos. replace (- g * (g2mu r1 - mu2)) with (ln (5 + K * g ^ 2)) by (unfold mu2, g2mu; field; lra).
    rewrite exp_ln by lra. unfold e. f_equal. ring. }
  rewrite g2v_single, g2M_single, EE. fold g. cbn [points].
  assert (He : 0 < e <= / 6) by (unfold e; split; [apply Rinv_0_lt_compat; lra|apply Rinv_le_contravar; lra]).
  set (w := g ^ 2 * e * (1 - e)). assert (Hw : 0 < w) by (unfold w; assert (0 < 1 - e) by lra; pos).
  set (D := g2phi RD1 ^ 2 + / w). set (S := (/ w * (g * (1 - e))) ^ 2 - g2phi RD1 ^ 2 - / w).
  assert (iw : 0 < / w) by (apply Rinv_0_lt_compat; auto).
  assert (HD : 0 < D) by (unfold D; pose proof (pow2_ge_0 (g2phi RD1)); lra).
  set (q := / (g ^ 2 * e)). assert (ge : 0 < g ^ 2 * e) by nra. assert (Hq : 0 < q) by (apply Rinv_0_lt_compat; auto).
  assert (iq : / w <= 2 * q).
  { unfold w, q. rewrite Rinv_mult. assert (/ (1 - e) <= 2) by (replace 2 with (/ / 2) by field; apply Rinv_le_contravar; lra). rewrite Rmult_comm. apply Rmult_le_compat_r; [fold q; lra|auto]. }
  assert (Kq : K <= q).
  { unfold q. apply Rmult_le_reg_r with (g ^ 2 * e); auto. rewrite Rinv_l by lra. unfold e. rewrite <- Rmult_assoc.
    apply Rmult_le_reg_r with (6 + K * g ^ 2); [lra|]. rewrite Rmult_assoc, Rinv_l by lra. lra. }
  assert (DX : D + X <= 3 * q) by (unfold D; unfold K in Kq; lra).
  assert (dd : (/ w * (g * (1 - e))) ^ 2 = q ^ 2 * g ^ 2) by (unfold w, q; field; repeat split; lra).
  assert (Gq : 6 <= g ^ 2 * q).
  { unfold q. replace (g ^ 2 * / (g ^ 2 * e)) with (/ e) by (field; lra). replace 6 with (/ / 6) by field. apply Rinv_le_contravar; lra. }
  assert (SX : q ^ 2 * g ^ 2 / 2 <= S - X).
  { unfold S. rewrite dd. unfold K in Kq. assert (6 * q <= q ^ 2 * g ^ 2) by (replace (q ^ 2 * g ^ 2) with (g ^ 2 * q * q) by ring; apply Rmult_le_compat_r; lra). lra. }
  assert (HSp : 0 < q ^ 2 * g ^ 2) by (apply Rmult_lt_0_compat; [apply pow_lt; auto|lra]).
  assert (Fy : 0 < hf S D a T y).
  { unfold hf. fold X. enough (X * c <= X * (S - X) / (2 * (D + X) ^ 2)) by lra. unfold Rdiv at 1. rewrite Rmult_assoc. apply Rmult_le_compat_l; [lra|].
    apply Rmult_le_reg_r with (2 * (D + X) ^ 2); [apply Rmult_lt_0_compat; [lra|apply pow_lt; lra]|].
    replace ((S - X) * / (2 * (D + X) ^ 2) * (2 * (D + X) ^ 2)) with (S - X) by (field; lra).
    eapply Rle_trans; [|exact SX]. assert ((D + X) ^ 2 <= (3 * q) ^ 2) as h by (apply pow_incr; lra). unfold c.
    replace (q ^ 2 * g ^ 2 / 2) with (g ^ 2 / 36 * (2 * (3 * q) ^ 2)) by field. apply Rmult_le_compat_l; lra. }
  assert (SXp : X < S) by lra.
  assert (Fs : hf S D a T (ln S) < 0 \/ y <= a).
  { destruct (Rle_dec y a) as [h|h]; [now right|left]. rewrite hf_at_lnS by lra. assert (a < ln S) by (apply Rlt_trans with y; [lra|]; rewrite <- (ln_exp y); apply ln_increasing; auto).
    replace ((a - ln S) / T) with (- ((ln S - a) / T)) by (field; lra). assert (0 < (ln S - a) / T) by (apply Rdiv_lt_0_compat; lra). lra. }
  assert (ya : a < y \/ y <= a) by lra.
  assert (YS : y < ln S) by (rewrite <- (ln_exp y); apply ln_increasing; auto).
  assert (F2 : exists u, y <= u /\ hf S D a T u <= 0).
  { destruct Fs as [F|F]; [exists (ln S); lra|]. exists (Rmax (ln S) a). pose proof (Rmax_l (ln S) a) as m1. pose proof (Rmax_r (ln S) a) as m2. split; [lra|].
    set (u := Rmax (ln S) a) in *. unfold hf. assert (S <= exp u) by (rewrite <- (exp_ln S) by lra; destruct m1 as [m1| <-]; [left; now apply exp_increasing|lra]).
    pose proof (exp_pos u). assert (0 <= (u - a) / T) by (apply Rmult_le_pos; [lra|apply Rlt_le, Rinv_0_lt_compat; auto]).
    enough (exp u * (S - exp u) / (2 * (D + exp u) ^ 2) <= 0) by lra. unfold Rdiv. assert (0 < / (2 * (D + exp u) ^ 2)) by (apply Rinv_0_lt_compat, Rmult_lt_0_compat; [lra|apply pow_lt; lra]).
    assert (exp u * (S - exp u) <= 0) by nra. nra. }
  destruct F2 as (u & Hu & Fu).
  destruct (hf_root S D a T y u HD HT) as (z & Hz & Hb); [nra|]. exists z. split; [rewrite g2f_hf; exact Hz|].
  apply Rle_trans with (exp (y / 2)).
  - apply Rle_trans with (Rmax N 1); [apply Rmax_l|]. assert (0 < Rmax N 1) by (pose proof (Rmax_r N 1); lra). rewrite <- (exp_ln (Rmax N 1)) by auto.
    left. apply exp_increasing. pose proof (Rle_abs (2 * ln (Rmax N 1))). unfold y. lra.
  - destruct (proj1 (conj (Rle_or_lt y z) I)) as [[h| ->]|h]; [left; apply exp_increasing; lra|lra|destruct Hb; lra].
Qed.
