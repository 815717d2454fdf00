(** Glickman's volatility function in double precision: the error of one evaluation
    and the spacing of its values. *)
From Coq Require Import ZArith List Bool Reals Lra Lia Psatz.
From Flocq Require Import Core.Core IEEE754.BinarySingleNaN.
From Verif Require Import Arith B64 ModelLib ModelGlicko2 SpecB64 SpecAcc SpecAcc3 MathB64 ProofB64 ProofB64b MathB64b MathAcc ProofBoost2 ProofAcc MathGlicko2 MathIllF.
Import ListNotations.
Local Open Scope R_scope.

(** ** Spacing *)
Lemma rnd_opp v : rnd (- v) = - rnd v.
Proof. unfold rnd, rnd0. rewrite round_NE_opp. set (q := round _ _ _ _). pose proof M64_pos. unfold Rmax, Rmin. repeat destruct Rle_dec; lra. Qed.
Lemma mult_of (x : B64) k : fin x -> bpow radix2 k <= Rabs (ext x) -> exists m : Z, ext x = IZR m * bpow radix2 (k - 52).
Proof.
  intros Fx H. destruct x as [sx|sx| |sx m e He]; try discriminate Fx.
  - exists 0%Z. simpl. ring.
  - unfold ext in *. unfold B2R in *. unfold F2R in *. simpl Fnum in *. simpl Fexp in *.
    assert (Ge : (k - 52 <= e)%Z).
    { destruct (Z_le_gt_dec (k - 52) e) as [G|G]; [exact G|exfalso]. rewrite Rabs_mult, (Rabs_pos_eq (bpow radix2 e)) in H by apply bpow_ge_0.
      assert (Mb : Rabs (IZR (cond_Zopp sx (Zpos m))) < bpow radix2 53).
      { rewrite <- abs_IZR, abs_cond_Zopp. simpl Z.abs. pose proof (andb_prop _ _ He) as [C _]. apply Zeq_bool_eq in C. unfold SpecFloat.fexp, SpecFloat.emin in C.
        rewrite Digits.Zpos_digits2_pos in C. change (bpow radix2 53) with (IZR (Zpower radix2 53)). apply IZR_lt. apply (Digits.Zpower_gt_Zdigits radix2 53 (Zpos m)). lia. }
      apply (Rle_not_lt _ _ H). apply Rlt_le_trans with (bpow radix2 53 * bpow radix2 e); [apply Rmult_lt_compat_r; [apply bpow_gt_0|exact Mb]|].
      rewrite <- bpow_plus. apply bpow_le. lia. }
    exists (cond_Zopp sx (Zpos m) * Zpower radix2 (e - (k - 52)))%Z. rewrite mult_IZR, IZR_Zpower by lia. rewrite Rmult_assoc, <- bpow_plus. f_equal. f_equal. lia.
Qed.
Definition gr (x : B64) (k : Z) : Prop := ext x = 0 \/ bpow radix2 k <= Rabs (ext x).
Lemma mult_of' (x : B64) k : fin x -> gr x k -> exists m : Z, ext x = IZR m * bpow radix2 (k - 52).
Proof. intros Fx [E|G]; [exists 0%Z; rewrite E; ring|apply mult_of; assumption]. Qed.
Lemma gr_sub x y k : fin x -> fin y -> gr x k -> gr y k -> (-900 <= k <= 100)%Z -> gr (Bminus mode_NE x y) (k - 52).
Proof.
  intros Fx Fy Gx Gy K. destruct (ext_minus x y Fx Fy) as [N E]. unfold gr. rewrite E.
  destruct (mult_of' x k Fx Gx) as [m Em]. destruct (mult_of' y k Fy Gy) as [n En]. rewrite Em, En, <- Rmult_minus_distr_r, <- minus_IZR.
  destruct (Z.eq_dec (m - n) 0) as [Z|Z]; [left; rewrite Z, Rmult_0_l; apply rnd_0|right].
  pose proof (bpow_gt_0 radix2 (k - 52)) as BP.
  destruct (Z_le_gt_dec 1 (m - n)) as [G|G].
  - assert (1 <= IZR (m - n)) by (apply IZR_le; lia). eapply Rle_trans; [|apply Rle_abs]. rewrite <- (rnd_pow2 (k - 52)) at 1 by lia. apply rnd_le. nra.
  - assert (IZR (m - n) <= -1) by (apply IZR_le; lia). rewrite <- Rabs_Ropp. eapply Rle_trans; [|apply Rle_abs].
    apply Ropp_le_cancel. rewrite Ropp_involutive. assert (Q : rnd (- bpow radix2 (k - 52)) = - bpow radix2 (k - 52)) by (rewrite rnd_opp, rnd_pow2 by lia; reflexivity).
    rewrite <- Q. apply rnd_le. nra.
Qed.
Lemma gr_of_big x k : bpow radix2 k <= Rabs (ext x) -> gr x k. Proof. intro H; right; exact H. Qed.
Lemma gr_weak x k j : gr x k -> (j <= k)%Z -> gr x j.
Proof. intros [E|G] H; [left; exact E|right; apply Rle_trans with (2 := G); apply bpow_le, H]. Qed.
Lemma rnd_gr v k : (-1000 <= k <= 100)%Z -> v = 0 \/ bpow radix2 k <= Rabs v -> rnd v = 0 \/ bpow radix2 k <= Rabs (rnd v).
Proof.
  intros K [E|G]; [left; rewrite E; apply rnd_0|right]. destruct (Rle_dec 0 v) as [P|P].
  - rewrite Rabs_pos_eq in G by exact P. eapply Rle_trans; [|apply Rle_abs]. rewrite <- (rnd_pow2 k) at 1 by lia. apply rnd_le, G.
  - rewrite Rabs_left1 in G by lra. rewrite <- Rabs_Ropp. eapply Rle_trans; [|apply Rle_abs]. rewrite <- rnd_opp. rewrite <- (rnd_pow2 k) at 1 by lia. apply rnd_le, G.
Qed.

(** ** The error of one evaluation *)
Lemma exp_range x : -22 <= x <= 13 -> / 10 ^ 11 <= exp x <= 2 * 10 ^ 6.
Proof.
  intros H. assert (E3 : exp 1 <= 3) by apply exp_le_3. pose proof (exp_pos 1) as E0.
  assert (EN : forall n, exp (INR n) = exp 1 ^ n).
  { induction n as [|n IH]; [simpl; apply exp_0|]. rewrite S_INR, exp_plus, IH. simpl. ring. }
  split.
  - apply Rle_trans with (exp (- INR 22)).
    + rewrite exp_Ropp, EN. apply Rinv_le_contravar; [apply pow_lt, E0|]. apply Rle_trans with (3 ^ 22); [apply pow_incr; lra|lra].
    + apply exp_le. rewrite INR_IZR_INZ. simpl. lra.
  - apply Rle_trans with (exp (INR 13)); [apply exp_le; rewrite INR_IZR_INZ; simpl; lra|]. rewrite EN. apply Rle_trans with (3 ^ 13); [apply pow_incr; lra|lra].
Qed.

Ltac bd2 := match goal with
  | |- Rabs ?a + ?e <= ?b => enough (Rabs a <= b - e) by lra; apply Rabs_le; unfold Rdiv in *; lra
  | |- Rabs _ <= _ => apply Rabs_le; unfold Rdiv in *; lra end.
Lemma hf_slope10 S D a T : 0 < D -> 0 < T -> - D <= S -> T * S <= 10 * D -> forall x y, x <= y ->
  / (2 * T) * (y - x) <= hf S D a T x - hf S D a T y.
Proof.
  intros HD HT HS HU x y [Hxy| ->]; [|lra].
  destruct (MVT_cor2 (hf S D a T) (hf' S D T) x y Hxy) as (c & E & _).
  { intros c _. apply hf_dlim; auto. }
  assert (K : hf' S D T c <= - / (2 * T)).
  { unfold hf'. pose proof (exp_pos c) as He. set (e := exp c) in *. replace (/ T) with (2 * / (2 * T)) by (field; lra).
    enough (e * (S * D - e * (S + 2 * D)) / (2 * (D + e) ^ 3) <= / (2 * T)) by lra.
    assert (HP : 0 < (D + e) ^ 3) by (apply pow_lt; lra).
    assert (G : T * (e * (S * D - e * (S + 2 * D))) <= (D + e) ^ 3).
    { destruct (Rle_dec S 0) as [C|C].
      - assert (S * D - e * (S + 2 * D) <= 0) by nra. assert (e * (S * D - e * (S + 2 * D)) <= 0) by nra. assert (T * (e * (S * D - e * (S + 2 * D))) <= 0) by nra. lra.
      - destruct (Rle_dec D e) as [C2|C2].
        + assert (S * D - e * (S + 2 * D) <= 0) by nra. assert (e * (S * D - e * (S + 2 * D)) <= 0) by nra. assert (T * (e * (S * D - e * (S + 2 * D))) <= 0) by nra. lra.
        + assert (A1 : 0 < e * (D - e)) by (apply Rmult_lt_0_compat; lra). assert (A2 : 0 < T * e * e * D) by (repeat apply Rmult_lt_0_compat; lra).
          assert (A3 : T * S * (e * (D - e)) <= 10 * D * (e * (D - e))) by (apply Rmult_le_compat_r; lra).
          assert (A4 : 0 <= D * ((D - 7 / 2 * e) * (D - 7 / 2 * e) + 3 / 4 * (e * e))).
          { apply Rmult_le_pos; [lra|]. pose proof (Rle_0_sqr (D - 7 / 2 * e)) as Z1. pose proof (Rle_0_sqr e) as Z2. unfold Rsqr in *. lra. }
          assert (A5 : 0 < e * e * e) by (repeat apply Rmult_lt_0_compat; lra).
          replace (T * (e * (S * D - e * (S + 2 * D)))) with (T * S * (e * (D - e)) - 2 * (T * e * e * D)) by ring.
          replace ((D + e) ^ 3) with (10 * D * (e * (D - e)) + D * ((D - 7 / 2 * e) * (D - 7 / 2 * e) + 3 / 4 * (e * e)) + e * e * e) by field. lra. }
    apply Rmult_le_reg_r with (2 * (D + e) ^ 3 * T); [apply Rmult_lt_0_compat; lra|].
    replace (e * (S * D - e * (S + 2 * D)) / (2 * (D + e) ^ 3) * (2 * (D + e) ^ 3 * T)) with (T * (e * (S * D - e * (S + 2 * D)))) by (field; lra).
    replace (/ (2 * T) * (2 * (D + e) ^ 3 * T)) with ((D + e) ^ 3) by (field; lra). exact G. }
  assert (hf' S D T c * (y - x) <= - / (2 * T) * (y - x)) by (apply Rmult_le_compat_r; lra). lra.
Qed.
Lemma exp_near e : Rabs e <= / 10 -> Rabs (exp e - 1) <= 2 * Rabs e.
Proof.
  intros H. apply Rabs_le_inv in H. pose proof (exp_ineq1_le e) as A. pose proof (exp_ineq1_le (- e)) as B. rewrite exp_Ropp in B. pose proof (exp_pos e) as E.
  assert (U : exp e * (1 - e) <= 1). { apply Rmult_le_compat_l with (r := exp e) in B; [|lra]. rewrite Rinv_r in B by lra. lra. }
  unfold Rabs at 2. destruct (Rcase_abs e); apply Rabs_le; split; nra.
Qed.
Lemma ln_lo w : 0 < w -> 1 - / w <= ln w.
Proof.
  intros W. pose proof (exp_ineq1_le (/ w - 1)) as K. replace (1 + (/ w - 1)) with (/ w) in K by ring. assert (I : 0 < / w) by (apply Rinv_0_lt_compat, W).
  assert (ln (/ w) <= / w - 1). { rewrite <- (ln_exp (/ w - 1)). destruct K as [K|K]; [left; apply ln_increasing; lra|right; rewrite <- K; reflexivity]. } rewrite ln_Rinv in H by exact W. lra.
Qed.
Lemma ln_le' a b : 0 < a -> a <= b -> ln a <= ln b.
Proof. intros A [B| ->]; [left; apply ln_increasing; lra|lra]. Qed.

Section FErr.
  Variables (L : Libm) (d2 p2 v s t : B64) (D2 ph V : R).
  Hypothesis HE : exp_accurate L. Hypothesis HL : lnw_accurate L.
  Notation P := (ph + V).
  Hypothesis Hd : ap d2 D2 (P / 2 / 10 ^ 8). Hypothesis Hp : ap p2 ph (P / 10 ^ 10). Hypothesis Hv : ap v V (P / 10 ^ 10).
  Hypothesis D0 : 0 <= D2 <= 100 * P. Hypothesis ph0 : 0 < ph. Hypothesis V0 : 0 < V. Hypothesis HP : / 100 <= P <= 1000.
  Hypothesis Hs : fin s. Hypothesis Hs' : / 100 <= ext s <= 3 / 10.
  Hypothesis Ht : fin t. Hypothesis Ht' : / 10 <= ext t <= 12 / 10.
  Notation F x := (g2_f_value (A := B64A L) x d2 p2 v s t).
  Definition n1 : B64 := Bminus mode_NE (Bminus mode_NE d2 p2) v.
  Definition sl : B64 := l_ln L (Bmult mode_NE s s).
  Notation S := (D2 - ph - V).

  Lemma E_ap x : fin x -> -22 <= ext x <= 13 -> ap (l_exp L x) (exp (ext x)) (/ 10 ^ 15 * exp (ext x)).
  Proof.
    intros Fx B. destruct (HE x Fx) as [FE EE]; [rewrite <- (ext_fin x Fx); apply Rabs_le; lra|]. rewrite <- (ext_fin x Fx) in EE. split; [exact FE|]. rewrite (ext_fin _ FE).
    eapply Rle_trans; [exact EE|]. apply Rmult_le_compat_r; [left; apply exp_pos|apply i50].
  Qed.
  Lemma n1_ap : ap n1 S (522 / 10 ^ 11 * P).
  Proof.
    unfold n1. pose proof (ap_sub _ _ _ _ _ _ (102 * P) Hd Hp ltac:(bd2) ltac:(okb)) as A1. apply (ap_weak _ _ _ (511 / 10 ^ 11 * P)) in A1; [|ulra].
    pose proof (ap_sub _ _ _ _ _ _ (103 * P) A1 Hv ltac:(bd2) ltac:(okb)) as A2. apply (ap_weak _ _ _ (522 / 10 ^ 11 * P)) in A2; [exact A2|ulra].
  Qed.
  Section At.
    Variable x : B64. Hypothesis Fx : fin x. Hypothesis Bx : -22 <= ext x <= 13.
    Notation y := (exp (ext x)). Notation T := (P + y).
    Definition n2 := Bminus mode_NE n1 (l_exp L x).
    Definition nu := Bmult mode_NE (l_exp L x) n2.
    Definition de0 := Bplus mode_NE (Bplus mode_NE p2 v) (l_exp L x).
    Definition de := Bmult mode_NE (b64_of_Z 2) (Bmult mode_NE de0 de0).
    Lemma n2_ap : ap n2 (S - y) (523 / 10 ^ 11 * T).
    Proof.
      pose proof (exp_range _ Bx) as Y. pose proof (E_ap x Fx Bx) as E. unfold n2.
      pose proof (ap_sub _ _ _ _ _ _ (103 * T) n1_ap E ltac:(bd2) ltac:(okb)) as A. apply (ap_weak _ _ _ (523 / 10 ^ 11 * T)) in A; [exact A|ulra].
    Qed.
    Lemma nu_ap : ap nu (y * (S - y)) (524 / 10 ^ 11 * (y * T)).
    Proof.
      pose proof (exp_range _ Bx) as Y. pose proof (E_ap x Fx Bx) as E. pose proof n2_ap as N2. unfold nu. set (yy := y) in *.
      assert (K : / 10 ^ 15 <= yy * (P + yy) <= 10 ^ 14). { split; [apply Rle_trans with (/ 10 ^ 11 * (/ 100)); [lra|apply Rmult_le_compat; lra]|apply Rle_trans with (2 * 10 ^ 6 * (3 * 10 ^ 6)); [apply Rmult_le_compat; lra|lra]]. }
      pose proof (ap_mul _ _ _ _ _ _ yy (102 * (P + yy)) (103 * (yy * (P + yy))) E N2 ltac:(bd2) ltac:(bd2) ltac:(ulra) ltac:(okb)) as A. apply (ap_weak _ _ _ (524 / 10 ^ 11 * (yy * (P + yy)))) in A; [exact A|ulra].
    Qed.
    Lemma de0_ap : ap de0 T (21 / 10 ^ 11 * T).
    Proof.
      pose proof (exp_range _ Bx) as Y. pose proof (E_ap x Fx Bx) as E. unfold de0.
      pose proof (ap_add _ _ _ _ _ _ (2 * P) Hp Hv ltac:(bd2) ltac:(okb)) as A1. apply (ap_weak _ _ _ (201 / 10 ^ 12 * P)) in A1; [|ulra].
      pose proof (ap_add _ _ _ _ _ _ (2 * T) A1 E ltac:(bd2) ltac:(okb)) as A. apply (ap_weak _ _ _ (21 / 10 ^ 11 * T)) in A; [exact A|ulra].
    Qed.
    Lemma T2 : / 10 ^ 4 <= T * T <= 10 ^ 14.
    Proof. pose proof (exp_range _ Bx) as Y. split; [apply Rle_trans with (/ 100 * / 100); [lra|apply Rmult_le_compat; lra]|apply Rle_trans with (3 * 10 ^ 6 * (3 * 10 ^ 6)); [apply Rmult_le_compat; lra|lra]]. Qed.
    Lemma de_ap : ap de (2 * (T * T)) (87 / 10 ^ 11 * (T * T)).
    Proof.
      pose proof (exp_range _ Bx) as Y. pose proof T2 as K. unfold de. set (TT := T) in *.
      assert (TP : 0 < TT) by (unfold TT; lra).
      assert (HT : ap de0 TT (21 / 10 ^ 11 * TT)) by exact de0_ap.
      pose proof (ap_mul _ _ _ _ _ _ TT TT (2 * (TT * TT)) HT HT ltac:(bd2) ltac:(bd2) ltac:(ulra) ltac:(okb)) as A. apply (ap_weak _ _ _ (43 / 10 ^ 11 * (TT * TT))) in A; [|ulra].
      pose proof (ap_mul _ _ _ _ _ _ 2 (TT * TT) (3 * (TT * TT)) (ap_Z 2 ltac:(lia)) A ltac:(bd2) ltac:(bd2) ltac:(ulra) ltac:(okb)) as B. apply (ap_weak _ _ _ (87 / 10 ^ 11 * (TT * TT))) in B; [exact B|ulra].
    Qed.
    Definition iv := Bdiv mode_NE nu de.
    Lemma iv_real : Rabs (y * (S - y) / (2 * (T * T))) <= 51.
    Proof.
      pose proof (exp_range _ Bx) as Y. pose proof T2 as K. set (yy := y) in *.
      unfold Rdiv. rewrite Rabs_mult, Rabs_inv, (Rabs_pos_eq (2 * _)) by lra. apply Rmult_le_reg_r with (2 * ((P + yy) * (P + yy))); [lra|]. rewrite Rmult_assoc, Rinv_l, Rmult_1_r by lra.
      rewrite Rabs_mult, (Rabs_pos_eq yy) by lra. apply Rle_trans with ((P + yy) * (102 * (P + yy))); [|lra]. apply Rmult_le_compat; [lra|apply Rabs_pos|lra|bd2].
    Qed.
    Lemma iv_ap : ap iv (y * (S - y) / (2 * (T * T))) (25 / 10 ^ 9).
    Proof.
      pose proof (exp_range _ Bx) as Y. pose proof T2 as K. pose proof iv_real as IR. pose proof nu_ap as NU. pose proof de_ap as DE. unfold iv. set (yy := y) in *. set (TT := P + yy) in *.
      assert (YT : yy * TT <= TT * TT) by (apply Rmult_le_compat_r; unfold TT; lra).
      assert (Q : (524 / 10 ^ 11 * (yy * TT) + 51 * (87 / 10 ^ 11 * (TT * TT))) / (199 / 100 * (TT * TT)) <= 2494 / 10 ^ 11).
      { apply Rmult_le_reg_r with (199 / 100 * (TT * TT)); [lra|]. unfold Rdiv at 1. rewrite Rmult_assoc, Rinv_l, Rmult_1_r by lra. lra. }
      pose proof (ap_div _ _ _ _ _ _ (199 / 100 * (TT * TT)) 51 52 NU DE ltac:(lra) ltac:(rewrite Rabs_pos_eq by lra; lra) IR ltac:(lra) ltac:(okb)) as A. apply (ap_weak _ _ _ (25 / 10 ^ 9)) in A; [exact A|ulra].
    Qed.

    Notation lns := (ln (ext s ^ 2)).
    Lemma lns_range : -9.3 <= lns <= -2.3.
    Proof.
      pose proof ln10_close as LN. assert (Q : / 10 ^ 4 <= ext s ^ 2 <= / 10) by nra. split.
      - assert (E : ln (/ 10 ^ 4) = - (4 * ln 10)) by (rewrite ln_Rinv by lra; rewrite (ln_pow 10 ltac:(lra) 4); simpl; lra).
        assert (ln (/ 10 ^ 4) <= lns) by (destruct (proj1 Q) as [G|<-]; [left; apply ln_increasing; lra|lra]). lra.
      - assert (E : ln (/ 10) = - ln 10) by (apply ln_Rinv; lra). assert (lns <= ln (/ 10)) by (destruct (proj2 Q) as [G| ->]; [left; apply ln_increasing; lra|lra]). lra.
    Qed.
    Lemma ln_near a b e : 0 < a -> 0 <= e <= / 10 -> Rabs (b - a) <= e * a -> Rabs (ln b - ln a) <= 2 * e.
    Proof.
      intros A E H. apply Rabs_le_inv in H. assert (B0 : 0 < b) by nra.
      assert (LI : forall z, 0 < z -> ln z <= z - 1).
      { intros z Z. pose proof (exp_ineq1_le (z - 1)) as K. replace (1 + (z - 1)) with z in K by ring. rewrite <- (ln_exp (z - 1)). destruct K as [K|K]; [left; apply ln_increasing; lra|right; rewrite <- K; reflexivity]. }
      pose proof (LI (b / a) ltac:(apply Rdiv_lt_0_compat; assumption)) as U. pose proof (LI (a / b) ltac:(apply Rdiv_lt_0_compat; assumption)) as W.
      unfold Rdiv in U, W. rewrite ln_mult, ln_Rinv in U, W by (try assumption; apply Rinv_0_lt_compat; assumption).
      assert (b * / a <= 1 + e). { apply Rmult_le_reg_r with a; [exact A|]. rewrite Rmult_assoc, Rinv_l by lra. lra. }
      assert (a * / b <= 1 + 2 * e). { apply Rmult_le_reg_r with b; [exact B0|]. rewrite Rmult_assoc, Rinv_l by lra. nra. }
      apply Rabs_le. lra.
    Qed.
    Lemma lnw_ap (z : B64) r e : ap z r (e * r) -> 2 / 10 ^ 12 <= r <= 10 ^ 6 / 2 -> 0 <= e <= / 10 -> ap (l_ln L z) (ln r) (2 * e + / 10 ^ 15 * (2 + Rabs (ln r))).
    Proof.
      intros Z R E. assert (R0 : 0 < r) by lra. pose proof (ap_int _ _ _ Z) as I. pose proof (ap_fin _ _ _ Z) as Fz. assert (e * r <= / 10 * r) by (apply Rmult_le_compat_r; lra).
      assert (NR : Rabs (ln (ext z) - ln r) <= 2 * e) by (apply ln_near; [exact R0|exact E|apply Z]).
      destruct (HL z Fz) as [FL AL]; [rewrite <- (ext_fin z Fz); lra|]. rewrite <- (ext_fin z Fz) in AL. split; [exact FL|]. rewrite (ext_fin _ FL).
      replace (B2R (l_ln L z) - ln r) with ((B2R (l_ln L z) - ln (ext z)) + (ln (ext z) - ln r)) by ring. eapply Rle_trans; [apply Rabs_triang|].
      assert (Rabs (ln (ext z)) <= Rabs (ln r) + 2 * e). { replace (ln (ext z)) with (ln r + (ln (ext z) - ln r)) by ring. eapply Rle_trans; [apply Rabs_triang|lra]. }
      assert (/ 2 ^ 50 * (1 + Rabs (ln (ext z))) <= / 10 ^ 15 * (2 + Rabs (ln r))) by (pose proof (Rabs_pos (ln (ext z))); apply Rmult_le_compat; [lra|lra|apply i50|lra]). lra.
    Qed.
    Lemma sl_ap : ap sl lns (2 / 10 ^ 14).
    Proof.
      unfold sl. pose proof lns_range as LR. assert (Q : / 10 ^ 4 <= ext s ^ 2 <= / 10) by nra.
      destruct (ext_mult s s Hs Hs) as [N E]. replace (ext s * ext s) with (ext s ^ 2) in E by ring.
      assert (A : ap (Bmult mode_NE s s) (ext s ^ 2) (u0 * ext s ^ 2)).
      { pose proof (ap_rnd _ _ (ext s ^ 2) 0 (ext s ^ 2) N E ltac:(rewrite Rminus_diag_eq by reflexivity; rewrite Rabs_R0; lra) ltac:(rewrite Rabs_pos_eq by lra; lra) ltac:(okb)) as A. apply (ap_weak _ _ _ (u0 * ext s ^ 2)) in A; [exact A|lra]. }
      apply lnw_ap in A; [|lra|ulra]. apply (ap_weak _ _ _ (2 / 10 ^ 14)) in A; [exact A|]. rewrite (Rabs_left1 lns) by lra. ulra.
    Qed.
    Definition xs := Bminus mode_NE x sl.
    Definition jv := Bdiv mode_NE xs (Bmult mode_NE t t).
    Lemma tt_ap : ap (Bmult mode_NE t t) (ext t ^ 2) (u0 * ext t ^ 2).
    Proof.
      assert (Q : / 100 <= ext t ^ 2 <= 144 / 100) by nra. destruct (ext_mult t t Ht Ht) as [N E]. replace (ext t * ext t) with (ext t ^ 2) in E by ring.
      pose proof (ap_rnd _ _ (ext t ^ 2) 0 (ext t ^ 2) N E ltac:(rewrite Rminus_diag_eq by reflexivity; rewrite Rabs_R0; lra) ltac:(rewrite Rabs_pos_eq by lra; lra) ltac:(okb)) as A. apply (ap_weak _ _ _ (u0 * ext t ^ 2)) in A; [exact A|lra].
    Qed.
    Lemma xs_ap : ap xs (ext x - lns) (3 / 10 ^ 14).
    Proof.
      pose proof lns_range as LR. pose proof (ap_sub _ _ _ _ _ _ 40 (ap_self x Fx) sl_ap ltac:(bd2) ltac:(okb)) as A. apply (ap_weak _ _ _ (3 / 10 ^ 14)) in A; [exact A|ulra].
    Qed.
    Lemma jv_real : Rabs ((ext x - lns) / ext t ^ 2) <= 2300.
    Proof.
      assert (Q : / 100 <= ext t ^ 2 <= 144 / 100) by nra. pose proof lns_range as LR. unfold Rdiv. rewrite Rabs_mult, Rabs_inv, (Rabs_pos_eq (ext t ^ 2)) by lra.
      apply Rmult_le_reg_r with (ext t ^ 2); [lra|]. rewrite Rmult_assoc, Rinv_l, Rmult_1_r by lra. apply Rabs_le. lra.
    Qed.
    Lemma jv_ap : ap jv ((ext x - lns) / ext t ^ 2) (4 / 10 ^ 12).
    Proof.
      assert (Q : / 100 <= ext t ^ 2 <= 144 / 100) by nra. unfold jv. set (t2 := ext t ^ 2) in *.
      assert (K : (3 / 10 ^ 14 + 2300 * (u0 * t2)) / (99 / 100 * t2) <= 36 / 10 ^ 13).
      { apply Rmult_le_reg_r with (99 / 100 * t2); [lra|]. unfold Rdiv at 1. rewrite Rmult_assoc, Rinv_l, Rmult_1_r by lra. ulra. }
      pose proof (ap_div _ _ _ _ _ _ (99 / 100 * t2) 2300 2301 xs_ap tt_ap ltac:(lra) ltac:(fold t2; rewrite (Rabs_pos_eq t2) by lra; ulra) jv_real ltac:(fold t2; lra) ltac:(okb)) as A. fold t2 in A.
      apply (ap_weak _ _ _ (4 / 10 ^ 12)) in A; [exact A|ulra].
    Qed.
    Lemma F_ij : F x = Bminus mode_NE iv jv. Proof. reflexivity. Qed.
    Lemma F_ap : ap (F x) (hf S P lns (ext t ^ 2) (ext x)) (26 / 10 ^ 9).
    Proof.
      rewrite F_ij. pose proof iv_real as I. pose proof jv_real as J. pose proof iv_ap as IA. pose proof jv_ap as JA. unfold hf.
      replace (2 * (P + y) ^ 2) with (2 * ((P + y) * (P + y))) by ring.
      set (ii := y * (S - y) / _) in *. set (jj := (ext x - lns) / _) in *. apply Rabs_le_inv in I. apply Rabs_le_inv in J.
      pose proof (ap_sub _ _ _ _ _ _ 2400 IA JA ltac:(bd2) ltac:(okb)) as A. apply (ap_weak _ _ _ (26 / 10 ^ 9)) in A; [exact A|ulra].
    Qed.
    Lemma F_M : Rabs (ext (F x)) <= 4000.
    Proof.
      pose proof iv_real as I. pose proof jv_real as J. pose proof F_ap as [_ A]. unfold hf in A. replace (2 * (P + y) ^ 2) with (2 * ((P + y) * (P + y))) in A by ring.
      set (ii := y * (S - y) / _) in *. set (jj := (ext x - lns) / _) in *. apply Rabs_le_inv in I. apply Rabs_le_inv in J. apply Rabs_le_inv in A. apply Rabs_le. lra.
    Qed.
    Lemma F_gr : gr (F x) (-300).
    Proof.
      pose proof (exp_range _ Bx) as Y. pose proof lns_range as LR.
      assert (G1 : gr xs (-52)).
      { pose proof sl_ap as SA. pose proof (ap_int _ _ _ SA) as SI. unfold xs. destruct (Rle_dec 1 (Rabs (ext x))) as [C|C].
        - apply (gr_sub x sl 0 Fx (ap_fin _ _ _ SA)); [right; exact C| |lia]. right. change (bpow radix2 0) with 1. rewrite Rabs_left1 by lra. lra.
        - destruct (ext_minus x sl Fx (ap_fin _ _ _ SA)) as [N E]. apply (gr_weak _ 0); [|lia]. unfold gr. rewrite E. apply rnd_gr; [lia|]. right. change (bpow radix2 0) with 1.
          apply Rnot_le_lt in C. apply Rabs_def2 in C. rewrite Rabs_pos_eq by lra. lra. }
      assert (G2 : gr jv (-53)).
      { pose proof tt_ap as TA. pose proof (ap_int _ _ _ TA) as TI. assert (Q : / 100 <= ext t ^ 2 <= 144 / 100) by nra. assert (TB : / 200 <= ext (Bmult mode_NE t t) <= 2) by ulra.
        unfold jv. destruct (ext_div xs (Bmult mode_NE t t) (ap_fin _ _ _ xs_ap) (ap_fin _ _ _ TA) ltac:(lra)) as [N E]. unfold gr. rewrite E. apply rnd_gr; [lia|].
        destruct G1 as [G1|G1]; [left; rewrite G1; unfold Rdiv; ring|right]. set (q := ext (Bmult mode_NE t t)) in *. unfold Rdiv. rewrite Rabs_mult, Rabs_inv, (Rabs_pos_eq q) by lra.
        apply Rmult_le_reg_r with q; [lra|]. rewrite Rmult_assoc, Rinv_l, Rmult_1_r by lra. apply Rle_trans with (2 := G1). change (-52)%Z with (-53 + 1)%Z. rewrite bpow_plus. change (bpow radix2 1) with 2. apply Rmult_le_compat_l; [apply bpow_ge_0|lra]. }
      pose proof (E_ap x Fx Bx) as EA. pose proof (ap_int _ _ _ EA) as EI. set (E := l_exp L x) in *.
      assert (p38 : bpow radix2 (-38) <= / 10 ^ 11 * (99 / 100)). { change (-38)%Z with (- Z.of_nat 38)%Z. rewrite bpow_nat. lra. }
      assert (EB : bpow radix2 (-38) <= ext E) by lra.
      assert (p39 : bpow radix2 (-38) = 2 * bpow radix2 (-39)). { change (-38)%Z with (1 + -39)%Z. rewrite bpow_plus. reflexivity. } pose proof (bpow_gt_0 radix2 (-39)) as p39'.
      assert (G3 : gr n2 (-92)).
      { unfold n2. fold E. pose proof n1_ap as NA. pose proof (ap_fin _ _ _ NA) as Fn. destruct (Rle_dec (bpow radix2 (-39)) (Rabs (ext n1))) as [C|C].
        - apply (gr_weak _ (-39 - 52)); [|lia]. apply gr_sub; [exact Fn|apply EA|right; exact C| |lia]. right. rewrite Rabs_pos_eq by lra. lra.
        - destruct (ext_minus n1 E Fn (ap_fin _ _ _ EA)) as [N Q]. apply (gr_weak _ (-39)); [|lia]. unfold gr. rewrite Q. apply rnd_gr; [lia|]. right.
          apply Rnot_le_lt in C. apply Rabs_def2 in C. rewrite Rabs_left1 by lra. lra. }
      assert (G4 : gr nu (-130)).
      { unfold nu. fold E. destruct (ext_mult E n2 (ap_fin _ _ _ EA) (ap_fin _ _ _ n2_ap)) as [N Q]. unfold gr. rewrite Q. apply rnd_gr; [lia|]. destruct G3 as [G3|G3]; [left; rewrite G3; ring|right].
        rewrite Rabs_mult, (Rabs_pos_eq (ext E)) by lra. change (-130)%Z with (-38 + -92)%Z. rewrite bpow_plus. apply Rmult_le_compat; [apply bpow_ge_0|apply bpow_ge_0|exact EB|exact G3]. }
      assert (G5 : gr iv (-180)).
      { unfold iv. pose proof de_ap as DA. pose proof (ap_int _ _ _ DA) as DI. pose proof T2 as K. assert (DB : 0 < ext de <= bpow radix2 50) by (change (bpow radix2 50) with (IZR (2 ^ 50)); split; [lra|apply Rle_trans with (3 * 10 ^ 14); [lra|]; simpl; lra]).
        destruct (ext_div nu de (ap_fin _ _ _ nu_ap) (ap_fin _ _ _ DA) ltac:(lra)) as [N Q]. unfold gr. rewrite Q. apply rnd_gr; [lia|]. destruct G4 as [G4|G4]; [left; rewrite G4; unfold Rdiv; ring|right].
        set (q := ext de) in *. unfold Rdiv. rewrite Rabs_mult, Rabs_inv, (Rabs_pos_eq q) by lra.
        apply Rmult_le_reg_r with q; [lra|]. rewrite Rmult_assoc, Rinv_l, Rmult_1_r by lra. apply Rle_trans with (2 := G4). change (-130)%Z with (-180 + 50)%Z. rewrite bpow_plus. apply Rmult_le_compat_l; [apply bpow_ge_0|lra]. }
      rewrite F_ij. apply (gr_weak _ (-180 - 52)); [|lia]. apply gr_sub; [apply iv_ap|apply jv_ap|exact G5|apply (gr_weak _ (-53)); [exact G2|lia]|lia].
    Qed.
  End At.

  (** ** The bracket *)
  Variable tol : B64.
  Hypothesis Htol : fin tol. Hypothesis Htol' : 99 / 10 ^ 8 <= ext tol.
  Hypothesis Hup : ext t ^ 2 * D2 <= 10 * P.
  Hypothesis Hsep : P / 10 ^ 7 <= Rabs S.
  Notation lns := (ln (ext s ^ 2)).
  Notation f := (hf S P lns (ext t ^ 2)).

  Lemma t2_range : / 100 <= ext t ^ 2 <= 144 / 100. Proof. nra. Qed.
  Lemma f_slope x y : x <= y -> / (2 * ext t ^ 2) * (y - x) <= f x - f y.
  Proof. pose proof t2_range. intros H'. apply hf_slope10; [lra|lra|lra| |exact H']. assert (0 <= ext t ^ 2 * P) by (apply Rmult_le_pos; lra). lra. Qed.
  Lemma m1_range : 347 / 1000 <= / (2 * ext t ^ 2).
  Proof. pose proof t2_range. apply Rle_trans with (/ (288 / 100)); [lra|]. apply Rinv_le_contravar; lra. Qed.
  Lemma sl_B : -22 <= ext sl <= 13 /\ fin sl.
  Proof. pose proof lns_range. pose proof (ap_int _ _ _ sl_ap). split; [lra|apply sl_ap]. Qed.

  Lemma sgn_div a b : 0 < b -> (0 <= a -> 0 <= rnd (a / b)) /\ (a <= 0 -> rnd (a / b) <= 0).
  Proof. intros B. assert (0 < / b) by (apply Rinv_0_lt_compat, B). split; intros A; [apply rnd_nonneg|apply rnd_0_le]; unfold Rdiv; nra. Qed.
  Lemma F_at_sl : ext (F sl) = ext (iv sl).
  Proof.
    destruct sl_B as [B Fs]. rewrite F_ij. pose proof (iv_ap sl Fs B) as IA. pose proof (jv_ap sl Fs B) as JA.
    assert (J0 : ext (jv sl) = 0).
    { unfold jv. pose proof tt_ap as TA. pose proof (ap_int _ _ _ TA). pose proof t2_range. destruct (ext_div (xs sl) (Bmult mode_NE t t) (ap_fin _ _ _ (xs_ap sl Fs B)) (ap_fin _ _ _ TA) ltac:(ulra)) as [_ E].
      rewrite E. unfold xs. destruct (ext_minus sl sl Fs Fs) as [_ E2]. rewrite E2, Rminus_diag_eq, rnd_0 by reflexivity. unfold Rdiv. rewrite Rmult_0_l. apply rnd_0. }
    destruct (ext_minus (iv sl) (jv sl) (ap_fin _ _ _ IA) (ap_fin _ _ _ JA)) as [_ E]. rewrite E, J0, Rminus_0_r. apply rnd_ext. apply IA.
  Qed.
  Lemma de_pos x : fin x -> -22 <= ext x <= 13 -> 0 < ext (de x).
  Proof. intros Fx B. pose proof (ap_int _ _ _ (de_ap x Fx B)). pose proof (T2 x B). lra. Qed.
  Lemma F_sl_sign : (ext (l_exp L sl) <= ext n1 -> 0 <= ext (F sl)) /\ (ext n1 <= ext (l_exp L sl) -> ext (F sl) <= 0).
  Proof.
    destruct sl_B as [B Fs]. rewrite F_at_sl. unfold iv. pose proof (de_pos sl Fs B) as DP.
    destruct (ext_div (nu sl) (de sl) (ap_fin _ _ _ (nu_ap sl Fs B)) (ap_fin _ _ _ (de_ap sl Fs B)) ltac:(lra)) as [_ E]. rewrite E.
    destruct (ext_mult (l_exp L sl) (n2 sl) (ap_fin _ _ _ (E_ap sl Fs B)) (ap_fin _ _ _ (n2_ap sl Fs B))) as [_ E2].
    destruct (ext_minus n1 (l_exp L sl) (ap_fin _ _ _ n1_ap) (ap_fin _ _ _ (E_ap sl Fs B))) as [_ E3].
    pose proof (ap_int _ _ _ (E_ap sl Fs B)) as EI. pose proof (exp_pos (ext sl)) as EP.
    destruct (sgn_div (ext (nu sl)) _ DP) as [S1 S2]. split; intros H; [apply S1|apply S2]; unfold nu; rewrite E2; [apply rnd_nonneg; apply Rmult_le_pos; [lra|]; unfold n2; rewrite E3; apply rnd_nonneg; lra|].
    apply rnd_0_le. apply mpn; [lra|]. unfold n2. rewrite E3. apply rnd_0_le. lra.
  Qed.
  (** where the exponential is close to the difference, the first summand is small *)
  Lemma iv_small x k : fin x -> -22 <= ext x <= 13 -> / 10 ^ 15 <= k <= / 10 ^ 3 -> Rabs (ext n1 - ext (l_exp L x)) <= k * (P + exp (ext x)) -> Rabs (ext (iv x)) <= k.
  Proof.
    intros Fx B K H. pose proof (E_ap x Fx B) as EA. pose proof (ap_int _ _ _ EA) as EI. pose proof (exp_range _ B) as Y. pose proof (T2 x B) as TB. pose proof (de_ap x Fx B) as DA. pose proof (ap_int _ _ _ DA) as DI. pose proof (nu_ap x Fx B) as NA.
    set (y := exp (ext x)) in *. set (T := P + y) in *. assert (TT : / 100 <= T <= 3 * 10 ^ 6) by (unfold T; lra).
    assert (kT : / 10 ^ 17 <= k * T <= 10 ^ 4). { split; [apply Rle_trans with (/ 10 ^ 15 * / 100); [lra|apply Rmult_le_compat; lra]|apply Rle_trans with (/ 10 ^ 3 * (3 * 10 ^ 6)); [apply Rmult_le_compat; lra|lra]]. }
    destruct (ext_minus n1 (l_exp L x) (ap_fin _ _ _ n1_ap) (ap_fin _ _ _ EA)) as [N2 E2].
    pose proof (ap_rnd _ _ _ 0 (k * T) N2 E2 ltac:(rewrite Rminus_diag_eq by reflexivity; rewrite Rabs_R0; lra) ltac:(lra) ltac:(okb)) as [F2 A2].
    assert (B2 : Rabs (ext (n2 x)) <= 101 / 100 * (k * T)).
    { replace (ext (n2 x)) with ((ext (n2 x) - (ext n1 - ext (l_exp L x))) + (ext n1 - ext (l_exp L x))) by ring. eapply Rle_trans; [apply Rabs_triang|]. unfold n2. ulra. }
    assert (BE : Rabs (ext (l_exp L x)) <= 101 / 100 * T) by (rewrite Rabs_pos_eq by lra; unfold T; lra).
    assert (kTT : / 10 ^ 19 <= k * T * T <= 10 ^ 11). { split; [apply Rle_trans with (/ 10 ^ 17 * / 100); [lra|apply Rmult_le_compat; lra]|apply Rle_trans with (10 ^ 4 * (3 * 10 ^ 6)); [apply Rmult_le_compat; lra|lra]]. }
    destruct (ext_mult (l_exp L x) (n2 x) (ap_fin _ _ _ EA) F2) as [N3 E3].
    assert (B3 : Rabs (ext (l_exp L x) * ext (n2 x)) <= 1021 / 1000 * (k * T * T)). { rewrite Rabs_mult. apply Rle_trans with (101 / 100 * T * (101 / 100 * (k * T))); [apply Rmult_le_compat; try apply Rabs_pos; assumption|]. lra. }
    pose proof (ap_rnd _ _ _ 0 (1021 / 1000 * (k * T * T)) N3 E3 ltac:(rewrite Rminus_diag_eq by reflexivity; rewrite Rabs_R0; lra) ltac:(lra) ltac:(okb)) as [F3 A3].
    assert (B4 : Rabs (ext (nu x)) <= 103 / 100 * (k * T * T)).
    { replace (ext (nu x)) with ((ext (nu x) - (ext (l_exp L x) * ext (n2 x))) + (ext (l_exp L x) * ext (n2 x))) by ring. eapply Rle_trans; [apply Rabs_triang|]. unfold nu. ulra. }
    assert (DL : 199 / 100 * (T * T) <= ext (de x)) by lra.
    destruct (ext_div (nu x) (de x) (ap_fin _ _ _ NA) (ap_fin _ _ _ DA) ltac:(lra)) as [N5 E5].
    assert (B5 : Rabs (ext (nu x) / ext (de x)) <= 52 / 100 * k).
    { unfold Rdiv at 1. rewrite Rabs_mult, Rabs_inv, (Rabs_pos_eq (ext (de x))) by lra. apply Rmult_le_reg_r with (ext (de x)); [lra|]. rewrite Rmult_assoc, Rinv_l, Rmult_1_r by lra.
      apply Rle_trans with (1 := B4). apply Rle_trans with (52 / 100 * k * (199 / 100 * (T * T))); [lra|]. apply Rmult_le_compat_l; lra. }
    pose proof (ap_rnd _ _ _ 0 (52 / 100 * k) N5 E5 ltac:(rewrite Rminus_diag_eq by reflexivity; rewrite Rabs_R0; lra) ltac:(lra) ltac:(okb)) as [F5 A5].
    unfold iv. replace (ext (Bdiv mode_NE (nu x) (de x))) with ((ext (Bdiv mode_NE (nu x) (de x)) - ext (nu x) / ext (de x)) + ext (nu x) / ext (de x)) by ring. eapply Rle_trans; [apply Rabs_triang|]. ulra.
  Qed.

  Notation m1 := (/ (2 * ext t ^ 2)).
  Definition et : R := 26 / 10 ^ 9.
  Lemma HF_ok : forall x, fin x -> -22 <= ext x <= 13 ->
    fin (F x) /\ Rabs (ext (F x) - f (ext x)) <= et /\ Rabs (ext (F x)) <= 4000 /\ (ext (F x) = 0 \/ gmin <= Rabs (ext (F x))).
  Proof. intros x Fx B. destruct (F_ap x Fx B) as [F1 A1]. split; [exact F1|]. split; [exact A1|]. split; [apply (F_M x Fx B)|apply (F_gr x Fx B)]. Qed.
  Lemma wid_small : wid m1 et 4000 <= / 100.
  Proof.
    unfold wid, et, rho. pose proof t2_range. replace ((4 * / 10 ^ 13 * 4000 * 10 ^ 6 + 26 / 10 ^ 9) / m1) with ((4 * / 10 ^ 13 * 4000 * 10 ^ 6 + 26 / 10 ^ 9) * (2 * ext t ^ 2)) by (field; lra). lra.
  Qed.
  Lemma slack e : 0 <= e -> e / m1 <= 288 / 100 * e.
  Proof. intros E. pose proof t2_range. replace (e / m1) with (e * (2 * ext t ^ 2)) by (field; lra). nra. Qed.
  Section Root.
    Variable r : R. Hypothesis Hr : f r = 0. Hypothesis Br : -21 <= r <= 12.
    Lemma wid_ok : -22 <= r - wid m1 et 4000 /\ r + wid m1 et 4000 <= 13. Proof. pose proof wid_small. lra. Qed.
    Lemma m1_pos : 0 < m1. Proof. pose proof m1_range. lra. Qed.
    Lemma et_pos : 0 <= et. Proof. unfold et. lra. Qed.
    Lemma loop_res fuel b x : fin b -> -22 <= ext b <= 13 -> ext (F sl) * ext (F b) <= 0 ->
      g2_illinois (A := B64A L) fuel sl (F sl) b (F b) d2 p2 v s t tol = Some x ->
      fin x /\ -22 <= ext x <= 13 /\ Rabs (ext x - r) <= ext tol + 8 / 10 ^ 8.
    Proof.
      intros Fb Bb Sg E. destruct sl_B as [Ba Fa].
      assert (I : inv L d2 p2 v s t (-22) 13 sl (F sl) b (F b)).
      { unfold inv. split; [exact Fa|]. split; [exact Fb|]. split; [exact Ba|]. split; [exact Bb|]. split; [apply (HF_ok sl Fa Ba)|]. split; [reflexivity|]. split; [lra|]. split; [apply Rle_0_sqr|]. split; [exact Sg|reflexivity]. }
      destruct (ill_result L d2 p2 v s t tol f (-22) 13 r m1 et 4000 HF_ok (fun x y _ H _ => f_slope x y H) Hr ltac:(lra) ltac:(lra) m1_pos et_pos ltac:(lra) Htol Htol' wid_ok fuel sl (F sl) b (F b) x I E) as (X1 & X2 & X3).
      split; [exact X1|]. split; [exact X2|]. pose proof (slack et et_pos). unfold et, rho in *. lra.
    Qed.
    (** the difference is positive *)
    Section Pos.
      Hypothesis SP : 0 < S.
      Notation N := (ext n1).
      Lemma N_range : 9 / 10 ^ 10 <= N <= 10 ^ 5.
      Proof. pose proof (ap_int _ _ _ n1_ap). assert (Q : P / 10 ^ 7 <= S) by (rewrite <- (Rabs_pos_eq S) by lra; exact Hsep). lra. Qed.
      Lemma lnN : -21 <= ln N <= 11.6.
      Proof.
        pose proof N_range as B. pose proof ln10_close as LN. split.
        - replace N with (N * 10 ^ 9 * / 10 ^ 9) by (field). rewrite ln_mult, ln_Rinv, (ln_pow 10 ltac:(lra) 9) by lra. pose proof (ln_lo (N * 10 ^ 9) ltac:(lra)) as W.
          assert (/ (N * 10 ^ 9) <= / (9 / 10)) by (apply Rinv_le_contravar; lra). simpl INR. lra.
        - apply Rle_trans with (ln (10 ^ 5)); [apply ln_le'; lra|]. rewrite (ln_pow 10 ltac:(lra) 5). simpl INR. lra.
      Qed.
      Notation b := (l_ln L n1).
      Lemma b_ap : ap b (ln N) (3 / 10 ^ 14).
      Proof.
        pose proof N_range as B. pose proof lnN as LB. pose proof (lnw_ap n1 N 0) as A. rewrite Rmult_0_l in A. specialize (A (ap_self _ (ap_fin _ _ _ n1_ap)) ltac:(lra) ltac:(lra)).
        apply (ap_weak _ _ _ (3 / 10 ^ 14)) in A; [exact A|]. assert (Rabs (ln N) <= 21) by (apply Rabs_le; lra). lra.
      Qed.
      Lemma b_B : -22 <= ext b <= 13 /\ fin b. Proof. pose proof lnN. pose proof (ap_int _ _ _ b_ap). split; [lra|apply b_ap]. Qed.
      (** how far the exponential of a point near b is from the difference *)
      Lemma exp_at x d : fin x -> -22 <= ext x <= 13 -> / 10 ^ 14 <= d <= / 10 ^ 4 -> Rabs (ext x - ln N) <= d -> Rabs (N - ext (l_exp L x)) <= 22 / 10 * d * (P + exp (ext x)).
      Proof.
        intros Fx Bx D H. pose proof N_range as B. pose proof (E_ap x Fx Bx) as [_ EA]. pose proof (exp_range _ Bx) as Y. set (y := exp (ext x)) in *.
        assert (NE : N = y * exp (ln N - ext x)) by (unfold y; rewrite <- exp_plus; replace (ext x + (ln N - ext x)) with (ln N) by ring; rewrite exp_ln by lra; reflexivity).
        rewrite Rabs_minus_sym in H. pose proof (exp_near (ln N - ext x) ltac:(lra)) as EN.
        assert (Q : Rabs (N - y) <= 2 * d * y). { rewrite NE at 1. replace (y * exp (ln N - ext x) - y) with (y * (exp (ln N - ext x) - 1)) by ring. rewrite Rabs_mult, (Rabs_pos_eq y) by lra. rewrite (Rmult_comm (2 * d)). apply Rmult_le_compat_l; lra. }
        replace (N - ext (l_exp L x)) with ((N - y) - (ext (l_exp L x) - y)) by ring. eapply Rle_trans; [apply Rabs_triang|]. rewrite Rabs_Ropp.
        assert (/ 10 ^ 15 * y <= / 10 * d * y) by (apply Rmult_le_compat_r; lra). assert (0 <= d * P) by (apply Rmult_le_pos; lra). assert (0 <= d * y) by (apply Rmult_le_pos; lra). lra.
      Qed.
      Lemma Fb_sign : / 10 ^ 12 <= Rabs (ext b - ext sl) -> (ext sl <= ext b -> ext (F b) <= 0) /\ (ext b <= ext sl -> 0 <= ext (F b)).
      Proof.
        intros G. destruct b_B as [Bb Fb]. destruct sl_B as [Ba Fa]. pose proof b_ap as [_ AB].
        pose proof (exp_at b (3 / 10 ^ 14) Fb Bb ltac:(lra) AB) as EX. apply (iv_small b _ Fb Bb) in EX; [|lra]. apply Rabs_le_inv in EX.
        rewrite F_ij. destruct (ext_minus (iv b) (jv b) (ap_fin _ _ _ (iv_ap b Fb Bb)) (ap_fin _ _ _ (jv_ap b Fb Bb))) as [_ E]. rewrite E.
        pose proof t2_range as TR. pose proof (ap_int _ _ _ tt_ap) as TI. assert (TB : 0 < ext (Bmult mode_NE t t) <= 145 / 100) by ulra.
        destruct (ext_div (xs b) (Bmult mode_NE t t) (ap_fin _ _ _ (xs_ap b Fb Bb)) (ap_fin _ _ _ tt_ap) ltac:(lra)) as [_ EJ]. fold (jv b) in EJ.
        destruct (ext_minus b sl Fb Fa) as [_ EX2]. fold (xs b) in EX2. set (q := ext (Bmult mode_NE t t)) in *.
        assert (p41 : bpow radix2 (-40) <= / 10 ^ 12). { change (-40)%Z with (- Z.of_nat 40)%Z. rewrite bpow_nat. lra. }
        assert (p42 : 1 / 10 ^ 13 <= bpow radix2 (-42)). { change (-42)%Z with (- Z.of_nat 42)%Z. rewrite bpow_nat. lra. }
        assert (pp : bpow radix2 (-42) * 2 <= bpow radix2 (-40)). { change (-40)%Z with (2 + -42)%Z. rewrite bpow_plus. change (bpow radix2 2) with 4. pose proof (bpow_gt_0 radix2 (-42)). lra. }
        assert (bp : 0 < bpow radix2 (-42)) by apply bpow_gt_0.
        split; intros O.
        - rewrite Rabs_pos_eq in G by lra. assert (X1 : bpow radix2 (-40) <= ext (xs b)) by (rewrite EX2, <- (rnd_pow2 (-40)) by lia; apply rnd_le; lra).
          assert (J1 : bpow radix2 (-42) <= ext (jv b)). { rewrite EJ, <- (rnd_pow2 (-42)) by lia. apply rnd_le. apply Rmult_le_reg_r with q; [lra|]. unfold Rdiv. rewrite Rmult_assoc, Rinv_l, Rmult_1_r by lra. apply Rle_trans with (bpow radix2 (-42) * 2); [apply Rmult_le_compat_l; lra|lra]. }
          apply rnd_0_le. lra.
        - rewrite Rabs_left1 in G by lra. assert (X1 : ext (xs b) <= - bpow radix2 (-40)) by (rewrite EX2, <- (rnd_pow2 (-40)), <- rnd_opp by lia; apply rnd_le; lra).
          assert (J1 : ext (jv b) <= - bpow radix2 (-42)). { rewrite EJ, <- (rnd_pow2 (-42)), <- rnd_opp by lia. apply rnd_le. apply Rmult_le_reg_r with q; [lra|]. unfold Rdiv. rewrite Rmult_assoc, Rinv_l, Rmult_1_r by lra. assert (bpow radix2 (-42) * q <= bpow radix2 (-42) * 2) by (apply Rmult_le_compat_l; lra). lra. }
          apply rnd_nonneg. lra.
      Qed.
      Lemma Fa_sign : / 10 ^ 12 <= Rabs (ext b - ext sl) -> (ext sl <= ext b -> 0 <= ext (F sl)) /\ (ext b <= ext sl -> ext (F sl) <= 0).
      Proof.
        intros G. destruct b_B as [Bb Fb]. destruct sl_B as [Ba Fa]. pose proof N_range as NR. pose proof (ap_int _ _ _ b_ap) as BI. pose proof (ap_int _ _ _ (E_ap sl Fa Ba)) as EI. pose proof (exp_pos (ext sl)) as EP.
        destruct F_sl_sign as [S1 S2]. assert (NE : N = exp (ext sl) * exp (ln N - ext sl)) by (rewrite <- exp_plus; replace (ext sl + (ln N - ext sl)) with (ln N) by ring; rewrite exp_ln by lra; reflexivity).
        set (y := exp (ext sl)) in *. split; intros O.
        - apply S1. rewrite Rabs_pos_eq in G by lra. pose proof (exp_ineq1_le (ln N - ext sl)) as XI. rewrite NE. apply Rle_trans with (y * (1 + 9 / 10 ^ 13)); [lra|]. apply Rmult_le_compat_l; lra.
        - apply S2. rewrite Rabs_left1 in G by lra. assert (XI : exp (ln N - ext sl) <= 1 - 8 / 10 ^ 13).
          { apply Rle_trans with (exp (- (9 / 10 ^ 13))); [apply exp_le; lra|]. rewrite exp_Ropp. pose proof (exp_ineq1_le (9 / 10 ^ 13)). apply Rle_trans with (/ (1 + 9 / 10 ^ 13)); [apply Rinv_le_contravar; lra|lra]. }
          rewrite NE. apply Rle_trans with (y * (1 - 8 / 10 ^ 13)); [apply Rmult_le_compat_l; lra|lra].
      Qed.
      Lemma pos_res fuel x : g2_illinois (A := B64A L) fuel sl (F sl) b (F b) d2 p2 v s t tol = Some x ->
        fin x /\ -22 <= ext x <= 13 /\ Rabs (ext x - r) <= ext tol + 8 / 10 ^ 8.
      Proof.
        intros E. destruct b_B as [Bb Fb]. destruct sl_B as [Ba Fa]. destruct (Rle_dec (/ 10 ^ 12) (Rabs (ext b - ext sl))) as [G|G].
        - apply (loop_res fuel b x Fb Bb); [|exact E]. destruct (Fb_sign G) as [B1 B2]. destruct (Fa_sign G) as [A1 A2].
          destruct (Rle_dec (ext sl) (ext b)) as [O|O]; [apply mpn; auto|apply mnp; [apply A2|apply B2]; lra].
        - apply Rnot_le_lt in G. destruct fuel as [|fuel]; [discriminate E|]. cbn [g2_illinois] in E.
          change (fltb tol (fabs (Arith := B64A L) (fsub b sl))) with (Bltb tol (Babs (Bminus mode_NE b sl))) in E.
          destruct (ext_minus b sl Fb Fa) as [ND EM]. destruct (ext_Babs _ ND) as [NA EA]. rewrite Bltb_ext in E by (exact NA || (destruct tol; try discriminate Htol; reflexivity)). rewrite EA, EM in E.
          assert (RB : Rabs (rnd (ext b - ext sl)) <= 2 / 10 ^ 12).
          { pose proof (rnd_B (ext b - ext sl) (/ 10 ^ 12) ltac:(lra) ltac:(okb)) as RB. replace (rnd (ext b - ext sl)) with ((rnd (ext b - ext sl) - (ext b - ext sl)) + (ext b - ext sl)) by ring. eapply Rle_trans; [apply Rabs_triang|]. ulra. }
          rewrite Rlt_bool_false in E by lra. injection E as E. subst x. split; [exact Fa|]. split; [exact Ba|].
          assert (XL : Rabs (ext sl - ln N) <= 11 / 10 ^ 13). { replace (ext sl - ln N) with (- (ext b - ext sl) + (ext b - ln N)) by ring. eapply Rle_trans; [apply Rabs_triang|]. rewrite Rabs_Ropp. pose proof b_ap as [_ AB]. lra. }
          pose proof (exp_at sl (11 / 10 ^ 13) Fa Ba ltac:(lra) XL) as EX. apply (iv_small sl _ Fa Ba) in EX; [|lra]. rewrite <- F_at_sl in EX.
          destruct (HF_ok sl Fa Ba) as (_ & AF & _). assert (FA : Rabs (f (ext sl)) <= 27 / 10 ^ 9).
          { replace (f (ext sl)) with (ext (F sl) - (ext (F sl) - f (ext sl))) by ring. eapply Rle_trans; [apply Rabs_triang|]. rewrite Rabs_Ropp. unfold et in AF. lra. }
          pose proof (near_root f (-22) 13 r m1 et 4000 (fun x y _ H _ => f_slope x y H) Hr m1_pos et_pos ltac:(lra) wid_ok _ _ Ba FA) as NR. pose proof (slack (27 / 10 ^ 9) ltac:(lra)). lra.
      Qed.
    End Pos.
    (** the difference is negative *)
    Section Neg.
      Hypothesis SN : S < 0.
      Notation b := (Bfma mode_NE (b64_of_Z 1) (Bopp t) sl).
      Lemma bn_ap : ap b (lns - ext t) (3 / 10 ^ 14).
      Proof.
        pose proof lns_range as LR. pose proof (ap_fma _ _ _ _ _ _ _ _ _ 1 2 20 (ap_Z 1 ltac:(lia)) (ap_opp _ _ _ (ap_self t Ht)) sl_ap ltac:(bd2) ltac:(bd2) ltac:(bd2) ltac:(okb)) as A.
        replace (IZR 1 * - ext t + lns) with (lns - ext t) in A by ring. apply (ap_weak _ _ _ (3 / 10 ^ 14)) in A; [exact A|ulra].
      Qed.
      Lemma bn_B : -22 <= ext b <= 13 /\ fin b. Proof. pose proof lns_range. pose proof (ap_int _ _ _ bn_ap). split; [lra|apply bn_ap]. Qed.
      Lemma bn_F : 0 < ext (F b).
      Proof.
        destruct bn_B as [Bb Fb]. destruct (HF_ok b Fb Bb) as (_ & A & _). pose proof t2_range as TR. pose proof (ap_int _ _ _ bn_ap) as BI.
        pose proof (hf_left S P lns (ext t ^ 2) (ext b) ltac:(lra) ltac:(lra) ltac:(lra)) as HL'.
        assert (Q : 8 / 10 <= (lns - ext b) / ext t ^ 2). { apply Rmult_le_reg_r with (ext t ^ 2); [lra|]. unfold Rdiv. rewrite (Rmult_assoc (lns - ext b)), Rinv_l, Rmult_1_r by lra. assert (ext t ^ 2 <= 12 / 10 * ext t) by nra. lra. }
        apply Rabs_le_inv in A. unfold et in A. lra.
      Qed.
      Lemma neg_bracket fuel : g2_bracket (A := B64A L) (Datatypes.S fuel) (b64_of_Z 1) sl d2 p2 v s t = Some b.
      Proof.
        cbn [g2_bracket]. change (ffma (Arith := B64A L) (b64_of_Z 1) (fneg t) sl) with b.
        change (fltb (Arith := B64A L) (F b) (fofZ 0)) with (Bltb (F b) (b64_of_Z 0)). destruct bn_B as [Bb Fb]. destruct (HF_ok b Fb Bb) as (FF & _).
        rewrite Bltb_ext by (try reflexivity; apply fin_nn; exact FF). pose proof bn_F. change (ext (b64_of_Z 0)) with 0. rewrite Rlt_bool_false by lra. reflexivity.
      Qed.
      Lemma neg_res fuel x : g2_illinois (A := B64A L) fuel sl (F sl) b (F b) d2 p2 v s t tol = Some x ->
        fin x /\ -22 <= ext x <= 13 /\ Rabs (ext x - r) <= ext tol + 8 / 10 ^ 8.
      Proof.
        intros E. destruct bn_B as [Bb Fb]. apply (loop_res fuel b x Fb Bb); [|exact E]. apply mnp; [|left; exact bn_F]. apply F_sl_sign.
        destruct sl_B as [Ba Fa]. pose proof (ap_int _ _ _ n1_ap). pose proof (ap_int _ _ _ (E_ap sl Fa Ba)). pose proof (exp_pos (ext sl)). rewrite Rabs_left in Hsep by exact SN. lra.
      Qed.
    End Neg.
  End Root.

  Lemma root_pos : 0 < S -> exists r, f r = 0 /\ -21 <= r <= 12.
  Proof.
    intros SP. pose proof t2_range as TR. pose proof lns_range as LR. pose proof ln10_close as LN. destruct (hf_root S P lns (ext t ^ 2) lns (ln S) ltac:(lra) ltac:(lra) (hf_bracket_S S P lns (ext t ^ 2) ltac:(lra) SP ltac:(lra))) as (r & R0 & RB).
    exists r. split; [exact R0|]. rewrite Rabs_pos_eq in Hsep by lra.
    assert (-21 <= ln S <= 12).
    { split.
      - apply Rle_trans with (ln (/ 10 ^ 9)); [rewrite ln_Rinv, (ln_pow 10 ltac:(lra) 9) by lra; simpl INR; lra|apply ln_le'; lra].
      - apply Rle_trans with (ln (10 ^ 5)); [apply ln_le'; lra|]. rewrite (ln_pow 10 ltac:(lra) 5). simpl INR. lra. }
    lra.
  Qed.
  Lemma root_neg : S < 0 -> exists r, f r = 0 /\ -21 <= r <= 12.
  Proof.
    intros SN. pose proof t2_range as TR. pose proof lns_range as LR.
    assert (A : f lns < 0). { apply hf_at_a; [lra|lra|]. pose proof (exp_pos lns). lra. }
    assert (B : 0 < f (lns - ext t)). { pose proof (hf_left S P lns (ext t ^ 2) (lns - ext t) ltac:(lra) ltac:(lra) ltac:(lra)) as HL'. replace ((lns - (lns - ext t)) / ext t ^ 2) with (/ ext t) in HL' by (field; lra). assert (/ (12 / 10) <= / ext t) by (apply Rinv_le_contravar; lra). lra. }
    destruct (hf_root S P lns (ext t ^ 2) lns (lns - ext t) ltac:(lra) ltac:(lra)) as (r & R0 & RB); [apply mnp; lra|]. exists r. split; [exact R0|lra].
  Qed.
  Lemma test_ok : Bltb (Bplus mode_NE p2 v) d2 = Rlt_bool 0 S.
  Proof.
    pose proof (ap_add _ _ _ _ _ _ (2 * P) Hp Hv ltac:(bd2) ltac:(okb)) as A1. apply (ap_weak _ _ _ (201 / 10 ^ 12 * P)) in A1; [|ulra].
    rewrite Bltb_ext by (apply fin_nn; [apply A1|apply Hd] || (apply fin_nn; apply A1) || (apply fin_nn; apply Hd)). pose proof (ap_int _ _ _ A1). pose proof (ap_int _ _ _ Hd).
    destruct (Rlt_bool_spec 0 S) as [C|C].
    - rewrite Rabs_pos_eq in Hsep by lra. apply Rlt_bool_true. lra.
    - rewrite Rabs_left1 in Hsep by lra. apply Rlt_bool_false. lra.
  Qed.
  (** what [new_volatility] returns *)
  Lemma vol_ok fuel z : g2_new_volatility (A := B64A L) fuel s d2 p2 v t tol = Some z ->
    exists r, f r = 0 /\ fin z /\ / 10 ^ 6 <= ext z <= 3000 /\ Rabs (ln (ext z ^ 2) - r) <= ext tol + / 10 ^ 7.
  Proof.
    intros E. unfold g2_new_volatility in E.
    change (fln (Arith := B64A L) (fpowi s 2)) with sl in E.
    change (fltb (Arith := B64A L) (fadd p2 v) d2) with (Bltb (Bplus mode_NE p2 v) d2) in E. rewrite test_ok in E.
    change (fln (Arith := B64A L) (fsub (fsub d2 p2) v)) with (l_ln L n1) in E. change (fofZ (Arith := B64A L) 1) with (b64_of_Z 1) in E.
    assert (K : exists r x, f r = 0 /\ fin x /\ -22 <= ext x <= 13 /\ Rabs (ext x - r) <= ext tol + 8 / 10 ^ 8 /\ z = l_exp L (Bdiv mode_NE x (b64_of_Z 2))).
    { destruct (Rlt_bool_spec 0 S) as [C|C].
      - destruct (root_pos C) as (r & R0 & RB). destruct (g2_illinois _ _ _ _ _ _ _ _ _ _ _) as [x|] eqn:I; [|discriminate E].
        destruct (pos_res r R0 RB C fuel x I) as (X1 & X2 & X3). exists r, x. split; [exact R0|]. split; [exact X1|]. split; [exact X2|]. split; [exact X3|]. injection E as E. symmetry. exact E.
      - assert (C' : S < 0). { destruct C as [C|C]; [lra|]. rewrite C, Rabs_R0 in Hsep. lra. }
        destruct (root_neg C') as (r & R0 & RB). destruct fuel as [|fuel]; [discriminate E|]. erewrite neg_bracket in E by eassumption.
        destruct (g2_illinois _ _ _ _ _ _ _ _ _ _ _) as [x|] eqn:I; [|discriminate E].
        destruct (neg_res r R0 RB C' _ x I) as (X1 & X2 & X3). exists r, x. split; [exact R0|]. split; [exact X1|]. split; [exact X2|]. split; [exact X3|]. injection E as E. symmetry. exact E. }
    destruct K as (r & x & R0 & Fx & Bx & Dx & ->). exists r. split; [exact R0|]. clear E.
    assert (Rx : Rabs (ext x / 2) <= 11) by (apply Rabs_le; lra).
    pose proof (ap_div _ _ _ _ _ _ 1 11 12 (ap_self x Fx) (ap_Z 2 ltac:(lia)) ltac:(lra) ltac:(rewrite Rabs_pos_eq; lra) Rx ltac:(lra) ltac:(okb)) as A. apply (ap_weak _ _ _ (2 / 10 ^ 15)) in A; [|ulra].
    set (h := Bdiv mode_NE x (b64_of_Z 2)) in *. pose proof (ap_int _ _ _ A) as HI. assert (Bh : -12 <= ext h <= 7) by lra.
    pose proof (E_ap h (ap_fin _ _ _ A) ltac:(lra)) as EA. pose proof (ap_int _ _ _ EA) as EI.
    assert (ER : 15 / 10 ^ 7 <= exp (ext h) <= 2500).
    { assert (E3 : exp 1 <= 3) by apply exp_le_3. pose proof (exp_pos 1) as E0. assert (EN : forall n, exp (INR n) = exp 1 ^ n) by (induction n as [|n IH]; [simpl; apply exp_0|]; rewrite S_INR, exp_plus, IH; simpl; ring). split.
      - apply Rle_trans with (exp (- INR 12)); [|apply exp_le; rewrite INR_IZR_INZ; simpl; lra]. rewrite exp_Ropp, EN. apply Rle_trans with (/ 3 ^ 12); [lra|]. apply Rinv_le_contravar; [apply pow_lt, E0|apply pow_incr; lra].
      - apply Rle_trans with (exp (INR 7)); [apply exp_le; rewrite INR_IZR_INZ; simpl; lra|]. rewrite EN. apply Rle_trans with (3 ^ 7); [apply pow_incr; lra|lra]. }
    split; [apply EA|]. split; [lra|].
    pose proof (ln_near (exp (ext h)) (ext (l_exp L h)) (/ 10 ^ 15) ltac:(lra) ltac:(lra) (proj2 EA)) as LNZ. rewrite ln_exp in LNZ.
    replace (ln (ext (l_exp L h) ^ 2)) with (2 * ln (ext (l_exp L h))) by (rewrite ln_pow by lra; simpl; lra).
    apply Rabs_le_inv in LNZ. apply Rabs_le_inv in Dx. apply Rabs_le. lra.
  Qed.
  (** With a tolerance above the first step the loop stops at once. *)
  Lemma vol_quick fuel : S < 0 -> 2 <= ext tol -> exists z, g2_new_volatility (A := B64A L) (Datatypes.S fuel) s d2 p2 v t tol = Some z.
  Proof.
    intros SN T2. destruct (root_neg SN) as (r & R0 & RB). unfold g2_new_volatility.
    change (fln (Arith := B64A L) (fpowi s 2)) with sl. change (fltb (Arith := B64A L) (fadd p2 v) d2) with (Bltb (Bplus mode_NE p2 v) d2). rewrite test_ok, Rlt_bool_false by lra.
    change (fofZ (Arith := B64A L) 1) with (b64_of_Z 1). erewrite neg_bracket by eassumption. cbn [g2_illinois].
    set (b := Bfma mode_NE (b64_of_Z 1) (Bopp t) sl). change (fltb (Arith := B64A L) tol (fabs (fsub b sl))) with (Bltb tol (Babs (Bminus mode_NE b sl))).
    assert (A : ap (Bminus mode_NE b sl) (lns - ext t - lns) (/ 10 ^ 12)).
    { assert (Ab : ap b (lns - ext t) (3 / 10 ^ 14)) by (unfold b; eapply bn_ap; eassumption). pose proof (ap_sub _ _ _ _ _ _ 2 Ab sl_ap ltac:(bd2) ltac:(okb)) as A. apply (ap_weak _ _ _ _ A). ulra. }
    destruct A as [FB AB]. apply Rabs_le_inv in AB. destruct (ext_Babs _ (fin_nn _ FB)) as [FA EA]. rewrite Bltb_ext by (assumption || (apply fin_nn; assumption)). rewrite Rlt_bool_false; [eexists; reflexivity|].
    rewrite EA. apply Rle_trans with (2 := T2). apply Rabs_le. lra.
  Qed.
End FErr.
