(** The bracketing loop of Glicko-2 with a tiny tau: rounding absorbs every step. *)
From Coq Require Import ZArith List Bool Reals Lra Lia Psatz.
From Flocq Require Import Core.Core IEEE754.BinarySingleNaN.
From Verif Require Import Arith B64 ModelLib ModelGlicko2 SpecB64 SpecAcc SpecAcc3 MathB64 ProofB64 ProofB64b MathB64b MathAcc ProofAcc MathGlicko2 MathIllF MathG2F MathIllT MathG2T.
Import ListNotations.
Local Open Scope R_scope.

Lemma rnd_nearest (g : B64) y : fin g -> Rabs y <= bpow radix2 1023 -> Rabs (rnd y - y) <= Rabs (ext g - y).
Proof.
  intros Fg Hy. rewrite rnd_rnd0_small by exact Hy. rewrite (ext_fin g Fg). unfold rnd0.
  apply (round_N_pt radix2 fexp64 (fun z => negb (Z.even z)) y). apply generic_format_B2R.
Qed.
(** [a] with [|a|] between 2 and 2^60, disturbed by less than 2^-53 *)
Lemma absorb (a c : B64) y : fin a -> fin c -> ext c = rnd y -> 2 <= Rabs (ext a) -> 2 <= Rabs (rnd y) -> Rabs y <= bpow radix2 1023 -> Rabs (ext a - y) <= bpow radix2 (-53) -> ext c = ext a.
Proof.
  intros Fa Fc Ec Ha Hc Hy D. pose proof (rnd_nearest a y Fa Hy) as N. rewrite <- Ec in N, Hc.
  destruct (mult_of a 1 Fa Ha) as [m Em]. destruct (mult_of c 1 Fc Hc) as [n En]. change (1 - 52)%Z with (-51)%Z in *.
  assert (T : Rabs (ext c - ext a) <= bpow radix2 (-52)).
  { replace (ext c - ext a) with ((ext c - y) - (ext a - y)) by ring. eapply Rle_trans; [apply Rabs_triang|]. rewrite Rabs_Ropp.
    replace (bpow radix2 (-52)) with (2 * bpow radix2 (-53)) by (change (-52)%Z with (1 + -53)%Z; rewrite bpow_plus; reflexivity). lra. }
  rewrite Em, En in *. rewrite <- Rmult_minus_distr_r, <- minus_IZR, Rabs_mult, <- abs_IZR, (Rabs_pos_eq (bpow _ _)) in T by apply bpow_ge_0.
  assert (Z0 : (Z.abs (n - m) < 1)%Z).
  { apply lt_IZR. apply Rmult_lt_reg_r with (bpow radix2 (-51)); [apply bpow_gt_0|]. apply Rle_lt_trans with (1 := T). rewrite Rmult_1_l. apply bpow_lt. lia. }
  replace n with m by lia. reflexivity.
Qed.
Lemma same_b64 (a c : B64) : fin a -> fin c -> ext a <> 0 -> ext c = ext a -> c = a.
Proof.
  intros Fa Fc Na E. rewrite (ext_fin a Fa), (ext_fin c Fc) in *. apply B2R_inj; [| |exact E].
  - destruct c as [b|b| |b m e he]; try discriminate Fc; [|reflexivity]. simpl in E. lra.
  - destruct a as [b|b| |b m e he]; try discriminate Fa; [|reflexivity]. simpl in Na. lra.
Qed.
Lemma top_stays : rnd (bpow radix2 54 + 1) <= bpow radix2 54.
Proof.
  set (y := bpow radix2 54 + 1).
  assert (A : generic_format radix2 fexp64 (bpow radix2 54)) by (apply generic_format_bpow; unfold fexp64, SpecFloat.fexp, SpecFloat.emin; lia).
  assert (Hy : Rabs y <= bpow radix2 1023). { apply Rle_trans with (bpow radix2 55); [unfold y; rewrite Rabs_pos_eq; simpl; lra|apply bpow_le; lia]. }
  rewrite rnd_rnd0_small by exact Hy. unfold rnd0. destruct (round_N_pt radix2 fexp64 (fun z => negb (Z.even z)) y) as [Gr Nr].
  pose proof (Nr _ A) as N1. replace (bpow radix2 54 - y) with (-1) in N1 by (unfold y; ring). replace (Rabs (-1)) with 1 in N1 by (rewrite Rabs_left; lra).
  set (z := round _ _ _ _) in *. apply Rabs_le_inv in N1.
  destruct (Rle_dec z (bpow radix2 54)) as [C|C]; [exact C|exfalso]. apply Rnot_le_lt in C.
  assert (U : bpow radix2 54 + ulp radix2 fexp64 (bpow radix2 54) <= z) by (rewrite <- succ_eq_pos by apply bpow_ge_0; apply succ_le_lt; [exact _|exact A|exact Gr|exact C]).
  rewrite ulp_bpow in U. change (bpow radix2 (fexp64 (54 + 1))) with (bpow radix2 2) in U. change (bpow radix2 2) with 4 in U. unfold y in N1. lra.
Qed.

Section Hang.
  Variables (L : Libm) (d2 p2 v s t : B64) (D2 ph V : R).
  Hypothesis HE : exp_accurate L. Hypothesis HL : lnw_accurate L.
  Notation P := (ph + V).
  Hypothesis Hd : ap d2 D2 (P / 2 / 10 ^ 8). Hypothesis Hp : ap p2 ph (P / 10 ^ 10). Hypothesis Hv : ap v V (P / 10 ^ 10).
  Hypothesis D0 : 0 <= D2 <= 100 * P. Hypothesis ph0 : 0 < ph. Hypothesis V0 : 0 < V. Hypothesis HP : / 100 <= P <= 1000.
  Hypothesis Hs : fin s. Hypothesis Hs' : / 100 <= ext s <= 3 / 10.
  Hypothesis Ht : fin t. Hypothesis Ht' : / 10 ^ 150 <= ext t <= / 10 ^ 34.
  Notation F x := (g2_f_value (A := B64A L) x d2 p2 v s t).
  Variable tol : B64.
  Notation S := (D2 - ph - V).
  Hypothesis Hsep : P / 10 ^ 7 <= - S.
  Notation a := (sl L s).
  Lemma t2_pos : fin (Bmult mode_NE t t) /\ 0 < ext (Bmult mode_NE t t).
  Proof.
    destruct (ext_mult t t Ht Ht) as [N E].
    assert (Q : bpow radix2 (-1000) <= ext t * ext t <= bpow radix2 0).
    { split.
      - apply Rle_trans with (/ 10 ^ 150 * / 10 ^ 150); [|apply Rmult_le_compat; try lra; left; apply Rinv_0_lt_compat, pow_lt; lra].
        change (-1000)%Z with (- Z.of_nat 1000)%Z. rewrite bpow_nat, <- Rinv_mult, <- pow_add. apply Rinv_le_contravar; [apply pow_lt; lra|]. rewrite !pow_IZR. apply IZR_le. vm_compute. discriminate.
      - change (bpow radix2 0) with 1. assert (/ 10 ^ 150 > 0) by (apply Rinv_0_lt_compat, pow_lt; lra). nra. }
    assert (R : bpow radix2 (-1000) <= ext (Bmult mode_NE t t) <= bpow radix2 0).
    { rewrite E. split; [rewrite <- (rnd_pow2 (-1000)) at 1 by lia|rewrite <- (rnd_pow2 0) by lia]; apply rnd_le; lra. }
    pose proof (bpow_gt_0 radix2 (-1000)). split; [|lra]. apply (fin_abs_le _ 0); [exact N|lia|]. rewrite Rabs_pos_eq; lra.
  Qed.
  Lemma a_facts : fin a /\ -94 / 10 <= ext a <= -22 / 10.
  Proof. pose proof (lns_range s Hs'). pose proof (ap_int _ _ _ (sl_ap L s HL Hs Hs')). split; [apply sl_ap; assumption|lra]. Qed.
  Lemma F_neg : fin (F a) /\ ext (F a) < 0.
  Proof.
    destruct a_facts as [Fa Ba]. pose proof (n1_ap d2 p2 v D2 ph V Hd Hp Hv D0 ph0 V0 HP) as NA. pose proof (ap_int _ _ _ NA) as NI.
    pose proof (ap_add _ _ _ _ _ _ (2 * P) Hp Hv ltac:(bd2) ltac:(okb)) as PA. apply (ap_weak _ _ _ (201 / 10 ^ 12 * P)) in PA; [|ulra]. pose proof (ap_int _ _ _ PA) as PI'.
    pose proof (ivr L d2 p2 v HE _ _ (ext a) eq_refl eq_refl (ap_fin _ _ _ NA) (ap_fin _ _ _ PA) ltac:(lra) ltac:(lra) ltac:(lra) (ext a) ltac:(lra) a Fa ltac:(lra)) as IA.
    assert (IR : exists N D, IZR 0 < Iq N D (ext a) <= 51 / 100 /\ ap (iv L d2 p2 v a) (- Iq N D (ext a)) (6 / 10 ^ 15 * Iq N D (ext a))).
    { match type of IA with ap _ (- Iq ?N ?D _) _ => exists N, D; split; [|exact IA]; pose proof (Iq_range N D (ext a) ltac:(lra) ltac:(lra) ltac:(lra) (ext a) ltac:(lra) (ext a) ltac:(lra)); lra end. }
    clear IA. destruct IR as (N0 & Q0 & IR & IA).
    set (ii := Iq _ _ (ext a)) in *. pose proof (ap_int _ _ _ IA) as II. assert (IN : ext (iv L d2 p2 v a) < 0) by lra. pose proof (ap_fin _ _ _ IA) as Fi.
    destruct t2_pos as [Ft2 Pt2]. assert (X0 : ext (xs L s a) = 0 /\ fin (xs L s a)).
    { unfold xs. destruct (ext_minus a a Fa Fa) as [N E]. rewrite Rminus_diag_eq, rnd_0 in E by reflexivity. split; [exact E|]. apply (fin_abs_le _ 0); [exact N|lia|]. rewrite E, Rabs_R0. apply bpow_ge_0. }
    destruct X0 as [X0 FX]. assert (J0 : ext (jv L s t a) = 0 /\ fin (jv L s t a)).
    { unfold jv. destruct (ext_div _ (Bmult mode_NE t t) FX Ft2 ltac:(lra)) as [N E]. rewrite X0 in E. unfold Rdiv in E. rewrite Rmult_0_l, rnd_0 in E. split; [exact E|]. apply (fin_abs_le _ 0); [exact N|lia|]. rewrite E, Rabs_R0. apply bpow_ge_0. }
    destruct J0 as [J0 FJ]. rewrite (F_ij L d2 p2 v s t a). destruct (ext_minus _ _ Fi FJ) as [N E]. rewrite J0, Rminus_0_r, rnd_ext in E by exact Fi. rewrite E. split; [|exact IN].
    apply (fin_abs_le _ 10); [exact N|lia|]. rewrite E. change (bpow radix2 10) with 1024. apply Rabs_le. lra.
  Qed.
  Lemma step_stays (k : B64) : fin k -> 0 <= ext k <= bpow radix2 54 -> Bfma mode_NE k (Bopp t) a = a.
  Proof.
    intros Fk Bk. destruct a_facts as [Fa Ba]. pose proof (ap_opp _ _ _ (ap_self t Ht)) as [Fo Eo]. apply Rabs_le_inv in Eo. assert (Eo' : ext (Bopp t) = - ext t) by lra. clear Eo. rename Eo' into Eo.
    destruct (ext_fma k (Bopp t) a Fk Fo Fa) as [N E]. rewrite Eo in E.
    assert (K : 0 <= ext k * ext t <= bpow radix2 (-53)).
    { assert (/ 10 ^ 150 > 0) by (apply Rinv_0_lt_compat, pow_lt; lra). split; [apply Rmult_le_pos; lra|]. apply Rle_trans with (bpow radix2 54 * / 10 ^ 34); [apply Rmult_le_compat; lra|].
      change (-53)%Z with (54 + - Z.of_nat 107)%Z. rewrite bpow_plus, bpow_nat. apply Rmult_le_compat_l; [apply bpow_ge_0|]. apply Rinv_le_contravar; [apply pow_lt; lra|lra]. }
    assert (K1 : bpow radix2 (-53) <= / 10) by (change (-53)%Z with (- Z.of_nat 53)%Z; rewrite bpow_nat; lra).
    set (y := ext k * - ext t + ext a) in *. assert (By : -95 / 10 <= y <= -22 / 10) by (unfold y; lra).
    assert (R2 : - bpow radix2 4 <= rnd y <= - bpow radix2 1).
    { split; [rewrite <- (rnd_pow2 4) by lia|rewrite <- (rnd_pow2 1) by lia]; rewrite <- rnd_opp; apply rnd_le; [change (bpow radix2 4) with 16|change (bpow radix2 1) with 2]; lra. }
    change (bpow radix2 4) with 16 in R2. change (bpow radix2 1) with 2 in R2.
    assert (Fc : fin (Bfma mode_NE k (Bopp t) a)). { apply (fin_abs_le _ 4); [exact N|lia|]. rewrite E. change (bpow radix2 4) with 16. apply Rabs_le. lra. }
    apply same_b64; [exact Fa|exact Fc|lra|]. apply (absorb a _ y Fa Fc E).
    - rewrite Rabs_left; lra.
    - rewrite Rabs_left; lra.
    - apply Rle_trans with (bpow radix2 4); [change (bpow radix2 4) with 16; apply Rabs_le; lra|apply bpow_le; lia].
    - unfold y. replace (ext a - (ext k * - ext t + ext a)) with (ext k * ext t) by ring. rewrite Rabs_pos_eq; lra.
  Qed.
  Lemma k_next (k : B64) : fin k -> 0 <= ext k <= bpow radix2 54 -> fin (Bplus mode_NE k (b64_of_Z 1)) /\ 0 <= ext (Bplus mode_NE k (b64_of_Z 1)) <= bpow radix2 54.
  Proof.
    intros Fk Bk. destruct (ext_ofZ 1 ltac:(lia)) as [F1 E1]. destruct (ext_plus k _ Fk F1) as [N E]. rewrite E1 in E.
    assert (Q : 0 <= ext (Bplus mode_NE k (b64_of_Z 1)) <= bpow radix2 54).
    { rewrite E. split; [rewrite <- rnd_0; apply rnd_le; lra|]. apply Rle_trans with (2 := top_stays). apply rnd_le. lra. }
    split; [|exact Q]. apply (fin_abs_le _ 54); [exact N|lia|]. rewrite Rabs_pos_eq; lra.
  Qed.
  Lemma bracket_hangs fuel : forall k, fin k -> 0 <= ext k <= bpow radix2 54 -> g2_bracket (A := B64A L) fuel k a d2 p2 v s t = None.
  Proof.
    induction fuel as [|fuel IH]; intros k Fk Bk; [reflexivity|]. cbn [g2_bracket].
    change (ffma (Arith := B64A L) k (fneg t) a) with (Bfma mode_NE k (Bopp t) a). rewrite (step_stays k Fk Bk).
    change (fltb (Arith := B64A L) (F a) (fofZ 0)) with (Bltb (F a) (b64_of_Z 0)). destruct F_neg as [FF NF].
    rewrite Bltb_ext by (try reflexivity; apply fin_nn; exact FF). change (ext (b64_of_Z 0)) with 0. rewrite Rlt_bool_true by exact NF.
    change (fadd (Arith := B64A L) k (fofZ 1)) with (Bplus mode_NE k (b64_of_Z 1)). destruct (k_next k Fk Bk) as [F1 B1]. apply (IH _ F1 B1).
  Qed.
  Lemma vol_hangs fuel : g2_new_volatility (A := B64A L) fuel s d2 p2 v t tol = None.
  Proof.
    assert (Hsep' : P / 10 ^ 7 <= Rabs S) by (rewrite Rabs_left by lra; exact Hsep). unfold g2_new_volatility.
    change (fln (Arith := B64A L) (fpowi s 2)) with a. change (fltb (Arith := B64A L) (fadd p2 v) d2) with (Bltb (Bplus mode_NE p2 v) d2). rewrite (test_ok d2 p2 v D2 ph V Hd Hp Hv D0 ph0 V0 HP Hsep'), Rlt_bool_false by lra.
    change (fofZ (Arith := B64A L) 1) with (b64_of_Z 1). destruct (ext_ofZ 1 ltac:(lia)) as [F1 E1]. rewrite bracket_hangs; [reflexivity|exact F1|]. rewrite E1. split; [lra|]. change 1 with (bpow radix2 0) at 1. apply bpow_le. lia.
  Qed.
End Hang.
