(** Accuracy in double precision: TrueSkill's inverse of erfc and draw margin. *)
From Coq Require Import ZArith List Bool Reals Lra Lia Psatz.
From Flocq Require Import Core.Core IEEE754.BinarySingleNaN.
From Coquelicot Require Import Coquelicot.
From Verif Require Import Arith XR B64 ModelLib ModelTS Spec SpecTS SpecNormal SpecTSN SpecB64 SpecAcc Tac MathB64 ProofB64 ProofB64b ProofB64c MathB64b ProofB64f MathAcc MathAcc2 MathAccR MathTS MathTSW MathTSInv MathTSStart MathTSAcc MathTSNorm MathTSNorm2 ProofBoost2 ProofTS ProofTSAcc ProofAcc ProofAcc2 ProofAcc3 ProofAccTS.
Import ListNotations.
Local Open Scope R_scope.
#[local] Opaque Bplus Bminus Bmult Bdiv Bfma Bsqrt Bopp Babs b64_max b64_min b64_of_Z b64_lit.

Lemma ksp_15 : 1.128379167095512 < ksp < 1.128379167095513.
Proof.
  unfold ksp. pose proof PI_15 as P. assert (S0 : 0 < sqrt PI) by (apply sqrt_lt_R0; lra). assert (SS : sqrt PI * sqrt PI = PI) by (apply sqrt_sqrt; lra).
  assert (B : 1.7724538509055156 < sqrt PI < 1.7724538509055165) by (split; apply Rnot_le_lt; intros H; nra). set (s := sqrt PI) in *. clearbody s.
  split; (apply Rmult_lt_reg_r with s; [lra|]); (replace (2 / s * s) with 2 by (field; lra)); lra.
Qed.
Lemma ksp_ap L : ap (ffrac2sqrtpi (Arith := B64A L)) ksp (/ 10 ^ 15).
Proof.
  change (ffrac2sqrtpi (Arith := B64A L)) with (b64 5081767996463981 (-52)). destruct (b64_val 5081767996463981 (-52) 52 ltac:(lia) ltac:(lia) ltac:(lia) ltac:(lia) ltac:(rewrite Rabs_pos_eq; lra)) as [F E].
  split; [exact F|]. rewrite E. pose proof ksp_15. apply Rabs_le. lra.
Qed.
Lemma isq2_15 : 0.707106781186547 < / sqrt 2 < 0.707106781186548.
Proof. pose proof sqrt2_15 as S. split; (apply Rmult_lt_reg_r with (sqrt 2); [lra|]); rewrite Rinv_l by lra; lra. Qed.
Lemma isq2_ap L : ap (ffrac1sqrt2 (Arith := B64A L)) (/ sqrt 2) (/ 10 ^ 15).
Proof.
  change (ffrac1sqrt2 (Arith := B64A L)) with (b64 6369051672525773 (-53)). destruct (b64_val 6369051672525773 (-53) 53 ltac:(lia) ltac:(lia) ltac:(lia) ltac:(lia) ltac:(rewrite Rabs_pos_eq; lra)) as [F E].
  split; [exact F|]. rewrite E. pose proof isq2_15. apply Rabs_le. lra.
Qed.
Lemma wg_low x : 0 <= x <= 1.91 -> 0.0217 <= wg x <= 1.
Proof.
  intros H. unfold wg. split; [|rewrite <- exp_0; apply exp_mono; nra]. apply Rle_trans with (exp (Ropp 3.65)); [|apply exp_mono; nra].
  rewrite exp_Ropp. assert (E : exp 3.65 <= 46).
  { assert (E1 : exp (1 / 16) <= 16 / 15). { pose proof (exp_ineq1_le (- (1 / 16))) as X. rewrite exp_Ropp in X. pose proof (exp_pos (1 / 16)) as P. apply Rmult_le_compat_l with (r := exp (1 / 16)) in X; [|lra]. rewrite Rinv_r in X by lra. lra. }
    apply Rle_trans with (exp (INR 59 * (1 / 16))); [apply exp_mono; rewrite INR_IZR_INZ; simpl; lra|]. rewrite exp_INR. apply Rle_trans with ((16 / 15) ^ 59); [apply pow_incr; pose proof (exp_pos (1 / 16)); lra|lra]. }
  apply Rle_trans with (/ 46); [lra|]. apply Rinv_le_contravar; [apply exp_pos|exact E].
Qed.
(** change of the approximation of erfc over a short distance *)
Lemma nr_lip x z d : 0 <= x <= 1.91 -> 0 <= z -> Rabs (z - x) <= d -> d <= / 10 ^ 9 -> Rabs (nr_pos z - nr_pos x) <= 1.001 * (ksp * wg x) * d.
Proof.
  intros Hx Hz HD Hd. pose proof (Rabs_pos (z - x)) as D0. pose proof ksp_15 as K. pose proof (wg_pos x) as W.
  set (df := fun z => - (rr (/ (1 + z / 2)) * exp (- z ^ 2))).
  assert (EW : forall z, df z = - (rr (/ (1 + z / 2)) * wg z)) by (intros w; unfold df, wg; replace (- w ^ 2) with (- (w * w)) by ring; reflexivity).
  assert (BD : forall c, 0 <= c -> Rabs (c - x) <= d -> Rabs (df c) <= 1.001 * (ksp * wg x)).
  { intros c Hc Dc. rewrite EW, Rabs_Ropp. pose proof (nr_t_range c Hc) as T. pose proof (rr_bound (/ (1 + c / 2)) ltac:(lra)) as [S1 S2]. set (r := rr _) in *.
    assert (N : d * (2 * 1.91 + d) <= / 10 ^ 8) by nra. destruct (wg_ratio x c d 1.91 Hx Hc Dc ltac:(lra) ltac:(lra)) as [_ R2]. set (n := d * (2 * 1.91 + d)) in *.
    assert (I : / (1 - n) <= 1.0001). { apply Rle_trans with (/ (1 - / 10 ^ 8)); [apply Rinv_le_contravar; lra|lra]. }
    assert (WC : wg c <= 1.0001 * wg x) by (apply Rle_trans with (1 := R2); apply Rmult_le_compat_r; lra). pose proof (wg_pos c) as WP.
    rewrite Rabs_pos_eq by (apply Rmult_le_pos; lra). apply Rle_trans with (ksp * 1.00001 * (1.0001 * wg x)); [apply Rmult_le_compat; lra|]. assert (0 < ksp * wg x) by (apply Rmult_lt_0_compat; lra). lra. }
  destruct (Rtotal_order x z) as [L|[L|L]].
  - destruct (MVT_cor2 nr_pos df x z L) as (c & Ec & Hc); [intros c Hc; apply is_derive_Reals, nr_pos_deriv; lra|]. rewrite Ec, Rabs_mult.
    apply Rabs_le_inv in HD. apply Rmult_le_compat; try apply Rabs_pos; [apply BD; [lra|apply Rabs_le; lra]|apply Rabs_le; lra].
  - subst z. rewrite Rminus_diag_eq by reflexivity. rewrite Rabs_R0. apply Rmult_le_pos; [|lra]. assert (0 < ksp * wg x) by (apply Rmult_lt_0_compat; lra). lra.
  - destruct (MVT_cor2 nr_pos df z x L) as (c & Ec & Hc); [intros c Hc; apply is_derive_Reals, nr_pos_deriv; lra|]. rewrite Rabs_minus_sym, Ec, Rabs_mult.
    apply Rabs_le_inv in HD. apply Rmult_le_compat; try apply Rabs_pos; [apply BD; [lra|apply Rabs_le; lra]|apply Rabs_le; lra].
Qed.
Definition stepB (L : Libm) (y x : B64) : B64 :=
  let err := Bminus mode_NE (erfcB L x) y in
  Bplus mode_NE x (Bdiv mode_NE err (Bfma mode_NE (ffrac2sqrtpi (Arith := B64A L)) (l_exp L (Bopp (Bmult mode_NE x x))) (Bmult mode_NE (Bopp x) err))).
Lemma fold_step L y x : inverse_erfc_step (A := B64A L) y x = stepB L y x. Proof. reflexivity. Qed.
Lemma step_ap L y x Y X d : exp_accurate L -> ap y Y (3 / 10 ^ 15) -> ap x X d -> d <= / 10 ^ 9 -> 0.002 <= X <= 1.91 -> 0 < Y <= 1 ->
  Rabs (nr_pos X - Y) <= 0.0031 * (ksp * wg X) -> ap (stepB L y x) (hstep Y X) (3 * d + 2 / 10 ^ 11).
Proof.
  intros HE Ay Ax Hd BX BY HQ. pose proof (ap_nonneg _ _ _ Ax) as D0. pose proof (ap_int _ _ _ Ax) as IX. pose proof ksp_15 as KS. destruct (wg_low X ltac:(lra)) as [WL WU].
  assert (KW : 0.0244 <= ksp * wg X <= 1.13) by nra. set (kw := ksp * wg X) in *. unfold stepB.
  destruct (erfc_rp L x HE (ap_fin _ _ _ Ax) ltac:(apply Rabs_le; lra)) as [RE _]. unfold nr_erfc in RE. destruct (Rlt_dec (ext x) 0); [lra|].
  pose proof (nr_lip X (ext x) d ltac:(lra) ltac:(lra) (proj2 Ax) Hd) as NL. fold kw in NL. pose proof (nr_pos_range (ext x) ltac:(lra)) as NR. pose proof (nr_pos_range X ltac:(lra)) as NR'.
  assert (KD : 0 <= kw * d <= 1.13 * d) by (split; [apply Rmult_le_pos; lra|apply Rmult_le_compat_r; lra]).
  assert (A1 : ap (erfcB L x) (nr_pos X) (1.001 * kw * d + 31 / 10 ^ 14)).
  { destruct RE as (F & _ & H). split; [exact F|]. apply Rabs_le_inv in H, NL. apply Rabs_le. lra. }
  set (P := nr_pos X) in *. set (er := P - Y) in *. apply Rabs_le_inv in HQ. pose proof (Rabs_le er (0.0031 * kw) ltac:(lra)) as HQ'.
  assert (U0 : 0 < u0 <= 12 / 10 ^ 17) by ulra.
  pose proof (ap_sub _ _ _ _ _ _ 0.01 A1 Ay ltac:(fold er; lra) ltac:(okb)) as A2. fold er in A2. apply (ap_weak _ _ _ (1.001 * kw * d + 32 / 10 ^ 14)) in A2; [|lra].
  set (e := Bminus mode_NE (erfcB L x) y) in *.
  assert (DD : 0 <= d * d <= / 10 ^ 9 * d) by (split; [apply Rmult_le_pos; lra|apply Rmult_le_compat_r; lra]).
  pose proof (ap_mul _ _ _ _ _ _ 1.91 1.91 3.7 Ax Ax ltac:(bd) ltac:(bd) ltac:(lra) ltac:(okb)) as A3. apply (ap_weak _ _ _ (3.83 * d + 5 / 10 ^ 16)) in A3; [|lra].
  assert (XX : 0 <= X * X <= 3.65) by (clear - BX; nra).
  destruct (exp_ap L _ _ _ HE (ap_opp _ _ _ A3) ltac:(apply Rabs_le; lra) ltac:(lra)) as [A4 _]. change (exp (- (X * X))) with (wg X) in A4.
  assert (A4' : ap (l_exp L (Bopp (Bmult mode_NE x x))) (wg X) (3.88 * d + 2 / 10 ^ 15)).
  { apply (ap_weak _ _ _ _ A4). apply Rle_trans with ((1.01 * (3.83 * d + 5 / 10 ^ 16) + 1.1 / 10 ^ 15) * 1); [apply Rmult_le_compat_l; lra|lra]. }
  set (de := 1.001 * kw * d + 32 / 10 ^ 14) in *. assert (BDE : 0 <= de <= 1.132 * d + 32 / 10 ^ 14) by (unfold de; lra).
  assert (DE2 : 0 <= d * de <= / 10 ^ 9 * de) by (split; [apply Rmult_le_pos; lra|apply Rmult_le_compat_r; lra]).
  pose proof (ap_mul _ _ _ _ _ _ 1.91 0.004 0.01 (ap_opp _ _ _ Ax) A2 ltac:(rewrite Rabs_Ropp; bd) ltac:(lra) ltac:(lra) ltac:(okb)) as A5.
  apply (ap_weak _ _ _ (2.2 * d + 7 / 10 ^ 13)) in A5; [|lra].
  assert (EH : ksp * wg X + - X * er = hden Y X) by (unfold hden, nr_erfc; destruct (Rlt_dec X 0); [lra|reflexivity]).
  assert (XE : Rabs (- X * er) <= 1.91 * (0.0031 * kw)). { rewrite Rabs_mult, Rabs_Ropp, (Rabs_pos_eq X) by lra. apply Rmult_le_compat; try lra. apply Rabs_pos. }
  assert (HD : 0.994 * kw <= hden Y X <= 1.006 * kw). { rewrite <- EH. fold kw. apply Rabs_le_inv in XE. lra. }
  pose proof (ap_fma _ _ _ _ _ _ _ _ _ 1.13 1 1.2 (ksp_ap L) A4' A5 ltac:(bd) ltac:(bd)) as A6. rewrite EH in A6.
  specialize (A6 ltac:(rewrite Rabs_pos_eq by lra; lra) ltac:(okb)). apply (ap_weak _ _ _ (6.6 * d + 8 / 10 ^ 13)) in A6; [|lra].
  assert (BQ : Rabs (er / hden Y X) <= 0.0032).
  { unfold Rdiv. rewrite Rabs_mult, (Rabs_inv), (Rabs_pos_eq (hden Y X)) by lra. apply Rmult_le_reg_r with (hden Y X); [lra|]. rewrite Rmult_assoc, Rinv_l, Rmult_1_r by lra. lra. }
  set (m := 0.99 * kw). assert (M0 : 0 < m) by (unfold m; lra).
  assert (Ev : (de + 0.0032 * (6.6 * d + 8 / 10 ^ 13)) / m <= 1.9 * d + 15 / 10 ^ 12).
  { apply Rmult_le_reg_r with m; auto. unfold Rdiv. rewrite Rmult_assoc, Rinv_l, Rmult_1_r by lra. assert (0.0244 * d <= kw * d) by (apply Rmult_le_compat_r; lra). unfold m, de. lra. }
  pose proof (ap_div _ _ _ _ _ _ m 0.0032 0.01 A2 A6 M0 ltac:(rewrite Rabs_pos_eq; unfold m; lra) BQ ltac:(lra) ltac:(okb)) as A7. apply (ap_weak _ _ _ (1.91 * d + 16 / 10 ^ 12)) in A7; [|lra].
  assert (EN : hstep Y X = X + er / hden Y X) by (unfold hstep, nr_erfc; destruct (Rlt_dec X 0); [lra|reflexivity]). rewrite EN. apply Rabs_le_inv in BQ.
  pose proof (ap_add _ _ _ _ _ _ 2 Ax A7 ltac:(apply Rle_trans with (1.92 + (d + (1.91 * d + 16 / 10 ^ 12))); [apply Rplus_le_compat_r; apply Rabs_le; lra|lra]) ltac:(okb)) as A8. apply (ap_weak _ _ _ _ A8). lra.
Qed.
Definition startB (L : Libm) (t : B64) : B64 :=
  Bmult mode_NE (Bopp (ffrac1sqrt2 (Arith := B64A L)))
    (Bminus mode_NE (Bdiv mode_NE (Bfma mode_NE t (b64_lit 27061 100000) (b64_lit 230753 100000))
       (Bfma mode_NE t (Bfma mode_NE t (b64_lit 4481 100000) (b64_lit 99229 100000)) (b64_of_Z 1))) t).
Lemma start_ap L t T d : ap t T d -> d <= / 10 ^ 10 -> 1.17 <= T <= 3.28 -> ap (startB L t) (hstart T) (1.6 * d + 1 / 10 ^ 14).
Proof.
  intros At Hd BT. pose proof (ap_nonneg _ _ _ At) as D0. unfold startB. pose proof isq2_15 as IS.
  assert (U0 : 0 < u0 <= 12 / 10 ^ 17) by ulra.
  pose proof (lit_ap 27061 100000 0.28 ltac:(lia) ltac:(lia) ltac:(bd) ltac:(okb)) as L1. pose proof (lit_ap 230753 100000 2.31 ltac:(lia) ltac:(lia) ltac:(bd) ltac:(okb)) as L2.
  pose proof (lit_ap 4481 100000 0.05 ltac:(lia) ltac:(lia) ltac:(bd) ltac:(okb)) as L3. pose proof (lit_ap 99229 100000 1 ltac:(lia) ltac:(lia) ltac:(bd) ltac:(okb)) as L4.
  assert (ud : 0 <= u0 * d <= 12 / 10 ^ 17 * d) by (split; [apply Rmult_le_pos; lra|apply Rmult_le_compat_r; lra]).
  pose proof (ap_fma _ _ _ _ _ _ _ _ _ 3.28 0.28 3.3 At L1 L2 ltac:(bd) ltac:(bd) ltac:(rewrite Rabs_pos_eq by lra; lra) ltac:(okb)) as AN. apply (ap_weak _ _ _ (0.281 * d + 9 / 10 ^ 16)) in AN; [|lra].
  pose proof (ap_fma _ _ _ _ _ _ _ _ _ 3.28 0.05 1.2 At L3 L4 ltac:(bd) ltac:(bd) ltac:(rewrite Rabs_pos_eq by lra; lra) ltac:(okb)) as AI. apply (ap_weak _ _ _ (0.051 * d + 4 / 10 ^ 16)) in AI; [|lra].
  set (N := T * (27061 / 100000) + 230753 / 100000) in *. set (I := T * (4481 / 100000) + 99229 / 100000) in *.
  assert (BI : 1.04 <= I <= 1.14) by (unfold I; lra). assert (TI : 1.21 <= T * I <= 3.74) by nra.
  assert (dd : 0 <= d * d <= / 10 ^ 10 * d) by (split; [apply Rmult_le_pos; lra|apply Rmult_le_compat_r; lra]).
  pose proof (ap_fma _ _ _ _ _ _ _ _ _ 3.28 1.14 4.8 At AI (ap_Z 1 ltac:(vm_compute; discriminate)) ltac:(bd) ltac:(bd) ltac:(rewrite Rabs_pos_eq by lra; lra) ltac:(okb)) as AD. apply (ap_weak _ _ _ (1.4 * d + 3 / 10 ^ 15)) in AD; [|lra].
  set (D := T * I + 1) in *. assert (BD : 2.21 <= D <= 4.74) by (unfold D; lra). assert (BN : 2.6 <= N <= 3.2) by (unfold N; lra).
  assert (BQ : 0 < N / D <= 1.45). { split; [apply Rdiv_lt_0_compat; lra|]. apply Rmult_le_reg_r with D; [lra|]. unfold Rdiv. rewrite Rmult_assoc, Rinv_l by lra. lra. }
  pose proof (ap_div _ _ _ _ _ _ 2.2 1.45 1.5 AN AD ltac:(lra) ltac:(rewrite Rabs_pos_eq; lra) ltac:(bd) ltac:(lra) ltac:(okb)) as AQ. apply (ap_weak _ _ _ (1.1 * d + 3 / 10 ^ 15)) in AQ; [|lra].
  pose proof (ap_sub _ _ _ _ _ _ 4 AQ At ltac:(apply Rle_trans with (3.3 + (1.1 * d + 3 / 10 ^ 15 + d)); [apply Rplus_le_compat_r; apply Rabs_le; lra|lra]) ltac:(okb)) as AM. apply (ap_weak _ _ _ (2.1 * d + 4 / 10 ^ 15)) in AM; [|lra].
  pose proof (ap_mul _ _ _ _ _ _ 0.71 3.3 4 (ap_opp _ _ _ (isq2_ap L)) AM ltac:(rewrite Rabs_Ropp; bd) ltac:(apply Rabs_le; lra) ltac:(lra) ltac:(okb)) as A. 
  apply (ap_eq _ _ (hstart T)) in A.
  - apply (ap_weak _ _ _ _ A). lra.
  - reflexivity.
Qed.
Lemma tof_up y : 0.01 <= y <= 0.99 -> let t := sqrt (-2 * ln (y / 2)) in 1.17741 <= t <= 3.28 /\ 0.69 <= - ln (y / 2) <= 5.36.
Proof.
  intros H t. destruct (tof y ltac:(lra)) as [T1 _]. fold t in T1. pose proof (ln_half' y ltac:(lra)) as L1. pose proof ln10_close as LN.
  assert (L2 : ln 2 <= 0.75). { rewrite <- (ln_exp 0.75). apply ln_mono; [lra|]. replace 0.75 with (INR 8 * (0.75 / 8)) by (rewrite INR_IZR_INZ; simpl; lra). rewrite exp_INR. apply Rle_trans with ((1 + 0.75 / 8) ^ 8); [lra|]. apply pow_incr. split; [lra|apply exp_ineq1_le]. }
  assert (E : ln (/ 200) = - (ln 2 + 2 * ln 10)). { rewrite ln_Rinv by lra. replace 200 with (2 * (10 * 10)) by lra. rewrite !ln_mult by lra. ring. }
  assert (L3 : ln (/ 200) <= ln (y / 2)) by (apply ln_mono; lra).
  assert (Q : 0.69 <= - ln (y / 2) <= 5.36) by lra. split; [|exact Q]. split; [exact T1|]. unfold t. rewrite <- (sqrt_square 3.28) by lra. apply sqrt_le_1_alt. lra.
Qed.
Definition invB (L : Libm) (y : B64) : B64 :=
  stepB L y (stepB L y (startB L (Bsqrt mode_NE (Bmult mode_NE (b64_of_Z (-2)) (l_ln L (Bdiv mode_NE y (b64_of_Z 2))))))).
Lemma inv_ap L y Y : exp_accurate L -> lnp_accurate L -> ap y Y (3 / 10 ^ 15) -> 0.01 <= Y <= 0.99 -> ap (invB L y) (hinv Y) (92 / 10 ^ 12) /\ 0.002 <= hinv Y <= 1.92.
Proof.
  intros HE HL Ay BY. unfold invB. pose proof (ap_int _ _ _ Ay) as IY. destruct (tof_up Y BY) as [BT BL]. destruct (tof Y ltac:(lra)) as [_ EY]. set (T := sqrt (-2 * ln (Y / 2))) in *.
  assert (U0 : 0 < u0 <= 12 / 10 ^ 17) by ulra.
  step (ap_div _ _ _ _ _ _ 2 0.5 0.6 Ay (ap_Z 2 ltac:(vm_compute; discriminate)) ltac:(lra) ltac:(rewrite Rabs_pos_eq; lra) ltac:(bd) ltac:(lra) ltac:(okb)) (16 / 10 ^ 16).
  set (h := Bdiv _ y _) in *. pose proof (ap_int _ _ _ S) as IH. destruct (HL h (ap_fin _ _ _ S)) as [Fl Al]; [rewrite <- (ext_fin _ (ap_fin _ _ _ S)); lra|].
  rewrite <- (ext_fin _ (ap_fin _ _ _ S)), <- (ext_fin _ Fl) in Al.
  pose proof (ln_lip (ext h) (Y / 2) 0.004 ltac:(lra) ltac:(lra) ltac:(lra)) as LP. destruct S as [Fh Sh].
  assert (LP' : Rabs (ln (ext h) - ln (Y / 2)) <= 4 / 10 ^ 13). { apply Rle_trans with (1 := LP). apply Rmult_le_reg_r with 0.004; [lra|]. unfold Rdiv at 1. rewrite Rmult_assoc, Rinv_l by lra. lra. }
  assert (Sl : ap (l_ln L h) (ln (Y / 2)) (41 / 10 ^ 14)).
  { split; [exact Fl|]. pose proof i50 as I5. apply Rabs_le_inv in LP'. assert (/ 2 ^ 50 * - ln (ext h) <= / 10 ^ 15 * 6) by (apply Rmult_le_compat; lra). apply Rabs_le_inv in Al. apply Rabs_le. lra. }
  step (ap_mul _ _ _ _ _ _ 2 5.36 11 (ap_Z (-2) ltac:(vm_compute; discriminate)) Sl ltac:(apply Rabs_le; lra) ltac:(apply Rabs_le; lra) ltac:(lra) ltac:(okb)) (83 / 10 ^ 14).
  step (ap_sqrt _ _ _ 1.17 3.28 3.3 S ltac:(lra) ltac:(fold T; lra) ltac:(fold T; lra) ltac:(lra) ltac:(lra) ltac:(okb)) (72 / 10 ^ 14). fold T in S0.
  pose proof (start_ap L _ T _ S0 ltac:(lra) ltac:(lra)) as A0. apply (ap_weak _ _ _ (12 / 10 ^ 13)) in A0; [|lra].
  pose proof ksp_15 as [K1 K2]. pose proof (hstart_nonneg T ltac:(lra)) as X0. pose proof sqrt2_15 as S2. pose proof (start_err T Y ltac:(lra) EY) as SE.
  assert (XU : hstart T <= 1.9).
  { rewrite (hstart_sR T) by lra. assert (RL : 0.6 <= sR T). { unfold sR. pose proof (sD_pos T ltac:(lra)). apply Rmult_le_reg_r with (sD T); [lra|]. rewrite Rmult_assoc, Rinv_l by lra. unfold sD. nra. }
    apply Rmult_le_reg_r with (sqrt 2); [lra|]. unfold Rdiv. rewrite Rmult_assoc, Rinv_l by lra. lra. }
  destruct (wg_low (hstart T) ltac:(lra)) as [W1 W2]. pose proof (nr_tangent _ X0) as NT.
  assert (XL : 0.0057 <= hstart T).
  { apply Rabs_le_inv in SE. assert (ksp * wg (hstart T) <= 1.1284 * 1) by (apply Rmult_le_compat; lra). assert (0.0065 <= ksp * hstart T) by lra. apply Rmult_le_reg_l with ksp; lra. }
  destruct (halley_step Y (hstart T) 0.003014 1.91 0.00304 0.02 ltac:(lra) ltac:(lra) ltac:(lra) SE ltac:(lra) ltac:(lra) ltac:(lra) ltac:(lra)) as (N1 & D1 & A1).
  unfold hinv. fold T. set (x0 := hstart T) in *. set (x1 := hstep Y x0) in *. assert (KW : 0 < ksp * wg x0) by (apply Rmult_lt_0_compat; lra).
  pose proof (step_ap L y _ Y x0 _ HE Ay A0 ltac:(lra) ltac:(lra) ltac:(lra) ltac:(lra)) as AS1. fold x1 in AS1. apply (ap_weak _ _ _ (237 / 10 ^ 13)) in AS1; [|lra].
  apply Rabs_le_inv in D1. assert (BX1 : 0.0026 <= x1 <= 1.904) by lra.
  destruct (wg_ratio x0 x1 0.00304 1.91 ltac:(lra) N1 ltac:(apply Rabs_le; lra) ltac:(lra) ltac:(lra)) as [R1 _].
  assert (A2 : Rabs (nr_pos x1 - Y) <= 0.0000615 * ksp * wg x1).
  { eapply Rle_trans; [exact A1|]. replace (0.02 * 0.003014 * ksp * wg x0) with (ksp * (0.02 * 0.003014 * wg x0)) by ring. replace (0.0000615 * ksp * wg x1) with (ksp * (0.0000615 * wg x1)) by ring. apply Rmult_le_compat_l; [lra|]. lra. }
  destruct (wg_low x1 ltac:(lra)) as [V1 V2]. assert (KV : 0 < ksp * wg x1) by (apply Rmult_lt_0_compat; lra).
  pose proof (step_ap L y _ Y x1 _ HE Ay AS1 ltac:(lra) ltac:(lra) ltac:(lra) ltac:(lra)) as AS2.
  destruct (halley_step Y x1 0.0000615 1.91 0.000062 0.01 ltac:(lra) ltac:(lra) ltac:(lra) A2 ltac:(lra) ltac:(lra) ltac:(lra) ltac:(lra)) as (N2 & D2 & _).
  split; [apply (ap_weak _ _ _ _ AS2); lra|]. apply Rabs_le_inv in D2. lra.
Qed.
Lemma inverse_erfc_top L y : fin y -> 1 <= ext y < 2 -> inverse_erfc (A := B64A L) y = Bopp (invB L (Bminus mode_NE (b64_of_Z 2) y)).
Proof.
  intros F B. assert (E : forall z, (Z.abs z <= 2 ^ 53)%Z -> nn (b64_of_Z z) /\ ext (b64_of_Z z) = IZR z) by (intros z Hz; destruct (ext_ofZ z Hz); split; auto; apply fin_nn; auto).
  destruct (E 2%Z ltac:(vm_compute; discriminate)) as [N2 E2]. destruct (E 0%Z ltac:(vm_compute; discriminate)) as [N0 E0]. destruct (E 1%Z ltac:(vm_compute; discriminate)) as [N1 E1].
  pose proof (fin_nn _ F) as Ny. unfold inverse_erfc. change (fleb (Arith := B64A L)) with (@Bleb 53 1024). change (fltb (Arith := B64A L)) with (@Bltb 53 1024). change (fofZ (Arith := B64A L)) with b64_of_Z.
  rewrite !Bleb_ext, Bltb_ext by auto. rewrite E0, E1, E2. rewrite !Rle_bool_false by lra. rewrite Rlt_bool_false by lra. reflexivity.
Qed.

Lemma margin_ap L dp b n DP BT N : exp_accurate L -> lnp_accurate L -> ap dp DP 0 -> ap b BT 0 -> ap n N 0 -> 0.01 <= DP <= 0.99 -> 1 <= BT <= 10 ^ 4 -> 1 <= N <= 10 ^ 6 ->
  ap (ts_draw_margin (A := B64A L) dp b n) (unit_margin DP * sqrt N * BT) (2 / 10 ^ 10 * (sqrt N * BT)) /\ 0.0028 <= unit_margin DP <= 2.72.
Proof.
  intros HE HL Ad Ab An BD BB BN. assert (U0 : 0 < u0 <= 12 / 10 ^ 17) by ulra. pose proof sqrt2_15 as S2.
  step (ap_add _ _ _ _ _ _ 2 Ad (ap_Z 1 ltac:(vm_compute; discriminate)) ltac:(rewrite Rabs_pos_eq by lra; lra) ltac:(okb)) (24 / 10 ^ 17).
  step (ap_div _ _ _ _ _ _ 2 1 1.01 S (ap_Z 2 ltac:(vm_compute; discriminate)) ltac:(lra) ltac:(rewrite Rabs_pos_eq by lra; lra) ltac:(bd) ltac:(lra) ltac:(okb)) (25 / 10 ^ 17).
  pose proof (ap_mul _ _ _ _ _ _ 2 1 2.01 (ap_Z 2 ltac:(vm_compute; discriminate)) S0 ltac:(bd) ltac:(bd) ltac:(lra) ltac:(okb)) as S1. apply (ap_eq _ _ (1 + DP)) in S1; [|field]. apply (ap_weak _ _ _ (75 / 10 ^ 17)) in S1; [|lra].
  set (y := Bmult _ _ (Bdiv _ _ _)) in *. pose proof (ap_int _ _ _ S1) as IY.
  pose proof (ap_sub _ _ _ _ _ _ 1 (ap_Z 2 ltac:(vm_compute; discriminate)) S1 ltac:(rewrite Rabs_pos_eq by lra; lra) ltac:(okb)) as S3. apply (ap_eq _ _ (1 - DP)) in S3; [|ring]. apply (ap_weak _ _ _ (3 / 10 ^ 15)) in S3; [|lra].
  destruct (inv_ap L _ _ HE HL S3 ltac:(lra)) as [AI BI]. pose proof (inverse_erfc_top L y (ap_fin _ _ _ S1) ltac:(lra)) as EI.
  set (iv := invB L _) in *. set (H := hinv (1 - DP)) in *.
  assert (EM : ts_draw_margin (A := B64A L) dp b n = Bmult mode_NE (Bmult mode_NE (Bfma mode_NE (Bmult mode_NE (b64_of_Z 1) (fsqrt2 (Arith := B64A L))) (Bopp (inverse_erfc (A := B64A L) y)) (b64_of_Z 0)) (Bsqrt mode_NE n)) b) by reflexivity.
  rewrite EM, EI. clear EM EI. rewrite (unit_margin_eq DP) by lra. fold H.
  pose proof (ap_opp _ _ _ (ap_opp _ _ _ AI)) as AI'. rewrite Ropp_involutive in AI'.
  pose proof (ap_mul _ _ _ _ _ _ 1 1.42 1.43 (ap_Z 1 ltac:(vm_compute; discriminate)) (sqrt2_ap L) ltac:(bd) ltac:(bd) ltac:(lra) ltac:(okb)) as T. rewrite Rmult_1_l in T. apply (ap_weak _ _ _ (7 / 10 ^ 16)) in T; [|lra].
  assert (BU : 0.0028 <= sqrt 2 * H <= 2.72). { split; [apply Rle_trans with (1.414 * 0.002); [lra|apply Rmult_le_compat; lra]|apply Rle_trans with (1.4143 * 1.92); [apply Rmult_le_compat; lra|lra]]. }
  split; [|exact BU].
  pose proof (ap_fma _ _ _ _ _ _ _ _ _ 1.42 1.92 3 T AI' (ap_Z 0 ltac:(vm_compute; discriminate)) ltac:(bd) ltac:(bd) ltac:(rewrite Rabs_pos_eq by lra; lra) ltac:(okb)) as M.
  rewrite Rplus_0_r in M. apply (ap_weak _ _ _ (132 / 10 ^ 12)) in M; [|lra]. set (U := sqrt 2 * H) in *. clearbody U iv.
  set (SN := sqrt N). assert (SS : SN * SN = N) by (apply sqrt_sqrt; lra). assert (SN0 : 0 < SN) by (apply sqrt_lt_R0; lra). assert (BS : 1 <= SN <= 1000) by (split; apply Rsqr_incr_0_var; unfold Rsqr; lra).
  assert (uS : 0 <= u0 * SN <= 12 / 10 ^ 17 * SN) by (split; [apply Rmult_le_pos; lra|apply Rmult_le_compat_r; lra]).
  pose proof (ap_sqrt _ _ _ SN SN (1.01 * SN) An SN0 ltac:(fold SN; lra) ltac:(fold SN; lra) ltac:(lra) ltac:(replace (0 / SN) with 0 by (field; lra); lra) ltac:(okb)) as R. fold SN in R. replace (0 / SN) with 0 in R by (field; lra).
  apply (ap_weak _ _ _ (13 / 10 ^ 17 * SN)) in R; [|lra].
  assert (US : 0.0028 * SN <= U * SN <= 2.72 * SN) by (split; apply Rmult_le_compat_r; lra).
  pose proof (ap_mul _ _ _ _ _ _ 2.72 SN (3 * SN) M R ltac:(bd) ltac:(rewrite Rabs_pos_eq; lra) ltac:(lra) ltac:(okb)) as Q. apply (ap_weak _ _ _ (133 / 10 ^ 12 * SN)) in Q; [|lra].
  assert (SB : SN * 1 <= SN * BT <= 1000 * 10 ^ 4) by (split; [apply Rmult_le_compat_l; lra|apply Rmult_le_compat; lra]).
  assert (uB : 0 <= u0 * (SN * BT) <= 12 / 10 ^ 17 * (SN * BT)) by (split; [apply Rmult_le_pos; lra|apply Rmult_le_compat_r; lra]).
  pose proof (ap_mul _ _ _ _ _ _ (2.72 * SN) BT (3 * (SN * BT)) Q Ab ltac:(rewrite Rabs_pos_eq by lra; lra) ltac:(rewrite Rabs_pos_eq; lra) ltac:(lra) ltac:(okb)) as W.
  apply (ap_weak _ _ _ _ W). lra.
Qed.
