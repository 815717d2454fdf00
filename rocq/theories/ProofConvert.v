(** Proofs of C132: moving two players to another system keeps the favourite. *)
From Coq Require Import ZArith NArith List Bool Reals Lra Lia.
From Coquelicot Require Import Coquelicot.
From Verif Require Import Arith XR Tac ModelLib ModelElo ModelFifa ModelDwz ModelIngo ModelUscf ModelGlicko ModelGlicko2 ModelSticko ModelBoost ModelWengLin ModelTS ModelConv
  Spec SpecTS SpecInTS ProofElo ProofFifa ProofDwz ProofIngo ProofUscf ProofWengLin MathIval MathTS MathTSInv MathTSMono ProofTS ProofBoost2 ProofOrder2 ProofCross ProofTriangle ProofGlicko ProofGlicko2 ProofRematch.
Import Spec ListNotations.
Local Open Scope R_scope.

Lemma exp_ln10_lo : 0 < 10 - exp (2302585 / 1000000).
Proof. pose (x := 2302585 / 1000000). change (0 < 10 - exp x). ival_pos x 0%nat 2302585%Z 1000000%Z 2302585%Z 1000000%Z. unfold x; lra. Qed.
Lemma exp_ln10_hi : 0 < exp (23025851 / 10000000) - 10.
Proof. pose (x := 23025851 / 10000000). change (0 < exp x - 10). ival_pos x 0%nat 23025851%Z 10000000%Z 23025851%Z 10000000%Z. unfold x; lra. Qed.
Lemma ln10_tight : 2302585 / 1000000 < ln 10 < 23025851 / 10000000.
Proof.
  pose proof exp_ln10_lo. pose proof exp_ln10_hi. split.
  - rewrite <- (ln_exp (2302585 / 1000000)). apply ln_increasing; [apply exp_pos|lra].
  - rewrite <- (ln_exp (23025851 / 10000000)). apply ln_increasing; lra.
Qed.
(** The logistic curve under a change of scale. *)
Lemma exp_sum_ge c : 2 + c ^ 2 <= exp c + exp (- c).
Proof.
  assert (A : forall x, 0 <= x -> 2 + x ^ 2 <= exp x + exp (- x)).
  { intros x Hx. destruct (Req_dec x 0) as [->|N]; [rewrite Ropp_0, exp_0; lra|].
    assert (P1 : forall y, 0 < y -> 0 < exp y - exp (- y) - 2 * y).
    { intros y Hy. replace 0 with ((fun z => exp z - exp (- z) - 2 * z) 0) at 1 by (rewrite Ropp_0; lra).
      apply (mvt_pos (fun z => exp z - exp (- z) - 2 * z) (fun z => exp z + exp (- z) - 2)); [exact Hy|intros c0 _; auto_derive; [exact I|ring]|].
      intros z Hz. rewrite exp_Ropp. pose proof (exp_pos z). assert (exp z <> 1). { intros E. rewrite <- exp_0 in E. apply exp_inv in E. lra. }
      replace (exp z + / exp z - 2) with ((exp z - 1) ^ 2 / exp z) by (field; lra). apply Rdiv_lt_0_compat; [|auto]. assert (exp z - 1 <> 0) by lra. pose proof (pow2_ge_0 (exp z - 1)). assert ((exp z - 1) ^ 2 <> 0) by (now apply pow_nonzero). lra. }
    assert (0 < exp x + exp (- x) - x ^ 2 - 2); [|lra].
    replace 0 with ((fun z => exp z + exp (- z) - z ^ 2 - 2) 0) at 1 by (rewrite Ropp_0, exp_0; lra).
    apply (mvt_pos (fun z => exp z + exp (- z) - z ^ 2 - 2) (fun z => exp z - exp (- z) - 2 * z)); [lra|intros c0 _; auto_derive; [exact I|ring]|]. intros z Hz. apply P1; lra. }
  destruct (Rle_dec 0 c) as [H|H]; [now apply A|]. pose proof (A (- c) ltac:(lra)) as B. rewrite Ropp_involutive in B. replace ((- c) ^ 2) with (c ^ 2) in B by ring. lra.
Qed.
Lemma sg_half : sg 0 = 1 / 2.
Proof. unfold sg. rewrite Ropp_0, exp_0. lra. Qed.
Lemma sg_lt u v : u < v -> sg u < sg v.
Proof. intros H. apply (mvt_pos sg (fun z => sg z * (1 - sg z))); [auto|intros; apply sg_deriv|]. intros c _. pose proof (sg_range c). nra. Qed.
Lemma sg_slope c : 0 <= c -> c * (sg c * (1 - sg c)) <= 1 / 4.
Proof.
  intros Hc. unfold sg. pose proof (exp_pos (- c)). pose proof (exp_pos c). pose proof (exp_sum_ge c) as S.
  assert (EE : exp c * exp (- c) = 1) by (rewrite <- exp_plus, Rplus_opp_r; apply exp_0).
  replace (/ (1 + exp (- c)) * (1 - / (1 + exp (- c)))) with (/ (2 + (exp c + exp (- c)))).
  2:{ assert (exp (- c) = / exp c) as -> by apply exp_Ropp. field. repeat split; nra. }
  apply Rmult_le_reg_r with (2 + (exp c + exp (- c))); [lra|]. rewrite Rmult_assoc, Rinv_l by lra. pose proof (pow2_ge_0 (c - 2)). nra.
Qed.
(** Stretching the argument by a factor L >= 1 moves the value by at most (L - 1)/4. *)
Lemma sg_stretch x y L : 0 <= x -> x <= y -> y <= L * x -> 1 <= L -> sg x <= sg y <= sg x + (L - 1) / 4.
Proof.
  intros Hx H HL L1. destruct (Req_dec x y) as [<-|N]; [lra|]. assert (XY : x < y) by lra.
  destruct (MVT_cor2 sg (fun z => sg z * (1 - sg z)) x y XY) as (c & E & Hc); [intros c Hc; apply is_derive_Reals, sg_deriv|].
  pose proof (sg_range c) as R. assert (0 <= sg c * (1 - sg c)) as P by nra. pose proof (sg_slope c ltac:(lra)) as S.
  split; [nra|]. assert (y - x <= (L - 1) * c) by nra. assert ((sg c * (1 - sg c)) * (y - x) <= (sg c * (1 - sg c)) * ((L - 1) * c)) by (apply Rmult_le_compat_l; auto). nra.
Qed.

(** Elo to DWZ and back: the same forecast. *)
Lemma C132_dwz_proof : forall r1 r2 i1 a1 i2 a2,
  dwz_expected_score (dwz_from_elo (mkElo (Fin r1))) (dwz_from_elo (mkElo (Fin r2))) = elo_expected_score (mkElo (Fin r1)) (mkElo (Fin r2)) /\
  elo_expected_score (elo_from_dwz (mkDwz (Fin r1) i1 a1)) (elo_from_dwz (mkDwz (Fin r2) i2 a2)) = dwz_expected_score (mkDwz (Fin r1) i1 a1) (mkDwz (Fin r2) i2 a2).
Proof. intros. unfold dwz_from_elo, elo_from_dwz. cbn [elo_rating dwz_rating]. rewrite !dwz_expected_eval, !elo_expected_eval. split; reflexivity. Qed.
Lemma C132_uscf_proof : forall r1 r2, r2 < r1 -> exists e u,
  fst (elo_expected_score (mkElo (Fin r1)) (mkElo (Fin r2))) = Fin e /\
  fst (uscf_expected_score (uscf_from_elo (mkElo (Fin r1))) (uscf_from_elo (mkElo (Fin r2)))) = Fin u /\
  1 / 2 < e /\ 1 / 2 < u /\ Rabs (u - e) <= 0.016 /\
  (r1 <= 2000 -> e < u) /\ (2000 <= r2 -> u < e).
Proof.
  intros r1 r2 H. destruct (C61_formula_proof r1) as (U1 & _), (C61_formula_proof r2) as (U2 & _).
  assert (V : forall r, exists n, uscf_from_elo (mkElo (Fin r)) = mkUscf (uscf_rating (uscf_from_elo (mkElo (Fin r)))) n).
  { intros r. destruct (uscf_from_elo (mkElo (Fin r))) as [q n]. exists n. reflexivity. }
  destruct (V r1) as [n1 ->], (V r2) as [n2 ->]. rewrite U1, U2. rewrite elo_expected_eval, uscf_exp_eval. cbn [fst].
  set (v1 := if Rle_dec r1 2000 then _ else _). set (v2 := if Rle_dec r2 2000 then _ else _).
  assert (D : 0.94 * (r1 - r2) <= v1 - v2 <= 1.02 * (r1 - r2)) by (unfold v1, v2; destruct (Rle_dec r1 2000), (Rle_dec r2 2000); lra).
  assert (D1 : r1 <= 2000 -> r1 - r2 < v1 - v2) by (unfold v1, v2; destruct (Rle_dec r1 2000), (Rle_dec r2 2000); lra).
  assert (D2 : 2000 <= r2 -> v1 - v2 < r1 - r2) by (unfold v1, v2; destruct (Rle_dec r1 2000), (Rle_dec r2 2000); lra).
  clearbody v1 v2. exists (elo_E r1 r2), (elo_E v1 v2). do 2 (split; [reflexivity|]). rewrite !elo_E_sg. pose proof ln10_close as L.
  set (w := ln 10 / 400). assert (W : 0 < w) by (unfold w; lra).
  replace ((r1 - r2) * ln 10 / 400) with ((r1 - r2) * w) by (unfold w; field). replace ((v1 - v2) * ln 10 / 400) with ((v1 - v2) * w) by (unfold w; field).
  rewrite <- sg_half. assert (P : 0 < (r1 - r2) * w) by nra. assert (Q : 0 < (v1 - v2) * w) by nra.
  split; [apply sg_lt; lra|]. split; [apply sg_lt; lra|]. split.
  - destruct (Rle_dec ((r1 - r2) * w) ((v1 - v2) * w)) as [C|C].
    + pose proof (sg_stretch _ _ 1.02 (Rlt_le _ _ P) C ltac:(nra) ltac:(lra)). apply Rabs_le. lra.
    + pose proof (sg_stretch ((v1 - v2) * w) ((r1 - r2) * w) (50 / 47) ltac:(lra) ltac:(lra) ltac:(nra) ltac:(lra)). apply Rabs_le. lra.
  - split; intros G; apply sg_lt; apply Rmult_lt_compat_r; auto.
Qed.
Lemma C132_fifa_proof : forall r1 r2, r2 < r1 -> exists e f,
  fst (elo_expected_score (mkElo (Fin r1)) (mkElo (Fin r2))) = Fin e /\
  fst (fifa_expected_score (fifa_from_elo (mkElo (Fin r1))) (fifa_from_elo (mkElo (Fin r2)))) = Fin f /\
  1 / 2 < f < e /\ e - f <= 1 / 8.
Proof.
  intros r1 r2 H. unfold fifa_from_elo. cbn [elo_rating]. rewrite elo_expected_eval, fifa_expected_eval. cbn [fst].
  do 2 eexists. do 2 (split; [reflexivity|]). rewrite elo_E_sg, fifa_We_sg, <- sg_half. pose proof ln10_close as L.
  assert (0 < (r1 - r2) * ln 10) by nra. split; [split; apply sg_lt; lra|].
  pose proof (sg_stretch ((r1 - r2) * ln 10 / 600) ((r1 - r2) * ln 10 / 400) (3 / 2) ltac:(lra) ltac:(lra) ltac:(lra) ltac:(lra)). lra.
Qed.
Lemma C132_ingo_proof : forall r1 r2, r2 < r1 -> exists e i,
  fst (elo_expected_score (mkElo (Fin r1)) (mkElo (Fin r2))) = Fin e /\
  fst (ingo_expected_score (ingo_from_elo (mkElo (Fin r1))) (ingo_from_elo (mkElo (Fin r2)))) = Fin i /\
  1 / 2 < e /\ 1 / 2 < i /\ i = 1 / 2 + (r1 - r2) / 800 /\ e < 1 / 2 + (r1 - r2) / 600.
Proof.
  intros r1 r2 H. destruct (C61_formula_proof r1) as (_ & I1 & _), (C61_formula_proof r2) as (_ & I2 & _).
  assert (V : forall r, exists n, ingo_from_elo (mkElo (Fin r)) = mkIngo (ingo_rating (ingo_from_elo (mkElo (Fin r)))) n).
  { intros r. destruct (ingo_from_elo (mkElo (Fin r))) as [q n]. exists n. reflexivity. }
  destruct (V r1) as [n1 ->], (V r2) as [n2 ->]. rewrite I1, I2. rewrite elo_expected_eval.
  destruct (C25_partial_proof ((2840 - r1) / 8) n1 ((2840 - r2) / 8) n2) as (e1 & e2 & -> & _ & _ & E & _). cbn [fst].
  exists (elo_E r1 r2), e1. do 2 (split; [reflexivity|]). rewrite elo_E_sg. pose proof ln10_close as L. set (z := (r1 - r2) * ln 10 / 400).
  assert (Z : 0 < z <= 0.0057575 * (r1 - r2)) by (unfold z; split; nra). split; [rewrite <- sg_half; apply sg_lt; lra|]. split; [lra|]. split; [lra|].
  destruct (MVT_cor2 sg (fun z => sg z * (1 - sg z)) 0 z ltac:(lra)) as (c & F & Hc); [intros c Hc; apply is_derive_Reals, sg_deriv|].
  rewrite sg_half in F. pose proof (sg_quarter c). nra.
Qed.
(** Glicko and Glicko-2: the same favourite, the forecasts agree up to 1.2e-8. *)
Lemma scale_gap : 1 < gq * g2s <= 1.000000045.
Proof. unfold gq, g2s. pose proof ln10_tight. lra. Qed.
Lemma lg_sg u : lg u = sg (- u).
Proof. unfold lg, sg. now rewrite Ropp_involutive. Qed.
Lemma two_scales u v k h : 0 < v <= u -> 0 <= k -> 0 <= h ->
  v / sqrt (1 + k * (v ^ 2 * h)) <= u / sqrt (1 + k * (u ^ 2 * h)) /\ u / sqrt (1 + k * (u ^ 2 * h)) * v <= v / sqrt (1 + k * (v ^ 2 * h)) * u.
Proof.
  intros H Hk Hh. assert (VU : v ^ 2 <= u ^ 2) by (apply pow_incr; lra). assert (0 <= k * h) by (apply Rmult_le_pos; auto).
  assert (V0 : 0 < v ^ 2) by (apply pow_lt; lra).
  assert (A : 1 <= 1 + k * (v ^ 2 * h)) by nra. assert (B : 1 + k * (v ^ 2 * h) <= 1 + k * (u ^ 2 * h)) by nra.
  pose proof (sqrt_lt_R0 (1 + k * (v ^ 2 * h)) ltac:(lra)) as SA. pose proof (sqrt_lt_R0 (1 + k * (u ^ 2 * h)) ltac:(lra)) as SB. split.
  - apply Rmult_le_reg_r with (sqrt (1 + k * (v ^ 2 * h)) * sqrt (1 + k * (u ^ 2 * h))); [now apply Rmult_lt_0_compat|].
    replace (v / sqrt (1 + k * (v ^ 2 * h)) * (sqrt (1 + k * (v ^ 2 * h)) * sqrt (1 + k * (u ^ 2 * h)))) with (v * sqrt (1 + k * (u ^ 2 * h))) by (field; lra).
    replace (u / sqrt (1 + k * (u ^ 2 * h)) * (sqrt (1 + k * (v ^ 2 * h)) * sqrt (1 + k * (u ^ 2 * h)))) with (u * sqrt (1 + k * (v ^ 2 * h))) by (field; lra).
    (apply Rsqr_incr_0; [|nra|nra]; unfold Rsqr; 
      replace (v * sqrt (1 + k * (u ^ 2 * h)) * (v * sqrt (1 + k * (u ^ 2 * h)))) with (v ^ 2 * (sqrt (1 + k * (u ^ 2 * h)) * sqrt (1 + k * (u ^ 2 * h)))) by ring;
      replace (u * sqrt (1 + k * (v ^ 2 * h)) * (u * sqrt (1 + k * (v ^ 2 * h)))) with (u ^ 2 * (sqrt (1 + k * (v ^ 2 * h)) * sqrt (1 + k * (v ^ 2 * h)))) by ring;
      rewrite !sqrt_sqrt by lra; nra).
  - unfold Rdiv. replace (u * / sqrt (1 + k * (u ^ 2 * h)) * v) with (u * v * / sqrt (1 + k * (u ^ 2 * h))) by ring. replace (v * / sqrt (1 + k * (v ^ 2 * h)) * u) with (u * v * / sqrt (1 + k * (v ^ 2 * h))) by ring.
    apply Rmult_le_compat_l; [nra|]. apply Rinv_le_contravar; [auto|]. now apply sqrt_le_1_alt.
Qed.
Lemma C132_glicko2_proof : forall r1 RD1 r2 RD2, r2 < r1 ->
  let g1 := mkGlicko (Fin r1) (Fin RD1) in let g2 := mkGlicko (Fin r2) (Fin RD2) in exists e e2,
  fst (glicko_expected_score g1 g2) = Fin e /\ fst (glicko2_expected_score (glicko2_from_glicko g1) (glicko2_from_glicko g2)) = Fin e2 /\
  1 / 2 < e2 <= e /\ e - e2 <= 0.000000012.
Proof.
  intros r1 RD1 r2 RD2 H g1 g2. unfold g1, g2, glicko2_from_glicko. cbn [gl_rating gl_deviation].
  assert (V : exists s, g2_volatility (glicko2_new (F := XR)) = Fin s) by (eexists; cbn; reflexivity). destruct V as [s ->].
  rewrite (glicko_exp_lg _ _ _ _ _ eq_refl), (g2_exp_lg _ _ _ _ _ _ _ eq_refl), g2mu_diff. do 2 eexists. do 2 (split; [reflexivity|]).
  rewrite !lg_sg, <- sg_half. pose proof g2s_pos as S0. pose proof gq_pos as Q0. pose proof scale_gap as G. pose proof k2_pos as K.
  set (h := RD1 ^ 2 + RD2 ^ 2). assert (Hh : 0 <= h) by (unfold h; pose proof (pow2_ge_0 RD1); pose proof (pow2_ge_0 RD2); lra).
  assert (I0 : 0 < / g2s) by (now apply Rinv_0_lt_compat). assert (IQ : / g2s <= gq) by (apply Rmult_le_reg_r with g2s; [auto|]; rewrite Rinv_l; lra).
  destruct (two_scales gq (/ g2s) k2 h (conj I0 IQ) (Rlt_le _ _ K) Hh) as [T1 T2].
  set (X := gq / sqrt (1 + k2 * (gq ^ 2 * h))) in *. set (Y := / g2s / sqrt (1 + k2 * ((/ g2s) ^ 2 * h))) in *.
  replace (- (gq * ((r2 - r1) / sqrt (1 + kq * h)))) with (X * (r1 - r2)).
  2:{ unfold X. replace (k2 * (gq ^ 2 * h)) with (kq * h) by (unfold kq, k2, Rdiv; ring). unfold Rdiv; ring. }
  replace (- ((r2 - r1) / g2s / sqrt (1 + k2 * (g2phi RD1 ^ 2 + g2phi RD2 ^ 2)))) with (Y * (r1 - r2)).
  2:{ unfold Y. replace (k2 * ((/ g2s) ^ 2 * h)) with (k2 * (g2phi RD1 ^ 2 + g2phi RD2 ^ 2)) by (unfold h, g2phi, Rdiv; ring). unfold Rdiv; ring. }
  assert (Y0 : 0 < Y). { unfold Y. apply Rdiv_lt_0_compat; [auto|]. apply sqrt_lt_R0. assert (0 <= k2 * ((/ g2s) ^ 2 * h)) by (apply Rmult_le_pos; [lra|]; apply Rmult_le_pos; [apply pow2_ge_0|auto]). lra. }
  assert (XY : X <= 1.000000045 * Y). { apply Rmult_le_reg_r with (/ g2s); [auto|]. apply Rle_trans with (1 := T2). replace (Y * gq) with (gq * g2s * Y * / g2s) by (field; lra). apply Rmult_le_compat_r; [lra|]. apply Rmult_le_compat_r; lra. }
  pose proof (sg_stretch (Y * (r1 - r2)) (X * (r1 - r2)) 1.000000045 ltac:(nra) ltac:(nra) ltac:(nra) ltac:(lra)). split; [|lra].
  split; [apply sg_lt; nra|lra].
Qed.
(** Weng-Lin and TrueSkill: the two distribution functions stay within 0.12. *)
Lemma cdf_hi x : 0 <= x <= 5 -> 0 < 12 / 100 - (Phip x - sg x).
Proof. intros H. unfold Phip, nr_pos, sg, nr_P. cbv zeta. ival_pos x 24%nat 0%Z 1%Z 5%Z 1%Z. lra. Qed.
Lemma cdf_lo x : 0 <= x <= 5 -> 0 < 1 / 1000000 + (Phip x - sg x).
Proof. intros H. unfold Phip, nr_pos, sg, nr_P. cbv zeta. ival_pos x 40%nat 0%Z 1%Z 5%Z 1%Z. lra. Qed.
Lemma cdf_5 : 0 < Phip 5 - (1 - 1 / 1000000).
Proof. pose (x := 5). change (0 < Phip x - (1 - 1 / 1000000)). unfold Phip, nr_pos, nr_P. cbv zeta. ival_pos x 0%nat 5%Z 1%Z 5%Z 1%Z. unfold x; lra. Qed.
Lemma sg_5 : 0 < sg 5 - 9 / 10.
Proof. pose (x := 5). change (0 < sg x - 9 / 10). unfold sg. ival_pos x 0%nat 5%Z 1%Z 5%Z 1%Z. unfold x; lra. Qed.
Lemma cdf_sg x : 0 < x -> - 0.000001 <= Phi x - sg x <= 0.12.
Proof.
  intros H. rewrite Phi_Phip by auto. destruct (Rle_dec x 5) as [C|C].
  - pose proof (cdf_hi x ltac:(lra)). pose proof (cdf_lo x ltac:(lra)). lra.
  - pose proof (Phip_range x ltac:(lra)). pose proof (sg_range x). pose proof (sg_lt 5 x ltac:(lra)). pose proof sg_5. pose proof cdf_5.
    pose proof (Phi_lt_pos 5 x ltac:(lra) ltac:(lra)) as P. rewrite !Phi_Phip in P by lra. lra.
Qed.
Lemma C132_trueskill_proof : forall m1 s1 m2 s2 beta kappa dp tau, 0 < beta -> m2 < m1 ->
  let w1 := mkWL (Fin m1) (Fin s1) in let w2 := mkWL (Fin m2) (Fin s2) in exists e t,
  fst (wl_expected_score w1 w2 (mkWLConfig (Fin beta) kappa)) = Fin e /\
  fst (ts_expected_score (ts_from_wl w1) (ts_from_wl w2) (mkTSConfig dp (Fin beta) tau)) = Fin t /\
  1 / 2 < e < 1 /\ 0.4999999 < t < 1 /\ e - 0.000001 <= t <= e + 0.12.
Proof.
  intros m1 s1 m2 s2 beta kappa dp tau Hb H w1 w2. unfold w1, w2, ts_from_wl. cbn [wl_rating wl_uncertainty]. rewrite wl_exp_eval by auto.
  assert (E : fst (ts_expected_score (mkTS (Fin m1) (Fin s1)) (mkTS (Fin m2) (Fin s2)) (mkTSConfig dp (Fin beta) tau)) = Fin (Phi ((m1 - m2) / tsc 2 beta (s1 ^ 2) (s2 ^ 2)))).
  { pose proof (ts_expected_eval m1 s1 m2 s2 0 beta 0 Hb) as E. apply (f_equal fst) in E. cbn [fst] in E. rewrite <- E. reflexivity. }
  rewrite E. do 2 eexists. do 2 (split; [reflexivity|]). pose proof (wl_c_pos s1 s2 beta Hb) as C.
  unfold tsc. replace (2 * beta ^ 2 + s1 ^ 2 + s2 ^ 2) with (s1 ^ 2 + s2 ^ 2 + 2 * beta ^ 2) by ring. set (c := sqrt _) in *. rewrite wlp_sg by lra.
  assert (Z : 0 < (m1 - m2) / c) by (apply Rdiv_lt_0_compat; lra). pose proof (cdf_sg _ Z). pose proof (sg_lt _ _ Z) as L. rewrite sg_half in L. pose proof (sg_range ((m1 - m2) / c)).
  pose proof (Phi_range ((m1 - m2) / c)). pose proof (Phi_pos_ge ((m1 - m2) / c) ltac:(lra)). lra.
Qed.
