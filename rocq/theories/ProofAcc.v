(** Accuracy of the Glicko formulas in double precision. *)
From Coq Require Import ZArith List Bool Reals Lra Lia Psatz.
From Flocq Require Import Core.Core IEEE754.BinarySingleNaN.
From Verif Require Import Arith XR B64 ModelLib ModelGlicko Spec SpecB64 SpecAcc Tac MathB64 ProofB64 ProofB64b ProofB64c MathB64b ProofB64d MathAcc ProofBoost2.
Import ListNotations.
Local Open Scope R_scope.

Lemma okB B : / 10 ^ 30 <= B <= 10 ^ 30 -> / 10 ^ 200 <= B <= 10 ^ 200.
Proof.
  intros H. assert (10 ^ 30 <= 10 ^ 200) by (apply Rle_pow; [lra|lia]). assert (/ 10 ^ 200 <= / 10 ^ 30) by (apply Rinv_le_contravar; [apply pow_lt; lra|auto]). lra.
Qed.
Ltac okb := apply okB; lra.
Ltac ulra := unfold u0 in *; lra.
Ltac bd := first [apply Rabs_le; lra | rewrite Rabs_pos_eq by lra; lra].

(** ** ln 10 / 400 *)
Lemma gq_rng : 0.00575 <= gq <= 0.00576.
Proof. unfold gq. pose proof ln10_close. lra. Qed.
Lemma i50 : / 2 ^ 50 <= / 10 ^ 15. Proof. lra. Qed.
Lemma q_ap L : ln10_accurate L -> ap (gl_q (A := B64A L)) gq (8 / 10 ^ 18).
Proof.
  intros [F A]. pose proof ln10_close as LN. assert (H : ap (l_ln L (b64_of_Z 10)) (ln 10) (2.31 / 10 ^ 15)).
  { split; [exact F|]. rewrite (ext_fin _ F). eapply Rle_trans; [exact A|]. pose proof i50. nra. }
  pose proof (ap_Z 400 ltac:(vm_compute; discriminate)) as H4.
  pose proof (ap_div _ _ _ _ _ _ 400 0.006 0.01 H H4 ltac:(lra) ltac:(rewrite Rabs_pos_eq; lra) ltac:(bd) ltac:(lra) ltac:(okb)) as D.
  apply (ap_weak _ _ _ (8 / 10 ^ 18)) in D; [exact D|ulra].
Qed.
(** Steps of the analysis: weaken to a round error bound. *)
Ltac step T d := let H := fresh "S" in pose proof T as H; apply (ap_weak _ _ _ d) in H; [|ulra].

Lemma PI_15 : 3.141592653589793 < PI < 3.1415926535897937.
Proof.
  pose proof (PI_2_3_7_ineq 8) as [L U]. unfold tg_alt, PI_2_3_7_tg, Ratan_seq in L, U. cbn -[pow] in L, U. split; lra.
Qed.
Lemma pi_ap L : ap (fpi (Arith := B64A L)) PI (/ 10 ^ 15).
Proof.
  change (fpi (Arith := B64A L)) with (b64 884279719003555 (-48)). destruct (ext_b64 884279719003555 (-48)) as [N E].
  assert (EF : ext (b64 884279719003555 (-48)) = 884279719003555 / 2 ^ 48).
  { rewrite E. rewrite rnd_id.
    - unfold F2R. simpl Fnum. simpl Fexp. change (-48)%Z with (- Z.of_nat 48)%Z. rewrite bpow_nat. reflexivity.
    - apply generic_format_F2R. intros _. unfold cexp. simpl Fexp. rewrite (mag_F2R_Zdigits radix2 884279719003555 (-48)) by discriminate. vm_compute. discriminate.
    - unfold F2R. simpl Fnum. simpl Fexp. change (-48)%Z with (- Z.of_nat 48)%Z. rewrite bpow_nat. rewrite Rabs_pos_eq by lra.
      apply Rle_trans with (bpow radix2 10); [simpl; lra|]. apply bpow_le. lia. }
  split; [apply fin_iff; [exact N|]|].
  - rewrite EF. rewrite Rabs_pos_eq by lra. apply Rle_lt_trans with (bpow radix2 10); [simpl; lra|]. apply bpow_lt. lia.
  - rewrite EF. pose proof PI_15 as P. apply Rabs_le. lra.
Qed.

Lemma gg_rng RD : 0 <= RD <= 500 -> 1 <= 1 + 3 * gq ^ 2 * RD ^ 2 / PI ^ 2 <= 4 /\ / 2 <= gg RD <= 1.
Proof.
  intros H. pose proof gq_rng as Q. pose proof PI_15 as P. assert (P2 : 9.8 <= PI ^ 2) by nra. assert (Q2 : 0 <= gq ^ 2 <= 0.0000332) by nra.
  assert (R2 : 0 <= RD ^ 2 <= 250000) by nra. assert (I : 0 < / PI ^ 2 <= / 9.8) by (split; [apply Rinv_0_lt_compat; lra|apply Rinv_le_contravar; lra]).
  assert (QR : 0 <= gq ^ 2 * RD ^ 2 <= 0.0000332 * 250000) by (split; [apply Rmult_le_pos; lra|apply Rmult_le_compat; lra]).
  assert (A : 1 <= 1 + 3 * gq ^ 2 * RD ^ 2 / PI ^ 2 <= 4).
  { unfold Rdiv. assert (0 <= 3 * gq ^ 2 * RD ^ 2 * / PI ^ 2 <= 25 * / 9.8); [|lra]. rewrite (Rmult_assoc 3). split; [apply Rmult_le_pos; lra|apply Rmult_le_compat; lra]. }
  split; auto. unfold gg. set (a := 1 + _) in *. assert (S : 1 <= sqrt a <= 2).
  { split; [rewrite <- sqrt_1 at 1; apply sqrt_le_1; lra|]. replace 2 with (sqrt 4) by (replace 4 with (2 ^ 2) by lra; apply sqrt_pow2; lra). apply sqrt_le_1; lra. }
  split; [apply Rinv_le_contravar; lra|]. rewrite <- Rinv_1. apply Rinv_le_contravar; lra.
Qed.
Lemma g_ap L rd RD d : ln10_accurate L -> ap rd RD d -> 0 <= RD <= 500 -> d <= 15 / 10 ^ 13 -> ap (gl_g_value (A := B64A L) (gl_q (A := B64A L)) rd) (gg RD) (4 / 10 ^ 14).
Proof.
  intros HL HR R D. pose proof (q_ap L HL) as Q. pose proof gq_rng as GR. pose proof (pi_ap L) as P. pose proof PI_15 as PR. pose proof (ap_nonneg _ _ _ HR) as D0.
  pose proof (gg_rng RD R) as [GA GG]. assert (Q2 : 0 <= gq * gq <= 0.0000332) by nra. assert (R2 : 0 <= RD * RD <= 250000) by nra. assert (P2 : 9.8 <= PI * PI <= 9.9) by nra.
  assert (QR : 0 <= (3 * (gq * gq)) * (RD * RD) <= 25) by (split; [apply Rmult_le_pos; lra|apply Rle_trans with (0.0001 * 250000); [apply Rmult_le_compat; lra|lra]]).
  step (ap_mul _ _ _ _ _ _ 0.00576 0.00576 0.00004 Q Q ltac:(bd) ltac:(bd) ltac:(lra) ltac:(okb)) (11 / 10 ^ 20).
  step (ap_mul _ _ _ _ _ _ 3 0.0000332 0.0001 (ap_Z 3 ltac:(vm_compute; discriminate)) S ltac:(bd) ltac:(bd) ltac:(lra) ltac:(okb)) (35 / 10 ^ 20).
  step (ap_mul _ _ _ _ _ _ 500 500 250001 HR HR ltac:(bd) ltac:(bd) ltac:(nra) ltac:(okb)) (1000 * d + d * d + u0 * 250001).
  assert (DD : 1000 * d + d * d + u0 * 250001 <= 16 / 10 ^ 10) by (unfold u0; nra). apply (ap_weak _ _ _ _ S1) in DD. clear S1 D D0 HR.
  step (ap_mul _ _ _ _ _ _ 0.0001 250000 26 S0 DD ltac:(bd) ltac:(bd) ltac:(lra) ltac:(okb)) (26 / 10 ^ 14).
  step (ap_mul _ _ _ _ _ _ 3.15 3.15 10 P P ltac:(bd) ltac:(bd) ltac:(lra) ltac:(okb)) (8 / 10 ^ 15).
  assert (QQ : 0 <= 3 * (gq * gq) * (RD * RD) / (PI * PI) <= 2.6).
  { assert (I : 0 < / (PI * PI) <= / 9.8) by (split; [apply Rinv_0_lt_compat; lra|apply Rinv_le_contravar; lra]). unfold Rdiv. split; [apply Rmult_le_pos; lra|].
    apply Rle_trans with (25 * / 9.8); [apply Rmult_le_compat; lra|lra]. }
  step (ap_div _ _ _ _ _ _ 9.7 2.6 3 S1 S2 ltac:(lra) ltac:(rewrite Rabs_pos_eq; lra) ltac:(bd) ltac:(lra) ltac:(okb)) (3 / 10 ^ 14).
  step (ap_add _ _ _ _ _ _ 5 (ap_Z 1 ltac:(vm_compute; discriminate)) S3 ltac:(rewrite Rabs_pos_eq; lra) ltac:(okb)) (31 / 10 ^ 15).
  assert (EA : 1 + 3 * (gq * gq) * (RD * RD) / (PI * PI) = 1 + 3 * gq ^ 2 * RD ^ 2 / PI ^ 2) by (unfold Rdiv; f_equal; simpl; rewrite !Rmult_1_r; reflexivity).
  rewrite EA in S4. set (a := 1 + _) in *. assert (SA : 1 <= sqrt a <= 2).
  { split; [rewrite <- sqrt_1 at 1; apply sqrt_le_1; lra|]. replace 2 with (sqrt 4) by (replace 4 with (2 ^ 2) by lra; apply sqrt_pow2; lra). apply sqrt_le_1; lra. }
  step (ap_sqrt _ _ _ 1 2 3 S4 ltac:(lra) ltac:(lra) ltac:(lra) ltac:(lra) ltac:(lra) ltac:(okb)) (33 / 10 ^ 15).
  assert (IA : 1 / sqrt a = gg RD) by (unfold gg; fold a; unfold Rdiv; ring).
  step (ap_div _ _ _ _ _ _ 0.99 1 1.1 (ap_Z 1 ltac:(vm_compute; discriminate)) S5 ltac:(lra) ltac:(rewrite Rabs_pos_eq; lra) ltac:(rewrite IA; bd) ltac:(lra) ltac:(okb)) (4 / 10 ^ 14).
  rewrite IA in S6. exact S6.
Qed.

(** ** The logistic function *)
Lemma pow10_close y y' : Rabs (y' - y) <= / 10000 -> Rabs (Rpower 10 y' - Rpower 10 y) <= 2.304 * Rabs (y' - y) * Rpower 10 y.
Proof.
  intro H. replace (Rpower 10 y') with (Rpower 10 y * exp ((y' - y) * ln 10)).
  2:{ unfold Rpower. rewrite <- exp_plus. f_equal. ring. }
  pose proof ln10_close as LN. pose proof (Rpower10_pos y) as P. set (h := y' - y) in *.
  assert (A : Rabs (h * ln 10) <= 2.303 * Rabs h) by (rewrite Rabs_mult, (Rabs_pos_eq (ln 10)) by lra; pose proof (Rabs_pos h); nra).
  pose proof (Rabs_pos h) as HP.
  assert (B : Rabs (exp (h * ln 10) - 1) <= 2.304 * Rabs h).
  { set (t := h * ln 10) in *. assert (T : Rabs t <= 0.0003) by lra. pose proof (exp_ineq1_le t) as E1. pose proof (exp_ineq1_le (- t)) as E2.
    rewrite exp_Ropp in E2. pose proof (exp_pos t) as EP. pose proof (Rabs_le_inv _ _ T) as T'.
    assert (E3 : exp t * (1 - t) <= 1). { apply Rmult_le_reg_l with (/ exp t); [apply Rinv_0_lt_compat; auto|]. rewrite <- Rmult_assoc, Rinv_l by lra. lra. }
    assert (E4 : exp t - 1 <= t + 1.0004 * (t * t)) by nra.
    assert (TT : t * t <= 0.0003 * Rabs t). { replace (t * t) with (Rabs t * Rabs t) by (rewrite <- Rabs_mult; apply Rabs_pos_eq; nra). apply Rmult_le_compat_r; [apply Rabs_pos|lra]. }
    assert (U : t <= Rabs t) by apply Rle_abs. assert (U' : - t <= Rabs t) by (rewrite <- Rabs_Ropp; apply Rle_abs). apply Rabs_le. nra. }
  replace (Rpower 10 y * exp (h * ln 10) - Rpower 10 y) with (Rpower 10 y * (exp (h * ln 10) - 1)) by ring.
  rewrite Rabs_mult, (Rabs_pos_eq (Rpower 10 y)) by lra. rewrite Rmult_comm. apply Rmult_le_compat_r; lra.
Qed.
Lemma recip_close p p' d : 0 < p -> 0 <= d <= / 1000 -> Rabs (p' - p) <= d * p -> Rabs (/ (1 + p') - / (1 + p)) <= d * 0.2505.
Proof.
  intros P D A. apply Rabs_le_inv in A. assert (p' >= 0.999 * p) by nra.
  replace (/ (1 + p') - / (1 + p)) with ((p - p') * (/ (1 + p') * / (1 + p))) by (field; lra).
  assert (I1 : 0 < / (1 + p')) by (apply Rinv_0_lt_compat; lra). assert (I2 : 0 < / (1 + p)) by (apply Rinv_0_lt_compat; lra).
  assert (K : p * (/ (1 + p') * / (1 + p)) <= 0.2505).
  { apply Rmult_le_reg_r with ((1 + p') * (1 + p)); [apply Rmult_lt_0_compat; lra|].
    replace (p * (/ (1 + p') * / (1 + p)) * ((1 + p') * (1 + p))) with p by (field; lra). pose proof (pow2_ge_0 (1 - p)). nra. }
  rewrite Rabs_mult, (Rabs_pos_eq (/ (1 + p') * / (1 + p))) by (apply Rlt_le, Rmult_lt_0_compat; auto).
  apply Rle_trans with (d * p * (/ (1 + p') * / (1 + p))).
  - apply Rmult_le_compat_r; [apply Rlt_le, Rmult_lt_0_compat; auto|]. apply Rabs_le. lra.
  - rewrite Rmult_assoc. apply Rmult_le_compat_l; lra.
Qed.
Lemma log_ap L y ys dy : pow10_accurate L -> ap y ys dy -> dy <= / 10 ^ 5 -> Rabs ys <= 99 ->
  let e := Bdiv mode_NE one64 (Bplus mode_NE one64 (l_pow L (b64_of_Z 10) y)) in
  in01 e /\ ap e (/ (1 + Rpower 10 ys)) (0.58 * dy + / 10 ^ 15).
Proof.
  intros P [F H] D Y e. pose proof (Rabs_pos (ext y - ys)) as D0. pose proof (Rabs_le_inv _ _ Y) as Y'. pose proof (Rabs_le_inv _ _ H) as H'.
  destruct (P y F) as [Fp Ap]; [rewrite <- (ext_fin y F); apply Rabs_le; lra|].
  set (p := l_pow L (b64_of_Z 10) y) in *. rewrite <- (ext_fin y F), <- (ext_fin p Fp) in Ap.
  pose proof (Rpower10_pos (ext y)) as Py. pose proof (Rpower10_pos ys) as Pys. pose proof (pow10_close ys (ext y) ltac:(lra)) as Q. pose proof i50 as I50.
  pose proof (pow10_bound (ext y) ltac:(lra)) as Ub.
  assert (Ap' : Rabs (ext p - Rpower 10 (ext y)) <= / 10 ^ 15 * Rpower 10 (ext y)) by (eapply Rle_trans; [exact Ap|]; apply Rmult_le_compat_r; lra).
  assert (Q' : Rabs (Rpower 10 (ext y) - Rpower 10 ys) <= 2.304 * dy * Rpower 10 ys) by (eapply Rle_trans; [exact Q|]; apply Rmult_le_compat_r; lra).
  assert (DD : 0 <= dy * Rpower 10 ys <= / 10 ^ 5 * Rpower 10 ys) by (split; [apply Rmult_le_pos; lra|apply Rmult_le_compat_r; lra]).
  assert (R : Rabs (ext p - Rpower 10 ys) <= (2.304 * dy + 1.01 / 10 ^ 15) * Rpower 10 ys).
  { apply Rabs_le_inv in Ap', Q'. apply Rabs_le. lra. }
  assert (DS : 0 <= 2.304 * dy + 1.01 / 10 ^ 15 <= / 1000) by lra. pose proof (recip_close _ _ _ Pys DS R) as T.
  assert (P0 : 0 <= ext p) by (apply Rabs_le_inv in R; lra).
  assert (Pb : ext p <= bpow radix2 1001).
  { apply Rabs_le_inv in Ap'. replace (bpow radix2 1001) with (2 * bpow radix2 1000)
      by (change 1001%Z with (1 + 1000)%Z; rewrite bpow_plus; reflexivity). lra. }
  destruct (ext_plus one64 p fin_one64 Fp) as [Ns Es]. rewrite ext_one64 in Es. set (s := Bplus mode_NE one64 p) in *.
  assert (S1 : 1 <= ext s) by (rewrite Es; rewrite <- rnd_1 at 1; apply rnd_le; lra).
  assert (B2 : 1 + ext p <= bpow radix2 1002).
  { replace (bpow radix2 1002) with (2 * bpow radix2 1001)
      by (change 1002%Z with (1 + 1001)%Z; rewrite bpow_plus; reflexivity).
    assert (1 <= bpow radix2 1001) by (apply (bpow_le radix2 0); lia). lra. }
  assert (B1 : bpow radix2 (-1022) <= 1) by (apply (bpow_le radix2 (-1022) 0); lia).
  assert (B3 : bpow radix2 1002 <= bpow radix2 1023) by (apply bpow_le; lia). pose proof u53 as U5.
  assert (S2 : Rabs (ext s - (1 + ext p)) <= u0 * (1 + ext p)).
  { rewrite Es. eapply Rle_trans; [apply rnd_rel; rewrite Rabs_pos_eq by lra; lra|].
    rewrite (Rabs_pos_eq (1 + ext p)) by lra. apply Rmult_le_compat_r; lra. }
  assert (Fs : fin s).
  { apply (fin_le _ 1002); [exact Ns|lia|]. split; [lra|]. rewrite Es. apply rnd_le_pow; [lia|exact B2]. }
  assert (T2 : Rabs (/ ext s - / (1 + ext p)) <= u0).
  { replace (/ ext s - / (1 + ext p)) with ((1 + ext p - ext s) * / (1 + ext p) * / ext s) by (field; lra).
    apply Rabs_le_inv in S2. assert (U0 : 0 < u0) by ulra.
    assert (I1 : 0 < / ext s <= 1) by (split; [apply Rinv_0_lt_compat; lra|rewrite <- Rinv_1; apply Rinv_le_contravar; lra]).
    assert (I2 : - u0 <= (1 + ext p - ext s) * / (1 + ext p) <= u0).
    { split; apply Rmult_le_reg_r with (1 + ext p); try lra; rewrite (Rmult_assoc (1 + ext p - ext s)), Rinv_l by lra; lra. }
    apply Rabs_le. split; nra. }
  destruct (ext_div one64 s fin_one64 Fs ltac:(lra)) as [Ne Ee]. fold e in Ne, Ee. rewrite ext_one64 in Ee.
  unfold Rdiv in Ee. rewrite Rmult_1_l in Ee. assert (I0 : in01 e) by (apply recip_in01; auto). split; [exact I0|].
  split; [apply (in01_inv e I0)|].
  assert (I : 0 < / ext s <= 1) by (split; [apply Rinv_0_lt_compat; lra|rewrite <- Rinv_1; apply Rinv_le_contravar; lra]).
  assert (T3 : Rabs (ext e - / ext s) <= u0 * 1).
  { rewrite Ee. apply rnd_B; [rewrite Rabs_pos_eq by lra; lra|okb]. }
  apply Rabs_le_inv in T, T2, T3. apply Rabs_le. unfold u0 in *. split; lra.
Qed.

(** ** 1/(1/x) *)
Lemma rr_ap x X d H : sp x -> ap x X d -> X + d <= H -> / 10 ^ 50 <= H <= 10 ^ 10 -> ap (Bdiv mode_NE one64 (Bdiv mode_NE one64 x)) X (d + 4 * u0 * H).
Proof.
  intros Sx [Fx Ax] HH HB. pose proof (Rabs_le_inv _ _ Ax) as Ax'. pose proof (sp_ge0 x Sx) as X0. pose proof (ap_exact one64 1 fin_one64 ext_one64) as A1.
  assert (One : 0 < ext one64) by (rewrite ext_one64; lra). assert (U0 : 0 < u0 < / 10 ^ 10) by ulra.
  assert (G : ap (Bdiv mode_NE one64 (Bdiv mode_NE one64 x)) (ext x) (4 * u0 * H)).
  { destruct (Rle_dec (/ 10 ^ 100) (ext x)) as [L|L].
    - set (Y := ext x) in *. assert (Y0 : 0 < Y) by (apply Rlt_le_trans with (2 := L); apply Rinv_0_lt_compat, pow_lt; lra).
      assert (IY : 0 < / Y) by (apply Rinv_0_lt_compat; auto). assert (IY1 : / Y <= 10 ^ 100) by (rewrite <- (Rinv_inv (10 ^ 100)); apply Rinv_le_contravar; auto; apply Rinv_0_lt_compat, pow_lt; lra).
      assert (IY2 : / 10 ^ 12 <= / Y) by (apply Rinv_le_contravar; auto; lra).
      assert (P100 : 10 ^ 100 <= 10 ^ 200 / 2). { apply Rmult_le_reg_r with 2; [lra|]. unfold Rdiv. rewrite Rmult_assoc, Rinv_l, Rmult_1_r by lra. replace 200%nat with (100 + 100)%nat by reflexivity. rewrite pow_add. apply Rmult_le_compat_l; [apply pow_le; lra|]. apply Rle_trans with (10 ^ 1); [lra|apply Rle_pow; [lra|lia]]. }
      assert (N12 : / 10 ^ 200 <= / 10 ^ 12) by (apply Rinv_le_contravar; [apply pow_lt; lra|apply Rle_pow; [lra|lia]]).
      pose proof (ap_div _ _ 1 Y 0 0 Y (/ Y) (/ Y) A1 (ap_self x Fx) Y0) as D1. unfold Y in D1 at 1. fold Y in D1.
      assert (D1' : ap (Bdiv mode_NE one64 x) (/ Y) (u0 * / Y)).
      { apply (ap_weak _ _ ((0 + / Y * 0) / Y + u0 * / Y)); [|right; field; lra]. apply (ap_eq _ (1 / Y)); [|unfold Rdiv; ring]. apply D1.
        - rewrite Rabs_pos_eq; lra.
        - unfold Rdiv. rewrite Rmult_1_l, Rabs_pos_eq; lra.
        - right. field. lra.
        - lra. }
      pose proof (ap_div _ _ 1 (/ Y) 0 (u0 * / Y) (9 / 10 * / Y) Y (2 * Y) A1 D1') as D2.
      apply (ap_weak _ _ ((0 + Y * (u0 * / Y)) / (9 / 10 * / Y) + u0 * (2 * Y))).
      + apply (ap_eq _ (1 / / Y)); [|field; lra]. apply D2.
        * lra.
        * rewrite Rabs_pos_eq by lra. assert (u0 * / Y <= 1 / 10 * / Y) by (apply Rmult_le_compat_r; lra). lra.
        * right. rewrite Rabs_pos_eq; [field; lra|]. unfold Rdiv. rewrite Rinv_inv. lra.
        * replace ((0 + Y * (u0 * / Y)) / (9 / 10 * / Y)) with (u0 / (9 / 10) * Y) by (field; lra). assert (u0 / (9 / 10) * Y <= 1 * Y) by (apply Rmult_le_compat_r; lra). lra.
        * split.
          { apply Rle_trans with (/ 10 ^ 100); [apply Rinv_le_contravar; [apply pow_lt; lra|apply Rle_pow; [lra|lia]]|lra]. }
          { apply Rle_trans with (10 ^ 12); [lra|apply Rle_pow; [lra|lia]]. }
      + replace ((0 + Y * (u0 * / Y)) / (9 / 10 * / Y)) with (u0 / (9 / 10) * Y) by (field; lra). assert (u0 * Y <= u0 * H) by (apply Rmult_le_compat_l; lra). replace (u0 / (9 / 10) * Y) with (10 / 9 * (u0 * Y)) by field. assert (0 <= u0 * Y) by (apply Rmult_le_pos; lra). lra.
    - assert (P1 : 0 < / 10 ^ 100) by (apply Rinv_0_lt_compat, pow_lt; lra). assert (P2 : 10 ^ 2 < 10 ^ 100) by (apply Rlt_pow; [lra|lia]).
      assert (HM : 10 ^ 300 <= M64) by (apply Rle_trans with (1 := hi_bnd); apply bpow_le; lia). assert (P3 : 10 ^ 100 <= 10 ^ 300) by (apply Rle_pow; [lra|lia]).
      assert (L1 : / 10 ^ 100 <= 1) by (rewrite <- Rinv_1; apply Rinv_le_contravar; lra).
      destruct (sp_div one64 x one_sp fin_one64 One Sx) as [Sw [_ Lw]]. specialize (Lw (/ 10 ^ 100) ltac:(split; lra) ltac:(lra)). rewrite ext_one64 in Lw.
      unfold Rdiv in Lw. rewrite Rinv_inv, Rmult_1_l in Lw. set (w := Bdiv mode_NE one64 x) in *.
      assert (P4 : 10 ^ 100 <= 10 ^ 200) by (apply Rle_pow; [lra|lia]). assert (P5 : / 10 ^ 200 <= 10 ^ 100) by (apply Rle_trans with 1; [rewrite <- Rinv_1; apply Rinv_le_contravar; lra|lra]).
      pose proof (rnd_B (10 ^ 100) (10 ^ 100) ltac:(rewrite Rabs_pos_eq; lra) ltac:(lra)) as RB. apply Rabs_le_inv in RB.
      assert (W1 : 10 ^ 99 <= ext w). { assert (u0 * 10 ^ 100 <= 1 / 10 * 10 ^ 100) by (apply Rmult_le_compat_r; lra). assert (10 ^ 100 = 10 * 10 ^ 99) by reflexivity. pose proof (pow_lt 10 99 ltac:(lra)). lra. }
      assert (P9 : 0 < 10 ^ 99) by (apply pow_lt; lra). destruct (sp_div one64 w one_sp fin_one64 One Sw) as [Sv [Uv _]]. specialize (Uv (10 ^ 99) ltac:(split; lra)).
      rewrite ext_one64 in Uv. unfold Rdiv in Uv. rewrite Rmult_1_l in Uv. pose proof (sp_ge0 _ Sv) as V0. set (v := Bdiv mode_NE one64 w) in *.
      assert (I9 : 0 < / 10 ^ 99) by (apply Rinv_0_lt_compat; auto). assert (I9' : / 10 ^ 200 <= / 10 ^ 99) by (apply Rinv_le_contravar; [auto|apply Rle_pow; [lra|lia]]).
      assert (I1 : / 10 ^ 99 <= 1) by (rewrite <- Rinv_1; apply Rinv_le_contravar; [lra|]; apply Rle_trans with (10 ^ 2); [lra|apply Rle_pow; [lra|lia]]).
      pose proof (rnd_B (/ 10 ^ 99) (/ 10 ^ 99) ltac:(rewrite Rabs_pos_eq; lra) ltac:(lra)) as RB2. apply Rabs_le_inv in RB2.
      assert (V1 : ext v <= 2 * / 10 ^ 99). { assert (u0 * / 10 ^ 99 <= 1 * / 10 ^ 99) by (apply Rmult_le_compat_r; lra). lra. }
      assert (E99 : / 10 ^ 100 <= / 10 ^ 99) by (apply Rinv_le_contravar; [auto|apply Rle_pow; [lra|lia]]).
      split; [apply (fin_le _ 10); [apply Sv|lia|]; split; [auto|]; apply Rle_trans with 2; [lra|simpl; lra]|].
      apply Rle_trans with (4 * u0 * / 10 ^ 50); [|apply Rmult_le_compat_l; lra]. apply Rle_trans with (2 * / 10 ^ 99); [apply Rabs_le; lra|].
      replace 99%nat with (49 + 50)%nat by reflexivity. rewrite pow_add, Rinv_mult, <- Rmult_assoc. apply Rmult_le_compat_r; [apply Rlt_le, Rinv_0_lt_compat, pow_lt; lra|]. ulra. }
  destruct G as [Fv G]. split; auto. replace (ext _ - X) with ((ext (Bdiv mode_NE one64 (Bdiv mode_NE one64 x)) - ext x) + (ext x - X)) by ring. eapply Rle_trans; [apply Rabs_triang|]. lra.
Qed.

(** ** Expected scores *)
Lemma gE_01 r rj RD : 0 < gE r rj RD < 1.
Proof.
  unfold gE. set (p := Rpower 10 _). assert (P : 0 < p) by apply Rpower10_pos. split; [apply Rinv_0_lt_compat; lra|]. rewrite <- Rinv_1. apply Rinv_lt_contravar; lra.
Qed.
Lemma e_ap_d L d2 r1 r2 R1 R2 RD d : pow10_accurate L -> ln10_accurate L -> ap r1 R1 0 -> ap r2 R2 0 -> ap d2 RD d -> d <= 15 / 10 ^ 13 ->
  Rabs R1 <= 10 ^ 4 -> Rabs R2 <= 10 ^ 4 -> 0 <= RD <= 500 -> in01 (eB L d2 r1 r2) /\ ap (eB L d2 r1 r2) (gE R1 R2 RD) (12 / 10 ^ 13).
Proof.
  intros HP HL A1 A2 AD Hd B1 B2 BD. pose proof (g_ap L d2 RD d HL AD BD Hd) as G. change (gl_g_value (A := B64A L) (gl_q (A := B64A L)) d2) with (gB (qB L) d2) in G.
  destruct (gg_rng RD BD) as [_ GR]. apply Rabs_le_inv in B1, B2.
  step (ap_sub _ _ _ _ _ _ 20000 A1 A2 ltac:(rewrite !Rplus_0_r; apply Rabs_le; lra) ltac:(okb)) (24 / 10 ^ 13).
  pose proof (ap_opp _ _ _ G) as G'.
  step (ap_mul _ _ _ _ _ _ 1 20000 20001 G' S ltac:(apply Rabs_le; lra) ltac:(apply Rabs_le; lra) ltac:(lra) ltac:(okb)) (8050 / 10 ^ 13).
  assert (Bt : Rabs (- gg RD * (R1 - R2)) <= 20000). { rewrite Rabs_mult. apply Rle_trans with (1 * 20000); [|lra]. apply Rmult_le_compat; try apply Rabs_pos; apply Rabs_le; lra. }
  assert (By : Rabs (- gg RD * (R1 - R2) / 400) <= 50). { unfold Rdiv. rewrite Rabs_mult, (Rabs_pos_eq (/ 400)) by lra. lra. }
  step (ap_div _ _ _ _ _ _ 400 50 51 S0 (ap_Z 400 ltac:(vm_compute; discriminate)) ltac:(lra) ltac:(rewrite Rabs_pos_eq; lra) ltac:(lra) ltac:(lra) ltac:(okb)) (2030 / 10 ^ 15).
  destruct (log_ap L _ _ _ HP S1 ltac:(lra) ltac:(lra)) as [I E]. split; [exact I|]. apply (ap_weak _ _ _ (12 / 10 ^ 13)) in E; [exact E|lra].
Qed.
Lemma e_ap L d2 r1 r2 R1 R2 RD : pow10_accurate L -> ln10_accurate L -> ap r1 R1 0 -> ap r2 R2 0 -> ap d2 RD 0 ->
  Rabs R1 <= 10 ^ 4 -> Rabs R2 <= 10 ^ 4 -> 0 <= RD <= 500 -> in01 (eB L d2 r1 r2) /\ ap (eB L d2 r1 r2) (gE R1 R2 RD) (12 / 10 ^ 13).
Proof. intros. apply e_ap_d with (d := 0); auto. lra. Qed.
(** ** Sums *)
Lemma fsum_ap_acc (X : Type) (L : Libm) (f : X -> B64) (F : X -> R) d l : 0 <= d <= / 10 ^ 6 ->
  Forall (fun x => ap (f x) (F x) d /\ Rabs (F x) <= 1) l ->
  forall acc s (n : nat), ap acc s (INR n * (d + u0 * 1001)) -> Rabs s <= INR n -> (n + length l <= 1000)%nat ->
  ap (fold_left (Bplus mode_NE) (map f l) acc) (s + Rsum (map F l)) (INR (n + length l) * (d + u0 * 1001)) /\ Rabs (s + Rsum (map F l)) <= INR (n + length l).
Proof.
  intros D. induction l as [|x l IH]; intros HF acc s n A Bs Hn; simpl.
  - rewrite Nat.add_0_r, Rplus_0_r. auto.
  - inversion HF as [|? ? [Ax Bx] Hl]; subst. simpl in Hn.
    assert (HN : INR (S n) <= 1000) by (replace 1000 with (INR 1000) by (rewrite INR_IZR_INZ; reflexivity); apply le_INR; lia). rewrite S_INR in HN. pose proof (pos_INR n) as N0.
    assert (B : Rabs (s + F x) <= INR (S n)) by (rewrite S_INR; eapply Rle_trans; [apply Rabs_triang|]; lra). rewrite S_INR in B.
    assert (E : INR n * (d + u0 * 1001) <= 1000 * (/ 10 ^ 6 + / 10 ^ 12)) by (apply Rmult_le_compat; ulra).
    pose proof (ap_add _ _ _ _ _ _ 1001 A Ax ltac:(lra) ltac:(okb)) as P.
    apply (ap_weak _ _ _ (INR (S n) * (d + u0 * 1001))) in P; [|rewrite S_INR; lra].
    destruct (IH Hl _ _ (S n) P ltac:(rewrite S_INR; lra) ltac:(lia)) as [G1 G2].
    replace (n + S (length l))%nat with (S n + length l)%nat by lia. rewrite <- Rplus_assoc. split; assumption.
Qed.
Lemma fsum_ap (X : Type) (L : Libm) (f : X -> B64) (F : X -> R) d l : 0 <= d <= / 10 ^ 6 ->
  Forall (fun x => ap (f x) (F x) d /\ Rabs (F x) <= 1) l -> (length l <= 1000)%nat ->
  ap (fsum (A := B64A L) (map f l)) (Rsum (map F l)) (INR (length l) * (d + u0 * 1001)) /\ Rabs (Rsum (map F l)) <= INR (length l).
Proof.
  intros D HF Hn. pose proof (fsum_ap_acc X L f F d l D HF (B754_zero true) 0 0%nat) as H. rewrite !Rplus_0_l in H. apply H.
  - split; [reflexivity|]. simpl. rewrite Rminus_0_r, Rabs_R0. lra.
  - rewrite Rabs_R0. simpl. lra.
  - exact Hn.
Qed.

(** ** The common end of a game and a period *)
Lemma hyp_ap L d c RD C : hypot_accurate L -> ap d RD 0 -> ap c C 0 -> 1 <= RD <= 350 -> 0 <= C <= 1000 ->
  ap (b64_min (l_hypot L d c) (b64_of_Z 350)) (gpre RD C) (/ 10 ^ 15 * gpre RD C) /\ 1 <= gpre RD C <= 350.
Proof.
  intros H [Fd Ad] [Fc Ac] BD BC. assert (Ed : ext d = RD) by (pose proof (Rabs_pos (ext d - RD)); apply Rabs_le_inv in Ad; lra).
  assert (Ec : ext c = C) by (pose proof (Rabs_pos (ext c - C)); apply Rabs_le_inv in Ac; lra).
  destruct (H d c Fd Fc) as [Fh Ah]; [rewrite <- (ext_fin d Fd), Ed, Rabs_pos_eq; lra|rewrite <- (ext_fin c Fc), Ec, Rabs_pos_eq; lra|].
  rewrite <- (ext_fin _ Fh), <- (ext_fin d Fd), <- (ext_fin c Fc), Ed, Ec in Ah. unfold gpre. set (h := sqrt (RD ^ 2 + C ^ 2)) in *.
  assert (H1 : 1 <= h). { unfold h. rewrite <- sqrt_1 at 1. apply sqrt_le_1; nra. }
  pose proof i50 as I. assert (Ah' : Rabs (ext (l_hypot L d c) - h) <= / 10 ^ 15 * h) by (eapply Rle_trans; [exact Ah|]; apply Rmult_le_compat_r; lra).
  apply Rabs_le_inv in Ah'. set (x := l_hypot L d c) in *. destruct (ap_Z 350 ltac:(vm_compute; discriminate)) as [F3 A3].
  assert (E3 : ext (b64_of_Z 350) = 350) by (pose proof (Rabs_pos (ext (b64_of_Z 350) - 350)); apply Rabs_le_inv in A3; lra). clear A3.
  split; [|split; [apply Rmin_glb; lra|apply Rmin_r]].
  assert (Nx : is_nan x = false) by (apply fin_nn, Fh). unfold b64_min. rewrite Nx. change (is_nan (b64_of_Z 350)) with false. cbv iota.
  destruct (Bleb x (b64_of_Z 350)) eqn:LE.
  - split; [exact Fh|]. apply le_Bleb in LE. destruct LE as [_ [_ LE]]. rewrite E3 in LE. unfold Rmin. destruct (Rle_dec h 350); apply Rabs_le; lra.
  - split; [exact F3|]. rewrite E3. assert (GT : 350 < ext x).
    { destruct (Rlt_le_dec 350 (ext x)) as [?|LT]; auto. exfalso. rewrite <- E3 in LT. apply (le64_iff x (b64_of_Z 350) Nx (fin_nn _ F3)) in LT. unfold le64 in LT. congruence. }
    unfold Rmin. destruct (Rle_dec h 350); apply Rabs_le; lra.
Qed.
Lemma J_ap pre v P V n : ap pre P (/ 10 ^ 15 * P) -> 1 <= P <= 350 -> ap v V (n * (92 / 10 ^ 18)) -> 0 <= V <= n -> 1 <= n <= 1000 ->
  ap (sB pre v) (/ P ^ 2 + V) (n * (114 / 10 ^ 13) * (/ P ^ 2 + V)) /\ / 122500 <= / P ^ 2 + V <= 1001.
Proof.
  intros AP BP AV BV Bn. set (p := P * P). assert (Bp : 1 <= p <= 122500) by (unfold p; nra). assert (U0 : 0 < u0 <= 12 / 10 ^ 17) by ulra.
  assert (EP : / P ^ 2 = / p) by (unfold p; f_equal; ring). rewrite EP. assert (Ip : / 122500 <= / p <= 1) by (split; [apply Rinv_le_contravar; lra|rewrite <- Rinv_1; apply Rinv_le_contravar; lra]).
  assert (up : 0 <= u0 * p <= 12 / 10 ^ 17 * p) by (split; [apply Rmult_le_pos; lra|apply Rmult_le_compat_r; lra]).
  pose proof (ap_mul _ _ _ _ _ _ P P (p * 1.01) AP AP ltac:(rewrite Rabs_pos_eq; lra) ltac:(rewrite Rabs_pos_eq; lra) ltac:(fold p; replace (P * (/ 10 ^ 15 * P)) with (/ 10 ^ 15 * p) by (unfold p; ring); replace (/ 10 ^ 15 * P * (/ 10 ^ 15 * P)) with (/ 10 ^ 15 * / 10 ^ 15 * p) by (unfold p; ring); lra) ltac:(okb)) as A2.
  fold p in A2. apply (ap_weak _ _ _ (22 / 10 ^ 16 * p)) in A2.
  2:{ replace (P * (/ 10 ^ 15 * P)) with (/ 10 ^ 15 * p) by (unfold p; ring); replace (/ 10 ^ 15 * P * (/ 10 ^ 15 * P)) with (/ 10 ^ 15 * / 10 ^ 15 * p) by (unfold p; ring). lra. }
  assert (Ev : (0 + / p * (22 / 10 ^ 16 * p)) / (99 / 100 * p) = 22 / 10 ^ 16 * (100 / 99) * / p) by (field; lra).
  assert (uq : 0 <= u0 * / p <= 12 / 10 ^ 17 * / p) by (split; [apply Rmult_le_pos; lra|apply Rmult_le_compat_r; lra]).
  pose proof (ap_div _ _ 1 p 0 (22 / 10 ^ 16 * p) (99 / 100 * p) (/ p) (1.01 * / p) (ap_exact one64 1 fin_one64 ext_one64) A2 ltac:(lra) ltac:(rewrite Rabs_pos_eq; lra)
    ltac:(unfold Rdiv; rewrite Rmult_1_l, Rabs_pos_eq; lra) ltac:(rewrite Ev; lra) ltac:(okb)) as A3. rewrite Ev in A3.
  apply (ap_weak _ _ _ (24 / 10 ^ 16 * / p)) in A3; [|lra]. apply (ap_eq _ _ (/ p)) in A3; [|unfold Rdiv; ring].
  set (J := / p + V) in *. assert (BJ : / 122500 <= J <= 1001) by (unfold J; lra). split; [|exact BJ].
  assert (uJ : 0 <= u0 * J <= 12 / 10 ^ 17 * J) by (split; [apply Rmult_le_pos; lra|apply Rmult_le_compat_r; lra]).
  assert (nJ : n * / 122500 <= n * J) by (apply Rmult_le_compat_l; lra). assert (nJ2 : J <= n * J) by (rewrite <- (Rmult_1_l J) at 1; apply Rmult_le_compat_r; lra).
  assert (IJ : / p <= J) by (unfold J; lra).
  pose proof (ap_add _ _ _ _ _ _ (1.01 * J) A3 AV ltac:(fold J; rewrite (Rabs_pos_eq J) by lra; lra) ltac:(okb)) as A4. fold J in A4.
  apply (ap_weak _ _ _ (n * (114 / 10 ^ 13) * J)) in A4; [exact A4|]. lra.
Qed.
Lemma K_ap L s J n : ln10_accurate L -> ap s J (n * (114 / 10 ^ 13) * J) -> / 122500 <= J <= 1001 -> 1 <= n <= 1000 ->
  ap (Bdiv mode_NE (qB L) s) (gq / J) (n * (82 / 10 ^ 10)) /\ 0 < gq / J <= 706 /\
  ap (Bsqrt mode_NE (Bdiv mode_NE one64 s)) (sqrt (/ J)) (n * (5 / 10 ^ 9)).
Proof.
  intros HL AJ BJ Bn. pose proof (q_ap L HL) as Q. change (gl_q (A := B64A L)) with (qB L) in Q. pose proof gq_rng as GR. assert (U0 : 0 < u0 <= 12 / 10 ^ 17) by ulra.
  assert (IJ : / 1001 <= / J <= 122500). { split; [apply Rinv_le_contravar; lra|]. rewrite <- (Rinv_inv 122500). apply Rinv_le_contravar; lra. }
  assert (BK : 0 < gq / J <= 706). { unfold Rdiv. split; [apply Rmult_lt_0_compat; lra|]. apply Rle_trans with (0.00576 * 122500); [apply Rmult_le_compat; lra|lra]. }
  assert (EK : 5 / 10 ^ 6 <= gq / J). { unfold Rdiv. apply Rle_trans with (0.00575 * / 1001); [lra|apply Rmult_le_compat; lra]. }
  set (k := gq / J) in *. assert (nJ : 0 <= n * J <= 1000 * J) by (split; [apply Rmult_le_pos; lra|apply Rmult_le_compat_r; lra]).
  assert (nk : 0 <= n * k <= 1000 * k) by (split; [apply Rmult_le_pos; lra|apply Rmult_le_compat_r; lra]). assert (nk2 : n * k <= n * 706) by (apply Rmult_le_compat_l; lra).
  assert (uk : 0 <= u0 * k <= 12 / 10 ^ 17 * k) by (split; [apply Rmult_le_pos; lra|apply Rmult_le_compat_r; lra]).
  assert (Ev : (8 / 10 ^ 18 + k * (n * (114 / 10 ^ 13) * J)) / (99 / 100 * J) = 8 / 10 ^ 18 * (100 / 99) * / J + n * k * (114 / 10 ^ 13 * (100 / 99))) by (field; lra).
  pose proof (ap_div _ _ _ _ _ _ (99 / 100 * J) k (1.01 * k) Q AJ ltac:(lra) ltac:(rewrite Rabs_pos_eq; lra) ltac:(fold k; rewrite Rabs_pos_eq; lra) ltac:(rewrite Ev; lra) ltac:(okb)) as A1.
  rewrite Ev in A1. fold k in A1. apply (ap_weak _ _ _ (n * (82 / 10 ^ 10))) in A1; [|lra]. split; [exact A1|]. split; [exact BK|].
  set (i := / J) in *. assert (ni : 0 <= n * i <= 1000 * i) by (split; [apply Rmult_le_pos; lra|apply Rmult_le_compat_r; lra]).
  assert (ui : 0 <= u0 * i <= 12 / 10 ^ 17 * i) by (split; [apply Rmult_le_pos; lra|apply Rmult_le_compat_r; lra]).
  assert (Ew : (0 + i * (n * (114 / 10 ^ 13) * J)) / (99 / 100 * J) = n * i * (114 / 10 ^ 13 * (100 / 99))) by (field; lra).
  pose proof (ap_div _ _ 1 J 0 _ (99 / 100 * J) i (1.01 * i) (ap_exact one64 1 fin_one64 ext_one64) AJ ltac:(lra) ltac:(rewrite Rabs_pos_eq; lra) ltac:(unfold Rdiv; rewrite Rmult_1_l; fold i; rewrite Rabs_pos_eq; lra) ltac:(rewrite Ew; lra) ltac:(okb)) as A2.
  rewrite Ew in A2. assert (ii : i <= n * i) by (rewrite <- (Rmult_1_l i) at 1; apply Rmult_le_compat_r; lra). apply (ap_weak _ _ _ (n * i * (117 / 10 ^ 13))) in A2; [|lra]. apply (ap_eq _ _ i) in A2; [|unfold Rdiv, i; ring].
  set (D := sqrt i). assert (DD : D * D = i) by (apply sqrt_sqrt; lra). assert (D0 : 0 < D) by (apply sqrt_lt_R0; lra). assert (BD : 0.03 <= D <= 350) by (split; [apply Rsqr_incr_0_var; unfold Rsqr; lra|apply Rsqr_incr_0_var; unfold Rsqr; lra]).
  assert (Ez : n * i * (117 / 10 ^ 13) / D = n * D * (117 / 10 ^ 13)) by (rewrite <- DD; field; lra).
  assert (nD : 0 <= n * D <= 1000 * D) by (split; [apply Rmult_le_pos; lra|apply Rmult_le_compat_r; lra]). assert (nD2 : n * D <= n * 350) by (apply Rmult_le_compat_l; lra). assert (nD3 : D <= n * D) by (rewrite <- (Rmult_1_l D) at 1; apply Rmult_le_compat_r; lra).
  assert (uD : 0 <= u0 * D <= 12 / 10 ^ 17 * D) by (split; [apply Rmult_le_pos; lra|apply Rmult_le_compat_r; lra]).
  pose proof (ap_sqrt _ _ _ D D (1.01 * D) A2 D0 ltac:(fold D; lra) ltac:(fold D; lra) ltac:(lra) ltac:(rewrite Ez; lra) ltac:(okb)) as A3. rewrite Ez in A3.
  apply (ap_weak _ _ _ (n * (5 / 10 ^ 9))) in A3; [exact A3|lra].
Qed.

Lemma ln10_acc_sane L : ln10_accurate L -> ln10_sane L.
Proof.
  intros [F A]. pose proof ln10_close as LN. pose proof i50 as I. assert (A' : Rabs (B2R (l_ln L (b64_of_Z 10)) - ln 10) <= / 10 ^ 15 * ln 10) by (eapply Rle_trans; [exact A|]; apply Rmult_le_compat_r; lra).
  apply Rabs_le_inv in A'. split; [exact F|lra].
Qed.

(** ** Games and periods *)
Lemma num_ap lo hi x : num_in lo hi x -> ap x (B2R x) 0 /\ lo <= B2R x <= hi.
Proof. intros [F B]. split; [|exact B]. rewrite <- (ext_fin x F). apply ap_self, F. Qed.
Lemma ap_near x r d : ap x r d -> near x r d.
Proof. intros [F A]. split; [exact F|]. rewrite <- (ext_fin x F). exact A. Qed.
Lemma le1000 R : Rabs R <= 10 ^ 4 -> Rabs R <= bpow radix2 1000.
Proof. intro H. apply Rle_trans with (1 := H). apply Rle_trans with (bpow radix2 20); [simpl; lra|apply bpow_le; lia]. Qed.
Lemma one_minus_ap e E d : ap e E d -> 0 <= E <= 1 -> d <= / 10 ^ 6 -> ap (Bminus mode_NE one64 e) (1 - E) (d + 13 / 10 ^ 17).
Proof.
  intros A B D. pose proof (ap_nonneg _ _ _ A) as D0. pose proof (ap_sub _ _ _ _ _ _ 1.01 (ap_exact one64 1 fin_one64 ext_one64) A ltac:(rewrite Rabs_pos_eq; lra) ltac:(okb)) as H.
  apply (ap_weak _ _ _ (d + 13 / 10 ^ 17)) in H; [exact H|ulra].
Qed.
Lemma pts_minus_ap o s e E d : ap o s 0 -> 0 <= s <= 1 -> ap e E d -> 0 <= E <= 1 -> d <= / 10 ^ 6 -> ap (Bminus mode_NE o e) (s - E) (d + 13 / 10 ^ 17).
Proof.
  intros Ao PR A B D. pose proof (ap_nonneg _ _ _ A) as D0.
  pose proof (ap_sub _ _ _ _ _ _ 1.01 Ao A ltac:(pose proof (Rabs_le (s - E) 1 ltac:(lra)); lra) ltac:(okb)) as H.
  apply (ap_weak _ _ _ (d + 13 / 10 ^ 17)) in H; [exact H|ulra].
Qed.
Lemma qq_ap L : ln10_accurate L -> ap (Bmult mode_NE (qB L) (qB L)) (gq * gq) (11 / 10 ^ 20) /\ 0 <= gq * gq <= 0.0000332.
Proof.
  intro HL. pose proof (q_ap L HL) as Q. pose proof gq_rng as GR. change (gl_q (A := B64A L)) with (qB L) in Q.
  step (ap_mul _ _ _ _ _ _ 0.00576 0.00576 0.00004 Q Q ltac:(bd) ltac:(bd) ltac:(lra) ltac:(okb)) (11 / 10 ^ 20). split; [exact S|]. nra.
Qed.
Lemma gg_ap L d RD : ln10_accurate L -> ap d RD 0 -> 0 <= RD <= 500 ->
  ap (gB (qB L) d) (gg RD) (4 / 10 ^ 14) /\ ap (Bmult mode_NE (gB (qB L) d) (gB (qB L) d)) (gg RD * gg RD) (9 / 10 ^ 14) /\ / 2 <= gg RD <= 1 /\ 0 <= gg RD * gg RD <= 1.
Proof.
  intros HL A B. pose proof (g_ap L d RD 0 HL A B ltac:(lra)) as G. change (gl_g_value (A := B64A L) (gl_q (A := B64A L)) d) with (gB (qB L) d) in G.
  destruct (gg_rng RD B) as [_ GR]. step (ap_mul _ _ _ _ _ _ 1 1 1.01 G G ltac:(bd) ltac:(bd) ltac:(lra) ltac:(okb)) (9 / 10 ^ 14). split; [exact G|]. split; [exact S|]. split; [exact GR|nra].
Qed.
Lemma pq M N d e : 0 <= M <= d -> 0 <= N <= e -> Rabs (M * N) <= d * e.
Proof. intros A B. rewrite Rabs_pos_eq by (apply Rmult_le_pos; lra). apply Rmult_le_compat; lra. Qed.
Lemma glicko_half_ap L r1 d1 r2 d2 c o s : ap o s 0 -> 0 <= s <= 1 -> pow10_nonneg L -> pow10_accurate L -> ln10_accurate L -> hypot_accurate L ->
  num_in (- 10 ^ 4) (10 ^ 4) r1 -> num_in 1 350 d1 -> num_in (- 10 ^ 4) (10 ^ 4) r2 -> num_in 1 350 d2 -> num_in 0 1000 c ->
  let q := qB L in let g := gB q d2 in let e := eB L d2 r1 r2 in
  let v := Bdiv mode_NE one64 (Bdiv mode_NE one64 (xB q g e)) in let pre := b64_min (l_hypot L d1 c) (b64_of_Z 350) in
  let K := Bmult mode_NE (Bdiv mode_NE q (sB pre v)) g in
  let games := [(B2R r2, B2R d2, s)] in
  near (Bfma mode_NE K (Bminus mode_NE o e) r1) (glicko_r (B2R r1) (gpre (B2R d1) (B2R c)) games) (/ 10 ^ 8) /\
  near (Bsqrt mode_NE (Bdiv mode_NE one64 (sB pre v))) (glicko_rd (B2R r1) (gpre (B2R d1) (B2R c)) games) (/ 10 ^ 8).
Proof.
  intros Ao PR HN HP HL HH N1 M1 N2 M2 NC q g e v pre K games. pose proof (proj1 N1) as F1. pose proof (proj1 N2) as F2.
  destruct (num_ap _ _ _ N1) as [A1 B1]. destruct (num_ap _ _ _ N2) as [A2 B2]. destruct (num_ap _ _ _ M1) as [D1 E1]. destruct (num_ap _ _ _ M2) as [D2 E2]. destruct (num_ap _ _ _ NC) as [C1 C2].
  set (R1 := B2R r1) in *. set (R2 := B2R r2) in *. set (RD1 := B2R d1) in *. set (RD2 := B2R d2) in *. set (C := B2R c) in *.
  destruct (e_ap L d2 r1 r2 R1 R2 RD2 HP HL A1 A2 D2 ltac:(apply Rabs_le; lra) ltac:(apply Rabs_le; lra) ltac:(lra)) as [Ie Ae]. fold e in Ie, Ae.
  pose proof (gE_01 R1 R2 RD2) as BE. set (E := gE R1 R2 RD2) in *.
  destruct (gg_ap L d2 RD2 HL D2 ltac:(lra)) as [Ag [Ag2 [Bg Bg2]]]. fold q in Ag, Ag2. fold g in Ag, Ag2. set (G := gg RD2) in *.
  destruct (qq_ap L HL) as [Aq Bq]. fold q in Aq.
  assert (Sx : sp (xB q g e)).
  { destruct (q_ok L (ln10_acc_sane L HL)) as [Fq Bq']. destruct (g_ok (qB L) d2 Fq Bq' (fin_nn _ (proj1 M2))) as [Sg Ig].
    apply x_ok; auto. apply e_ok; auto using ln10_acc_sane; [apply fin_nn, (proj1 M2)|rewrite (ext_fin _ F1)|rewrite (ext_fin _ F2)]; apply le1000, Rabs_le; fold R1; fold R2; lra. }
  pose proof (one_minus_ap e E _ Ae ltac:(lra) ltac:(lra)) as Am. pose proof (pq _ _ _ _ Bq Bg2) as T1.
  step (ap_mul _ _ _ _ _ _ 0.0000332 1 0.00004 Aq Ag2 ltac:(bd) ltac:(bd) ltac:(lra) ltac:(okb)) (32 / 10 ^ 19).
  assert (T2 : 0 <= gq * gq * (G * G) <= 0.0000332) by (split; [apply Rmult_le_pos; lra|apply Rabs_le_inv in T1; lra]).
  step (ap_mul _ _ _ _ _ _ 0.0000332 1 0.00004 S Ae ltac:(bd) ltac:(bd) ltac:(lra) ltac:(okb)) (44 / 10 ^ 18).
  assert (T3 : 0 <= gq * gq * (G * G) * E <= 0.0000332) by (split; [apply Rmult_le_pos; lra|]; apply Rle_trans with (0.0000332 * 1); [apply Rmult_le_compat; lra|lra]).
  step (ap_mul _ _ _ _ _ _ 0.0000332 1 0.00004 S0 Am ltac:(bd) ltac:(bd) ltac:(lra) ltac:(okb)) (85 / 10 ^ 18).
  assert (T4 : 0 <= gq * gq * (G * G) * E * (1 - E) <= 0.0000332) by (split; [apply Rmult_le_pos; lra|]; apply Rle_trans with (0.0000332 * 1); [apply Rmult_le_compat; lra|lra]).
  fold (xB q g e) in S1. pose proof (rr_ap _ _ _ 0.00004 Sx S1 ltac:(lra) ltac:(lra)) as Av. fold v in Av.
  set (V := gq * gq * (G * G) * E * (1 - E)) in *. apply (ap_weak _ _ _ (1 * (92 / 10 ^ 18))) in Av; [|ulra].
  destruct (hyp_ap L d1 c RD1 C HH D1 C1 ltac:(lra) C2) as [Ap Bp]. fold pre in Ap.
  destruct (J_ap pre v _ V 1 Ap Bp Av ltac:(lra) ltac:(lra)) as [AJ BJ].
  destruct (K_ap L _ _ 1 HL AJ BJ ltac:(lra)) as [AK [BK AD]]. fold q in AK.
  assert (EV : gd2inv R1 games = V). { unfold gd2inv, games, V. cbn [map Rsum fold_right]. fold E. fold G. ring. }
  assert (EM : gM R1 games = G * (s - E)). { unfold gM, games. cbn [map Rsum fold_right]. fold E. fold G. ring. }
  unfold glicko_r, glicko_rd. rewrite EV, EM. set (J := / gpre RD1 C ^ 2 + V) in *. split.
  2:{ apply ap_near. apply (ap_weak _ _ _ _ AD). lra. }
  apply ap_near. step (ap_mul _ _ _ _ _ _ 706 1 710 AK Ag ltac:(bd) ltac:(bd) ltac:(lra) ltac:(okb)) (83 / 10 ^ 10).
  fold K in S2. pose proof (pts_minus_ap o s e E _ Ao PR Ae ltac:(lra) ltac:(lra)) as As.
  assert (BKG : 0 <= gq / J * G <= 706) by (split; [apply Rmult_le_pos; lra|]; apply Rle_trans with (706 * 1); [apply Rmult_le_compat; lra|lra]).
  assert (BPR : Rabs (gq / J * G * (s - E)) <= 706). { rewrite Rabs_mult, (Rabs_pos_eq (gq / J * G)) by lra. apply Rle_trans with (706 * 1); [apply Rmult_le_compat; try lra; [apply Rabs_pos|apply Rabs_le; lra]|lra]. }
  step (ap_fma _ _ _ _ _ _ _ _ _ 706 1 11000 S2 As A1 ltac:(bd) ltac:(apply Rabs_le; lra) ltac:(apply Rabs_le_inv in BPR; assert (Rabs (gq / J * G * (s - E) + R1) <= 10706) by (apply Rabs_le; lra); lra) ltac:(okb)) (/ 10 ^ 8).
  apply (ap_eq _ _ _ _ S3). ring.
Qed.
(** the model's helpers, as f64 operations *)
Lemma fold_g L q d : gl_g_value (A := B64A L) q d = gB q d. Proof. reflexivity. Qed.
Lemma fold_e L d r1 r2 : gl_e_value (A := B64A L) (gB (qB L) d) r1 r2 = eB L d r1 r2. Proof. reflexivity. Qed.
Lemma fold_x L q g e : gl_d_value (A := B64A L) q g e = Bdiv mode_NE one64 (xB q g e). Proof. reflexivity. Qed.
Lemma fold_pre L d c : gl_pre_deviation (A := B64A L) d c = b64_min (l_hypot L d c) (b64_of_Z 350). Proof. reflexivity. Qed.
Lemma fold_r L r pre o q g e d : gl_new_rating (A := B64A L) r pre o q g e d = Bfma mode_NE (Bmult mode_NE (Bdiv mode_NE q (sB pre (Bdiv mode_NE one64 d))) g) (Bminus mode_NE o e) r.
Proof. reflexivity. Qed.
Lemma fold_d L pre d : gl_new_deviation (A := B64A L) pre d = Bsqrt mode_NE (Bdiv mode_NE one64 (sB pre (Bdiv mode_NE one64 d))). Proof. reflexivity. Qed.
Lemma C101_glicko_proof : forall (L : Libm) (p1 p2 : GlickoRating B64) (o : Outcomes) (cfg : GlickoConfig B64),
  pow10_nonneg L -> pow10_accurate L -> ln10_accurate L -> hypot_accurate L ->
  num_in (- 10 ^ 4) (10 ^ 4) (gl_rating p1) -> num_in 1 350 (gl_deviation p1) ->
  num_in (- 10 ^ 4) (10 ^ 4) (gl_rating p2) -> num_in 1 350 (gl_deviation p2) -> num_in 0 1000 (gl_c cfg) ->
  let r1 := B2R (gl_rating p1) in let d1 := gpre (B2R (gl_deviation p1)) (B2R (gl_c cfg)) in
  let r2 := B2R (gl_rating p2) in let d2 := gpre (B2R (gl_deviation p2)) (B2R (gl_c cfg)) in
  let games1 := [(r2, B2R (gl_deviation p2), points o)] in let games2 := [(r1, B2R (gl_deviation p1), points (invert o))] in
  let new := glicko (A := B64A L) p1 p2 o cfg in
  near (gl_rating (fst new)) (glicko_r r1 d1 games1) (/ 10 ^ 8) /\ near (gl_deviation (fst new)) (glicko_rd r1 d1 games1) (/ 10 ^ 8) /\
  near (gl_rating (snd new)) (glicko_r r2 d2 games2) (/ 10 ^ 8) /\ near (gl_deviation (snd new)) (glicko_rd r2 d2 games2) (/ 10 ^ 8).
Proof.
  intros L [r1 d1] [r2 d2] o [c] HN HP HL HH N1 M1 N2 M2 NC R1 RD1 R2 RD2 g1 g2 new. cbn in N1, M1, N2, M2, NC.
  destruct (ext_points L o) as [Fp Ep]. destruct (ext_points2 L o) as [Fq Eq]. cbv zeta in Fq, Eq. pose proof (points_range o) as PR.
  destruct (glicko_half_ap L r1 d1 r2 d2 c _ _ (ap_exact _ _ Fp Ep) PR HN HP HL HH N1 M1 N2 M2 NC) as [X1 X2].
  assert (PI' : points (invert o) = 1 - points o) by (destruct o; simpl; lra).
  destruct (glicko_half_ap L r2 d2 r1 d1 c _ _ (ap_exact _ _ Fq Eq) ltac:(lra) HN HP HL HH N2 M2 N1 M1 NC) as [Y1 Y2]. rewrite <- PI' in Y1, Y2.
  unfold new, glicko. cbn [fst snd gl_rating gl_deviation gl_c]. change (gl_q (A := B64A L)) with (qB L). rewrite !fold_g, !fold_e, !fold_x, !fold_pre, !fold_r, !fold_d. split; [exact X1|]. split; [exact X2|]. split; [exact Y1|exact Y2].
Qed.

Definition tB (L : Libm) (r : B64) (x : GlickoRating B64 * Outcomes) : B64 :=
  let g := gB (qB L) (gl_deviation (fst x)) in let e := eB L (gl_deviation (fst x)) r (gl_rating (fst x)) in
  Bmult mode_NE (Bmult mode_NE (Bmult mode_NE g g) e) (Bminus mode_NE one64 e).
Definition mB (L : Libm) (r : B64) (x : GlickoRating B64 * Outcomes) : B64 :=
  let g := gB (qB L) (gl_deviation (fst x)) in let e := eB L (gl_deviation (fst x)) r (gl_rating (fst x)) in
  Bmult mode_NE g (Bminus mode_NE (to_chess_points (A := B64A L) (snd x)) e).
Definition perB (L : Libm) (r d c S m : B64) : GlickoRating B64 :=
  let s := sB (b64_min (l_hypot L d c) (b64_of_Z 350)) (Bdiv mode_NE one64 (Bdiv mode_NE one64 (Bmult mode_NE (Bmult mode_NE (qB L) (qB L)) S))) in
  mkGlicko (Bfma mode_NE (Bdiv mode_NE (qB L) s) m r) (Bsqrt mode_NE (Bdiv mode_NE one64 s)).
Lemma period_B L r d c x l : glicko_rating_period (A := B64A L) (mkGlicko r d) (x :: l) (mkGlickoConfig c) =
  perB L r d c (fsum (A := B64A L) (map (tB L r) (x :: l))) (fsum (A := B64A L) (map (mB L r) (x :: l))).
Proof.
  unfold glicko_rating_period. cbv zeta.
  match goal with |- context [fsum (map ?f (x :: l))] => rewrite (map_ext f (tB L r)) by (intro; reflexivity) end.
  match goal with |- context [ffma _ (fsum (map ?f (x :: l))) _] => rewrite (map_ext f (mB L r)) by (intro; reflexivity) end.
  generalize (fsum (A := B64A L) (map (tB L r) (x :: l))). intro S. generalize (fsum (A := B64A L) (map (mB L r) (x :: l))). intro m. reflexivity.
Qed.
Lemma C101_glicko_period_proof : forall (L : Libm) (p : GlickoRating B64) (rs : list (GlickoRating B64 * Outcomes)) (cfg : GlickoConfig B64),
  pow10_nonneg L -> pow10_accurate L -> ln10_accurate L -> hypot_accurate L ->
  num_in (- 10 ^ 4) (10 ^ 4) (gl_rating p) -> num_in 1 350 (gl_deviation p) -> num_in 0 1000 (gl_c cfg) ->
  Forall (fun r => num_in (- 10 ^ 4) (10 ^ 4) (gl_rating (fst r)) /\ num_in 1 350 (gl_deviation (fst r))) rs ->
  rs <> [] -> (length rs <= 1000)%nat ->
  let r := B2R (gl_rating p) in let d := gpre (B2R (gl_deviation p)) (B2R (gl_c cfg)) in
  let games := map (fun g => (B2R (gl_rating (fst g)), B2R (gl_deviation (fst g)), points (snd g))) rs in
  let n := INR (length rs) in
  let new := glicko_rating_period (A := B64A L) p rs cfg in
  near (gl_rating new) (glicko_r r d games) (n * n / 10 ^ 8) /\ near (gl_deviation new) (glicko_rd r d games) (n / 10 ^ 8).
Proof.
  intros L [r d] rs [c] HN HP HL HH N1 M1 NC Hrs Hne Hlen.
  destruct rs as [|r0 rs0]; [congruence|]. clear Hne. remember (r0 :: rs0) as rs eqn:Ers. intros R1 P games n new.
  cbn [gl_rating gl_deviation gl_c] in *. pose proof (proj1 N1) as F1. 
  assert (Bn : 1 <= n <= 1000). { unfold n. replace 1000 with (INR 1000) by (rewrite INR_IZR_INZ; reflexivity). change 1 with (INR 1). split; apply le_INR; [subst rs; simpl; lia|exact Hlen]. }
  destruct (num_ap _ _ _ N1) as [A1 B1]. destruct (num_ap _ _ _ M1) as [D1 E1]. destruct (num_ap _ _ _ NC) as [C1 C2]. fold R1 in A1, B1. set (RD1 := B2R d) in *. set (C := B2R c) in *.
  set (q := qB L).
  set (gf := fun x : GlickoRating B64 * Outcomes => gB q (gl_deviation (fst x))).
  set (ef := fun x : GlickoRating B64 * Outcomes => eB L (gl_deviation (fst x)) r (gl_rating (fst x))).
  set (GF := fun x : GlickoRating B64 * Outcomes => gg (B2R (gl_deviation (fst x)))).
  set (EF := fun x : GlickoRating B64 * Outcomes => gE R1 (B2R (gl_rating (fst x))) (B2R (gl_deviation (fst x)))).
  set (tf := tB L r).
  set (mf := mB L r).
  set (TF := fun x => GF x * GF x * EF x * (1 - EF x)). set (MF := fun x => GF x * (points (snd x) - EF x)).
  assert (H : Forall (fun x => ((ap (tf x) (TF x) (25 / 10 ^ 13) /\ Rabs (TF x) <= 1) /\ (ap (mf x) (MF x) (13 / 10 ^ 13) /\ Rabs (MF x) <= 1)) /\ sp (tf x)) rs).
  { eapply Forall_impl; [|exact Hrs]. intros [[r2 d2] o] [N2 M2]. cbn [fst snd gl_rating gl_deviation] in *. pose proof (proj1 N2) as F2.
    destruct (num_ap _ _ _ N2) as [A2 B2]. destruct (num_ap _ _ _ M2) as [D2 E2]. unfold tf, TF, mf, MF, tB, mB, GF, EF. cbv zeta. cbn [fst snd gl_rating gl_deviation]. fold q.
    set (R2 := B2R r2) in *. set (RD2 := B2R d2) in *.
    destruct (e_ap L d2 r r2 R1 R2 RD2 HP HL A1 A2 D2 ltac:(apply Rabs_le; lra) ltac:(apply Rabs_le; lra) ltac:(lra)) as [Ie Ae].
    destruct (q_ok L (ln10_acc_sane L HL)) as [Fq Bq']. destruct (g_ok (qB L) d2 Fq Bq' (fin_nn _ (proj1 M2))) as [Sg Ig]. fold q in Sg, Ig.
    assert (Se : sp (eB L d2 r r2)). { apply e_ok; auto using ln10_acc_sane; [apply fin_nn, (proj1 M2)|rewrite (ext_fin _ F1)|rewrite (ext_fin _ F2)]; apply le1000, Rabs_le; fold R1; fold R2; lra. }
    split; [|apply prec_ok; assumption]. set (e := eB L d2 r r2) in *.
    pose proof (gE_01 R1 R2 RD2) as BE. set (E := gE R1 R2 RD2) in *.
    destruct (gg_ap L d2 RD2 HL D2 ltac:(lra)) as [Ag [Ag2 [Bg Bg2]]]. fold q in Ag, Ag2. set (g := gB q d2) in *. set (G := gg RD2) in *.
    pose proof (one_minus_ap e E _ Ae ltac:(lra) ltac:(lra)) as Am. destruct (ext_points L o) as [Fp Ep]. pose proof (points_range o) as PR.
    pose proof (pts_minus_ap _ _ e E _ (ap_exact _ _ Fp Ep) PR Ae ltac:(lra) ltac:(lra)) as As.
    step (ap_mul _ _ _ _ _ _ 1 1 1.01 Ag2 Ae ltac:(bd) ltac:(bd) ltac:(lra) ltac:(okb)) (1291 / 10 ^ 15).
    assert (T3 : 0 <= G * G * E <= 1) by (split; [apply Rmult_le_pos; lra|]; apply Rle_trans with (1 * 1); [apply Rmult_le_compat; lra|lra]).
    step (ap_mul _ _ _ _ _ _ 1 1 1.01 S Am ltac:(bd) ltac:(bd) ltac:(lra) ltac:(okb)) (25 / 10 ^ 13).
    step (ap_mul _ _ _ _ _ _ 1 1 1.01 Ag As ltac:(bd) ltac:(apply Rabs_le; lra) ltac:(lra) ltac:(okb)) (13 / 10 ^ 13).
    split; (split; [assumption|]).
    - apply Rle_trans with (1 * 1); [|lra]. apply pq; lra.
    - rewrite Rabs_mult. apply Rle_trans with (1 * 1); [|lra]. apply Rmult_le_compat; try apply Rabs_pos; apply Rabs_le; lra. }
  destruct (fsum_ap _ L tf TF (25 / 10 ^ 13) rs ltac:(lra)) as [AS BS]; [eapply Forall_impl; [|exact H]; intros x X; apply X|exact Hlen|].
  destruct (fsum_ap _ L mf MF (13 / 10 ^ 13) rs ltac:(lra)) as [AM BM]; [eapply Forall_impl; [|exact H]; intros x X; apply X|exact Hlen|].
  fold n in AS, BS, AM, BM. set (S := fsum (A := B64A L) (map tf rs)) in *. set (m := fsum (A := B64A L) (map mf rs)) in *.
  set (pre := b64_min (l_hypot L d c) (b64_of_Z 350)) in *.
  set (v := Bdiv mode_NE one64 (Bdiv mode_NE one64 (Bmult mode_NE (Bmult mode_NE q q) S))).
  assert (HP' : new = perB L r d c S m) by (unfold new, m, S; rewrite Ers; apply period_B). rewrite HP'. clear HP'. unfold perB. cbv zeta. cbn [gl_rating gl_deviation]. fold pre. fold q. fold v.
  destruct (qq_ap L HL) as [Aq Bq]. fold q in Aq.
  assert (SS : sp S). { apply fsum_sp; [rewrite Ers; discriminate|]. apply Forall_map. eapply Forall_impl; [|exact H]. intros x X; apply X. }
  assert (Sx : sp (Bmult mode_NE (Bmult mode_NE q q) S)). { destruct (q_ok L (ln10_acc_sane L HL)) as [Fq Bq']. destruct (qq_ok q Fq Bq') as [Sq2 [Fq2 Pq2]]. exact (sp_mult_c _ S Sq2 Fq2 Pq2 SS). }
  assert (S0 : 0 <= Rsum (map TF rs)).
  { clear - Hrs. induction rs as [|x l IH]; [simpl; lra|]. cbn [map Rsum fold_right]. change (fold_right Rplus 0 (map TF l)) with (Rsum (map TF l)). inversion Hrs; subst. assert (0 <= TF x); [|specialize (IH H2); lra].
    unfold TF, EF. pose proof (gE_01 R1 (B2R (gl_rating (fst x))) (B2R (gl_deviation (fst x)))). apply Rmult_le_pos; [apply Rmult_le_pos; [apply Rle_0_sqr|]|]; lra. }
  rewrite Rabs_pos_eq in BS by exact S0. set (ST := Rsum (map TF rs)) in *. set (SM := Rsum (map MF rs)) in *.
  apply (ap_weak _ _ _ (n * (27 / 10 ^ 13))) in AS; [|apply Rmult_le_compat_l; ulra]. apply (ap_weak _ _ _ (n * (15 / 10 ^ 13))) in AM; [|apply Rmult_le_compat_l; ulra].
  assert (U0 : 0 < u0 <= 12 / 10 ^ 17) by ulra. assert (un : 0 <= u0 * n <= 12 / 10 ^ 17 * n) by (split; [apply Rmult_le_pos; lra|apply Rmult_le_compat_r; lra]).
  pose proof (ap_mul _ _ _ _ _ _ 0.0000332 n (0.00004 * n) Aq AS ltac:(bd) ltac:(bd) ltac:(lra) ltac:(okb)) as A3.
  apply (ap_weak _ _ _ (n * (91 / 10 ^ 18))) in A3; [|lra].
  pose proof (rr_ap _ _ _ (n * 0.00004) Sx A3) as Av. fold v in Av. assert (T4 : 0 <= gq * gq * ST <= 0.0000332 * n) by (split; [apply Rmult_le_pos; lra|apply Rmult_le_compat; lra]).
  specialize (Av ltac:(lra) ltac:(lra)). set (V := gq * gq * ST) in *. apply (ap_weak _ _ _ (n * (92 / 10 ^ 18))) in Av; [|lra].
  destruct (hyp_ap L d c RD1 C HH D1 C1 ltac:(lra) C2) as [Ap Bp]. fold pre in Ap. fold P in Ap, Bp.
  destruct (J_ap pre v _ V n Ap Bp Av ltac:(lra) Bn) as [AJ BJ].
  destruct (K_ap L _ _ n HL AJ BJ Bn) as [AK [BK AD]]. fold q in AK.
  assert (EV : gd2inv R1 games = V).
  { unfold gd2inv, games, V, ST. rewrite map_map. replace (gq ^ 2) with (gq * gq) by ring. f_equal. f_equal. apply map_ext. intros [[u1 u2] u3]. unfold TF, GF, EF. cbn [fst snd gl_rating gl_deviation]. ring. }
  assert (EM : gM R1 games = SM). { unfold gM, games, SM. rewrite map_map. f_equal. }
  unfold glicko_r, glicko_rd. rewrite EV, EM. set (J := / P ^ 2 + V) in *. split.
  2:{ apply ap_near. apply (ap_weak _ _ _ _ AD). lra. }
  apply ap_near. assert (nn1 : n * 1 <= n * n) by (apply Rmult_le_compat_l; lra). assert (nn2 : n * n <= n * 1000) by (apply Rmult_le_compat_l; lra).
  assert (BPR : Rabs (gq / J * SM) <= 706 * n). { rewrite Rabs_mult, (Rabs_pos_eq (gq / J)) by lra. apply Rmult_le_compat; try lra. apply Rabs_pos. }
  assert (BT : Rabs (gq / J * SM + R1) <= 706 * n + 10 ^ 4) by (apply Rabs_le_inv in BPR; apply Rabs_le; lra).
  assert (E5 : n * (82 / 10 ^ 10) * (n * (15 / 10 ^ 13)) = n * n * (82 / 10 ^ 10 * (15 / 10 ^ 13))) by ring. assert (E6 : n * (n * (82 / 10 ^ 10)) = n * n * (82 / 10 ^ 10)) by ring.
  pose proof (ap_fma _ _ _ _ _ _ _ _ _ 706 n (11000 * n) AK AM A1 ltac:(rewrite Rabs_pos_eq; lra) BM ltac:(rewrite E5, E6; lra) ltac:(okb)) as A4. rewrite E5, E6 in A4.
  apply (ap_weak _ _ _ (n * n / 10 ^ 8)) in A4; [|lra]. apply (ap_eq _ _ _ _ A4). ring.
Qed.

Lemma C101_glicko_expected_proof : forall (L : Libm) (p1 p2 : GlickoRating B64),
  pow10_accurate L -> ln10_accurate L -> hypot_accurate L ->
  num_in (- 10 ^ 4) (10 ^ 4) (gl_rating p1) -> num_in 1 350 (gl_deviation p1) ->
  num_in (- 10 ^ 4) (10 ^ 4) (gl_rating p2) -> num_in 1 350 (gl_deviation p2) ->
  let E := gE (B2R (gl_rating p1)) (B2R (gl_rating p2)) (sqrt (B2R (gl_deviation p1) ^ 2 + B2R (gl_deviation p2) ^ 2)) in
  let e := glicko_expected_score (A := B64A L) p1 p2 in
  near (fst e) E (2 / 10 ^ 12) /\ near (snd e) (1 - E) (2 / 10 ^ 12).
Proof.
  intros L [r1 d1] [r2 d2] HP HL HH N1 M1 N2 M2 E e. cbn [gl_rating gl_deviation] in *.
  destruct (num_ap _ _ _ N1) as [A1 B1]. destruct (num_ap _ _ _ N2) as [A2 B2]. destruct M1 as [F1 M1]. destruct M2 as [F2 M2].
  destruct (HH d1 d2 F1 F2) as [Fh Ah]; [rewrite Rabs_pos_eq; lra|rewrite Rabs_pos_eq; lra|]. unfold E in *. clear E. set (h := sqrt _) in *.
  assert (Bh : 0 <= h <= 500). { split; [apply sqrt_pos|]. unfold h. replace 500 with (sqrt (500 ^ 2)) by (apply sqrt_pow2; lra). apply sqrt_le_1; nra. }
  assert (AH : ap (l_hypot L d1 d2) h (15 / 10 ^ 13)). { split; [exact Fh|]. rewrite (ext_fin _ Fh). eapply Rle_trans; [exact Ah|]. pose proof i50. apply Rle_trans with (/ 10 ^ 15 * 500); [apply Rmult_le_compat; lra|lra]. }
  destruct (e_ap_d L _ r1 r2 _ _ _ _ HP HL A1 A2 AH ltac:(lra) ltac:(apply Rabs_le; lra) ltac:(apply Rabs_le; lra) Bh) as [_ Ae].
  pose proof (gE_01 (B2R r1) (B2R r2) h) as BE. pose proof (one_minus_ap _ _ _ Ae ltac:(lra) ltac:(lra)) as Am.
  assert (H : e = (eB L (l_hypot L d1 d2) r1 r2, Bminus mode_NE one64 (eB L (l_hypot L d1 d2) r1 r2))) by reflexivity. rewrite H. cbn [fst snd].
  split; apply ap_near; [apply (ap_weak _ _ _ _ Ae)|apply (ap_weak _ _ _ _ Am)]; lra.
Qed.

(** ** The correctly rounded libm meets the contracts *)
Lemma rnd_53_50 v : bpow radix2 (-1022) <= v <= bpow radix2 1023 -> Rabs (rnd v - v) <= / 2 ^ 50 * v.
Proof.
  intros B. pose proof (bpow_gt_0 radix2 (-1022)). eapply Rle_trans; [apply rnd_rel; rewrite Rabs_pos_eq by lra; lra|]. rewrite (Rabs_pos_eq v) by lra.
  apply Rmult_le_compat_r; [lra|]. change (-53)%Z with (- Z.of_nat 53)%Z. rewrite bpow_nat. apply Rinv_le_contravar; [apply pow_lt; lra|apply Rle_pow; [lra|lia]].
Qed.
Lemma libm_acc x v : nn x -> ext x = rnd v -> bpow radix2 (-1022) <= v <= bpow radix2 1020 -> finite x /\ Rabs (B2R x - v) <= / 2 ^ 50 * v.
Proof.
  intros N E B. pose proof (bpow_gt_0 radix2 (-1022)). assert (F : fin x).
  { apply (fin_le _ 1020); [exact N|lia|]. rewrite E. split; [apply rnd_nonneg; lra|apply rnd_le_pow; [lia|lra]]. }
  split; [exact F|]. rewrite <- (ext_fin x F), E. apply rnd_53_50. split; [lra|]. apply Rle_trans with (1 := proj2 B). apply bpow_le. lia.
Qed.
Lemma small_bpow v : / 10 ^ 200 <= v <= 10 ^ 200 -> bpow radix2 (-1022) <= v <= bpow radix2 1020.
Proof.
  intros B. split.
  - apply Rle_trans with (1 := lo_bnd). apply Rle_trans with (2 := proj1 B). apply Rinv_le_contravar; [apply pow_lt; lra|apply Rle_pow; [lra|lia]].
  - apply Rle_trans with (1 := proj2 B). apply Rle_trans with (2 ^ 1020); [|right; rewrite (pow_IZR 2 1020); reflexivity].
    rewrite (pow_IZR 2 1020), (pow_IZR 10 200). apply IZR_le. vm_compute. discriminate.
Qed.
Lemma libm_ln10_accurate : ln10_accurate libm_rounded.
Proof.
  destruct (ext_ofZ 10 ltac:(vm_compute; discriminate)) as [F E]. destruct (real_fun_fin ln (B754_infinity false) B754_nan (b64_of_Z 10) F) as [N H]. rewrite E in H.
  apply (libm_acc _ (ln 10) N H). pose proof ln10_close. apply small_bpow. okb.
Qed.
Lemma libm_hypot_accurate : hypot_accurate libm_rounded.
Proof.
  intros x y Fx Fy Bx By. destruct (real_fun_fin (fun r => sqrt (B2R x * B2R x + r * r)) (B754_infinity false) (B754_infinity false) y Fy) as [N H].
  rewrite (ext_fin y Fy) in H. apply (libm_acc _ _ N).
  - change (l_hypot libm_rounded x y) with (real_fun (fun r => sqrt (B2R x * B2R x + r * r)) (B754_infinity false) (B754_infinity false) y). rewrite H. f_equal. f_equal. ring.
  - pose proof (Rabs_le_inv _ _ (proj2 Bx)) as X. pose proof (Rabs_le_inv _ _ By) as Y. assert (X2 : 1 <= B2R x ^ 2 <= 10 ^ 12).
    { rewrite <- pow2_abs. split; [apply Rle_trans with (1 ^ 2); [lra|apply pow_incr; lra]|]. apply Rle_trans with ((10 ^ 6) ^ 2); [apply pow_incr; lra|lra]. }
    assert (Y2 : 0 <= B2R y ^ 2 <= 10 ^ 12). { split; [apply pow2_ge_0|]. rewrite <- pow2_abs. apply Rle_trans with ((10 ^ 6) ^ 2); [apply pow_incr; split; [apply Rabs_pos|lra]|lra]. }
    apply small_bpow. assert (1 <= sqrt (B2R x ^ 2 + B2R y ^ 2) <= 10 ^ 7); [|okb]. split; [rewrite <- sqrt_1 at 1; apply sqrt_le_1; lra|].
    replace (10 ^ 7) with (sqrt ((10 ^ 7) ^ 2)) by (apply sqrt_pow2; lra). apply sqrt_le_1; lra.
Qed.
Lemma libm_exp_accurate : exp_accurate libm_rounded.
Proof.
  intros y F B. destruct (real_fun_fin exp (B754_infinity false) zero64 y F) as [N H]. rewrite (ext_fin y F) in H. apply (libm_acc _ _ N H). apply Rabs_le_inv in B.
  assert (U : forall t, t <= 600 -> exp t <= bpow radix2 1020) by (intros t Ht; apply Rle_trans with (exp 600); [apply exp_le; lra|apply exp_600]).
  split; [|apply U; lra]. apply Rle_trans with (bpow radix2 (-1020)); [apply bpow_le; lia|]. change (-1020)%Z with (- (1020))%Z. rewrite bpow_opp.
  rewrite <- (Ropp_involutive (B2R y)), exp_Ropp. apply Rinv_le_contravar; [apply exp_pos|]. apply U. lra.
Qed.
