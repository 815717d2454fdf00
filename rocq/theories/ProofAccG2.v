(** Accuracy of Glicko-2 in double precision. *)
From Coq Require Import ZArith List Bool Reals Lra Lia Psatz.
From Flocq Require Import Core.Core IEEE754.BinarySingleNaN.
From Verif Require Import Arith XR B64 ModelLib ModelGlicko2 Spec SpecB64 SpecAcc SpecAcc3 Tac MathB64 ProofB64 ProofB64b ProofB64c MathB64b MathAcc MathAcc2 ProofBoost2 ProofAcc ProofAcc2 ProofAcc3 ProofAccUscf
  MathGlicko2 MathIllF MathG2F.
Import ListNotations.
Local Open Scope R_scope.
#[local] Opaque Bplus Bminus Bmult Bdiv Bfma Bsqrt Bopp Babs b64_max b64_min b64_of_Z b64_lit.

Lemma some_pair {A : Type} (a b c d : A) : Some (a, b) = Some (c, d) -> c = a /\ d = b.
Proof. intro H. injection H as -> ->. auto. Qed.
Lemma inv_le1 x : 1 <= x -> / x <= 1.
Proof. intro H. rewrite <- Rinv_1. apply Rinv_le_contravar; lra. Qed.
(** ** Relative errors of positive numbers *)
Definition rp (x : B64) (r e : R) : Prop := ap x r (e * r).
Lemma rp_mul x y r s d e : rp x r d -> rp y s e -> 0 < r -> 0 < s -> 0 <= d <= / 10 ^ 6 -> 0 <= e <= / 10 ^ 6 -> / 10 ^ 25 <= r * s <= 10 ^ 25 ->
  rp (Bmult mode_NE x y) (r * s) (d + e + d * e + 2 * u0).
Proof.
  intros X Y R S D E B. pose proof (ap_mul _ _ _ _ _ _ r s (2 * (r * s)) X Y ltac:(rewrite Rabs_pos_eq; lra) ltac:(rewrite Rabs_pos_eq; lra)) as A.
  assert (DE : 0 <= d * e <= / 10 ^ 6) by nra.
  assert (K : r * s + (r * (e * s) + s * (d * r) + d * r * (e * s)) <= 2 * (r * s)).
  { replace (r * s + (r * (e * s) + s * (d * r) + d * r * (e * s))) with ((1 + (e + d + d * e)) * (r * s)) by ring. apply Rmult_le_compat_r; lra. }
  specialize (A K ltac:(okb)). apply (ap_weak _ _ _ _ A). right. ring.
Qed.
Lemma rp_div x y r s d e : rp x r d -> rp y s e -> 0 < r -> 0 < s -> 0 <= d <= / 10 ^ 6 -> 0 <= e <= / 10 ^ 6 -> / 10 ^ 25 <= r / s <= 10 ^ 25 ->
  rp (Bdiv mode_NE x y) (r / s) (101 / 100 * (d + e) + 2 * u0).
Proof.
  intros X Y R S D E B. assert (I : 0 < / s) by (apply Rinv_0_lt_compat, S).
  assert (Q : (d * r + r / s * (e * s)) / ((1 - e) * s) <= 101 / 100 * (d + e) * (r / s)).
  { replace (r / s * (e * s)) with (e * r) by (field; lra). apply Rmult_le_reg_r with ((1 - e) * s); [nra|]. replace ((d * r + e * r) / ((1 - e) * s) * ((1 - e) * s)) with ((d + e) * r) by (field; nra).
    replace (101 / 100 * (d + e) * (r / s) * ((1 - e) * s)) with (101 / 100 * (1 - e) * ((d + e) * r)) by (field; lra). assert (0 <= (d + e) * r) by (apply Rmult_le_pos; lra). nra. }
  assert (Z : 0 <= d * (r / s) /\ 0 <= e * (r / s)) by (split; apply Rmult_le_pos; lra).
  assert (Z2 : d * (r / s) <= / 10 ^ 6 * (r / s) /\ e * (r / s) <= / 10 ^ 6 * (r / s)) by (split; apply Rmult_le_compat_r; lra).
  pose proof (ap_div _ _ _ _ _ _ ((1 - e) * s) (r / s) (2 * (r / s)) X Y ltac:(nra) ltac:(rewrite Rabs_pos_eq; nra) ltac:(rewrite Rabs_pos_eq; lra) ltac:(lra) ltac:(okb)) as A.
  apply (ap_weak _ _ _ _ A). lra.
Qed.
Lemma rp_inv x r e : rp x r e -> 0 < r -> 0 <= e <= / 10 ^ 6 -> / 10 ^ 25 <= / r <= 10 ^ 25 -> rp (Bdiv mode_NE one64 x) (/ r) (101 / 100 * e + 2 * u0).
Proof.
  intros X R E B. assert (O : rp one64 1 0) by (unfold rp; rewrite Rmult_0_l; apply ap_exact; [exact fin_one64|exact ext_one64]).
  pose proof (rp_div one64 x 1 r 0 e O X ltac:(lra) R ltac:(lra) E ltac:(unfold Rdiv; rewrite Rmult_1_l; exact B)) as A. unfold rp in *. unfold Rdiv in A at 1. rewrite Rmult_1_l in A. apply (ap_weak _ _ _ _ A). unfold Rdiv. rewrite Rmult_1_l. rewrite Rplus_0_l. lra.
Qed.
Lemma rp_add x y r s e : rp x r e -> rp y s e -> 0 < r -> 0 < s -> 0 <= e <= / 10 ^ 6 -> / 10 ^ 25 <= r + s <= 10 ^ 25 -> rp (Bplus mode_NE x y) (r + s) (e + 2 * u0).
Proof.
  intros X Y R S E B. assert (e * (r + s) <= / 10 ^ 6 * (r + s)) by (apply Rmult_le_compat_r; lra).
  pose proof (ap_add _ _ _ _ _ _ (2 * (r + s)) X Y ltac:(rewrite Rabs_pos_eq; lra) ltac:(okb)) as A. apply (ap_weak _ _ _ _ A). lra.
Qed.
Lemma rp_sqrt x r e : rp x r e -> 0 < r -> 0 <= e <= / 10 ^ 6 -> / 10 ^ 20 <= sqrt r <= 10 ^ 20 -> rp (Bsqrt mode_NE x) (sqrt r) (e + 2 * u0).
Proof.
  intros X R E B. assert (Q : e * r / sqrt r = e * sqrt r). { unfold Rdiv. rewrite <- (sqrt_sqrt r) at 1 by lra. field. lra. }
  assert (e * sqrt r <= / 10 ^ 6 * sqrt r) by (apply Rmult_le_compat_r; lra).
  pose proof (ap_sqrt _ _ _ (sqrt r) (sqrt r) (2 * sqrt r) X ltac:(lra) ltac:(lra) ltac:(lra) ltac:(nra) ltac:(rewrite Q; lra) ltac:(okb)) as A. rewrite Q in A. apply (ap_weak _ _ _ _ A). lra.
Qed.
Lemma rp_weak x r d e : rp x r d -> 0 < r -> d <= e -> rp x r e.
Proof. intros X R H. apply (ap_weak _ _ _ _ X). apply Rmult_le_compat_r; lra. Qed.
Lemma rp_of x r d m : ap x r d -> 0 < m -> m <= r -> rp x r (d / m).
Proof. intros X M R. apply (ap_weak _ _ _ _ X). pose proof (ap_nonneg _ _ _ X) as D. replace d with (d / m * m) at 1 by (field; lra). apply Rmult_le_compat_l; [|exact R]. apply Rmult_le_pos; [exact D|left; apply Rinv_0_lt_compat, M]. Qed.

(** ** Conversion to the internal scale, g and E *)
Definition scB : B64 := b64_lit 1737178 10000.
Definition muB (r : B64) : B64 := Bdiv mode_NE (Bminus mode_NE r (b64_of_Z 1500)) scB.
Definition phB (d : B64) : B64 := Bdiv mode_NE d scB.
Definition gB (L : Libm) (f : B64) : B64 := Bdiv mode_NE one64 (Bsqrt mode_NE (Bplus mode_NE one64
  (Bdiv mode_NE (Bmult mode_NE (b64_of_Z 3) (Bmult mode_NE f f)) (Bmult mode_NE (fpi (Arith := B64A L)) (fpi (Arith := B64A L)))))).
Definition eB (L : Libm) (m mj g : B64) : B64 := Bdiv mode_NE one64 (Bplus mode_NE one64 (l_exp L (Bmult mode_NE (Bopp g) (Bminus mode_NE m mj)))).
Lemma one64_ap : ap one64 1 0. Proof. apply ap_exact; [exact fin_one64|exact ext_one64]. Qed.
Lemma scB_ap : ap scB g2s (3 / 10 ^ 14).
Proof. pose proof (lit_ap 1737178 10000 174 ltac:(lia) ltac:(lia) ltac:(rewrite Rabs_pos_eq; lra) ltac:(okb)) as A. apply (ap_weak _ _ _ _ A). ulra. Qed.
Lemma g2s_rng : g2s = 173.7178. Proof. unfold g2s. lra. Qed.
Lemma g2s_div r : r / g2s = r * (1 / 173.7178). Proof. rewrite g2s_rng. unfold Rdiv. ring. Qed.
Lemma mu_ap r : num_in (- 10 ^ 4) (10 ^ 4) r -> ap (muB r) (g2mu (B2R r)) (3 / 10 ^ 14) /\ - 67 <= g2mu (B2R r) <= 67.
Proof.
  intros N. destruct (num_ap _ _ _ N) as [A B]. set (x := B2R r) in *.
  assert (Bm : - 67 <= g2mu x <= 67) by (unfold g2mu; rewrite g2s_div; lra).
  split; [|exact Bm]. pose proof (ap_sub _ _ _ _ _ _ 11501 A (ap_Z 1500 ltac:(lia)) ltac:(bd2) ltac:(okb)) as S1. apply (ap_weak _ _ _ (15 / 10 ^ 13)) in S1; [|ulra].
  pose proof (ap_div _ _ _ _ _ _ 173 67 67.1 S1 scB_ap ltac:(lra) ltac:(rewrite g2s_rng, Rabs_pos_eq; lra) ltac:(apply Rabs_le; unfold g2mu in Bm; lra) ltac:(lra) ltac:(okb)) as S2. apply (ap_weak _ _ _ _ S2). ulra.
Qed.
Lemma ph_ap d : num_in 1 350 d -> ap (phB d) (g2phi (B2R d)) (8 / 10 ^ 16) /\ / 200 <= g2phi (B2R d) <= 2.1.
Proof.
  intros N. destruct (num_ap _ _ _ N) as [A B]. set (x := B2R d) in *.
  assert (Bm : / 200 <= g2phi x <= 2.1) by (unfold g2phi; rewrite g2s_div; lra).
  split; [|exact Bm]. pose proof (ap_div _ _ _ _ _ _ 173 2.1 2.11 A scB_ap ltac:(lra) ltac:(rewrite g2s_rng, Rabs_pos_eq; lra) ltac:(apply Rabs_le; unfold g2phi in Bm; lra) ltac:(lra) ltac:(okb)) as S2. apply (ap_weak _ _ _ _ S2). ulra.
Qed.
Lemma pi2_ap L : ap (Bmult mode_NE (fpi (Arith := B64A L)) (fpi (Arith := B64A L))) (PI * PI) (9 / 10 ^ 15) /\ 9.86 <= PI * PI <= 9.88.
Proof.
  pose proof PI_15 as P. pose proof (pi_ap L) as A. assert (B : 9.86 <= PI * PI <= 9.88) by nra. split; [|exact B].
  pose proof (ap_mul _ _ _ _ _ _ 3.15 3.15 10 A A ltac:(bd) ltac:(bd) ltac:(lra) ltac:(okb)) as S. apply (ap_weak _ _ _ _ S). ulra.
Qed.
Lemma g2g_rng f : 0 <= f <= 3 -> / 2 <= g2g f <= 1.
Proof.
  intros F. unfold g2g. pose proof PI_15 as P. assert (Q : 0 <= 3 * f ^ 2 / PI ^ 2 <= 3). { split; [apply Rmult_le_pos; [nra|left; apply Rinv_0_lt_compat; nra]|]. apply Rmult_le_reg_r with (PI ^ 2); [nra|]. replace (3 * f ^ 2 / PI ^ 2 * PI ^ 2) with (3 * f ^ 2) by (field; lra). nra. }
  assert (1 <= sqrt (1 + 3 * f ^ 2 / PI ^ 2) <= 2). { split; [rewrite <- sqrt_1 at 1; apply sqrt_le_1_alt; lra|]. replace 2 with (sqrt (2 * 2)) by (apply sqrt_square; lra). apply sqrt_le_1_alt. lra. }
  split; [apply Rinv_le_contravar; lra|apply inv_le1; lra].
Qed.
Lemma g2g_lo f : 0 <= f <= 2.1 -> 0.65 <= g2g f.
Proof.
  intros F. unfold g2g. pose proof PI_15 as P. assert (Q : 0 <= 3 * f ^ 2 / PI ^ 2 <= 1.35). { split; [apply Rmult_le_pos; [nra|left; apply Rinv_0_lt_compat; nra]|]. apply Rmult_le_reg_r with (PI ^ 2); [nra|]. replace (3 * f ^ 2 / PI ^ 2 * PI ^ 2) with (3 * f ^ 2) by (field; lra). nra. }
  assert (1 <= sqrt (1 + 3 * f ^ 2 / PI ^ 2) <= 1.535). { split; [rewrite <- sqrt_1 at 1; apply sqrt_le_1_alt; lra|]. replace 1.535 with (sqrt (1.535 * 1.535)) by (apply sqrt_square; lra). apply sqrt_le_1_alt. lra. }
  apply Rle_trans with (/ 1.535); [lra|apply Rinv_le_contravar; lra].
Qed.
Lemma g_ap L f F d : ap f F d -> 0 <= F <= 3 -> d <= / 10 ^ 14 -> ap (gB L f) (g2g F) (2 * d + 6 / 10 ^ 15).
Proof.
  intros A B D. pose proof (ap_nonneg _ _ _ A) as D0. destruct (pi2_ap L) as [PA PB]. assert (D2 : d * d <= / 10 ^ 14 * d) by (apply Rmult_le_compat_r; lra).
  assert (F2 : 0 <= F * F <= 9) by nra.
  pose proof (ap_mul _ _ _ _ _ _ 3 3 10 A A ltac:(bd) ltac:(bd) ltac:(lra) ltac:(okb)) as S1. apply (ap_weak _ _ _ (6.01 * d + 12 / 10 ^ 16)) in S1; [|ulra].
  pose proof (ap_mul _ _ _ _ _ _ 3 9 28 (ap_Z 3 ltac:(lia)) S1 ltac:(bd) ltac:(bd) ltac:(lra) ltac:(okb)) as S2. apply (ap_weak _ _ _ (18.03 * d + 8 / 10 ^ 15)) in S2; [|ulra].
  set (q := 3 * (F * F) / (PI * PI)). assert (Q : 0 <= q <= 2.8). { unfold q. split; [apply Rmult_le_pos; [lra|left; apply Rinv_0_lt_compat; lra]|]. apply Rmult_le_reg_r with (PI * PI); [lra|]. replace (3 * (F * F) / (PI * PI) * (PI * PI)) with (3 * (F * F)) by (field; nra). lra. }
  pose proof (ap_div _ _ _ _ _ _ 9.85 2.8 3 S2 PA ltac:(lra) ltac:(rewrite Rabs_pos_eq; lra) ltac:(fold q; bd) ltac:(lra) ltac:(okb)) as S3. fold q in S3. apply (ap_weak _ _ _ (1.84 * d + 38 / 10 ^ 16)) in S3; [|ulra].
  pose proof (ap_add _ _ _ _ _ _ 4 one64_ap S3 ltac:(bd2) ltac:(okb)) as S4. apply (ap_weak _ _ _ (1.84 * d + 43 / 10 ^ 16)) in S4; [|ulra].
  assert (SQ : 1 <= sqrt (1 + q) <= 2). { split; [rewrite <- sqrt_1 at 1; apply sqrt_le_1_alt; lra|]. replace 2 with (sqrt (2 * 2)) by (apply sqrt_square; lra). apply sqrt_le_1_alt. lra. }
  pose proof (ap_sqrt _ _ _ 1 2 2.1 S4 ltac:(lra) ltac:(lra) ltac:(lra) ltac:(lra) ltac:(lra) ltac:(okb)) as S5. apply (ap_weak _ _ _ (1.84 * d + 46 / 10 ^ 16)) in S5; [|ulra].
  assert (RQ : 0 < / sqrt (1 + q) <= 1) by (split; [apply Rinv_0_lt_compat; lra|apply inv_le1; lra]).
  pose proof (ap_div _ _ _ _ _ _ 0.99 1 1.1 one64_ap S5 ltac:(lra) ltac:(rewrite Rabs_pos_eq; lra) ltac:(unfold Rdiv; rewrite Rmult_1_l; bd) ltac:(lra) ltac:(okb)) as S6.
  assert (EQ : 1 / sqrt (1 + q) = g2g F). { unfold g2g, q, Rdiv. rewrite Rmult_1_l. do 3 f_equal. field. pose proof PI_15. lra. }
  rewrite EQ in S6. apply (ap_weak _ _ _ _ S6). ulra.
Qed.
(** logistic function near the middle *)
Lemma lexp2_ap L y Y d : exp_accurate L -> ap y Y d -> Rabs Y <= 5 -> d <= / 10 ^ 6 ->
  ap (Bdiv mode_NE one64 (Bplus mode_NE one64 (l_exp L y))) (/ (1 + exp Y)) (0.26 * d + 1 / 10 ^ 15).
Proof.
  intros HE A BY Hd. pose proof (ap_nonneg _ _ _ A) as D0. destruct (exp_ap L y Y d HE A ltac:(lra) Hd) as [P BE]. assert (P0 : 0 < exp Y) by apply exp_pos.
  assert (PU : exp Y <= 1000). { apply Rle_trans with (exp 5); [destruct (Rabs_le_inv _ _ BY); destruct (Req_dec Y 5) as [->|]; [lra|left; apply exp_increasing; lra]|].
    replace 5 with (1 + 1 + 1 + 1 + 1) by lra. rewrite !exp_plus. pose proof exp_le_3. pose proof (exp_pos 1). assert (exp 1 * exp 1 <= 9) by nra. assert (exp 1 * exp 1 * exp 1 <= 27) by nra. assert (exp 1 * exp 1 * exp 1 * exp 1 <= 81) by nra. nra. }
  set (p := exp Y) in *. set (c := 1.01 * d + 1.1 / 10 ^ 15) in *. assert (Hc : 0 <= c <= / 10 ^ 5) by (unfold c; lra).
  destruct P as [FP EP]. set (p' := ext (l_exp L y)) in *. assert (AP : ap (l_exp L y) p' 0) by (apply ap_self, FP).
  pose proof (Rabs_le_inv _ _ EP) as EP'. assert (CP : 0 <= c * p <= / 10 ^ 5 * p) by (split; [apply Rmult_le_pos; lra|apply Rmult_le_compat_r; lra]).
  pose proof (ap_add _ _ _ _ _ _ (1 + p') one64_ap AP ltac:(rewrite Rabs_pos_eq; lra) ltac:(okb)) as S1.
  assert (S1' : rp (Bplus mode_NE one64 (l_exp L y)) (1 + p') u0) by (apply (ap_weak _ _ _ _ S1); lra).
  assert (I : / 2000 <= / (1 + p') <= 1). { split; [apply Rinv_le_contravar; lra|apply inv_le1; lra]. }
  pose proof (rp_inv _ _ _ S1' ltac:(lra) ltac:(ulra) ltac:(lra)) as S2. destruct S2 as [FS ES]. split; [exact FS|].
  pose proof (recip_close p p' c P0 ltac:(lra) EP) as RC. set (e := Bdiv mode_NE one64 (Bplus mode_NE one64 (l_exp L y))) in *.
  replace (ext e - / (1 + p)) with ((ext e - / (1 + p')) + (/ (1 + p') - / (1 + p))) by ring. eapply Rle_trans; [apply Rabs_triang|].
  assert ((101 / 100 * u0 + 2 * u0) * / (1 + p') <= (101 / 100 * u0 + 2 * u0) * 1) by (apply Rmult_le_compat_l; ulra). unfold c in RC. ulra.
Qed.
Lemma logi_rng Y : Rabs Y <= 4.6052 -> 0.0098 <= / (1 + exp Y) <= 0.9902.
Proof.
  intro BY.
  assert (EX : exp 4.6052 <= 101). { rewrite <- (exp_ln 101) by lra. assert (H : 4.6052 <= ln 101). { replace 101 with (10 * 10 * 1.01) by lra. rewrite !ln_mult by lra. pose proof ln10_close. pose proof (ln_lo 1.01 ltac:(lra)). lra. }
    destruct (Req_dec 4.6052 (ln 101)) as [->|]; [lra|left; apply exp_increasing; lra]. }
  apply Rabs_le_inv in BY. assert (E1 : exp Y <= 101). { apply Rle_trans with (2 := EX). destruct (Req_dec Y 4.6052) as [->|]; [lra|left; apply exp_increasing; lra]. }
  assert (E2 : / 101 <= exp Y). { rewrite <- (Ropp_involutive Y), exp_Ropp. pose proof (exp_pos (- Y)). apply Rinv_le_contravar; [assumption|]. apply Rle_trans with (2 := EX). destruct (Req_dec (- Y) 4.6052) as [->|]; [lra|left; apply exp_increasing; lra]. }
  split; [apply Rle_trans with (/ 102); [lra|apply Rinv_le_contravar; lra]|]. apply Rle_trans with (/ (1 + / 101)); [apply Rinv_le_contravar; lra|lra].
Qed.
Lemma e_ap L m M mj MJ g G d : exp_accurate L -> ap m M (3 / 10 ^ 14) -> ap mj MJ (3 / 10 ^ 14) -> - 67 <= M <= 67 -> - 67 <= MJ <= 67 -> Rabs (M - MJ) <= 4.6052 ->
  ap g G d -> d <= 8 / 10 ^ 15 -> 0 <= G <= 1 ->
  ap (eB L m mj g) (/ (1 + exp (- G * (M - MJ)))) (27 / 10 ^ 15) /\ 0.0098 <= / (1 + exp (- G * (M - MJ))) <= 0.9902.
Proof.
  intros HE A AJ BM BJ GAP AG Hd BG. pose proof (ap_nonneg _ _ _ AG) as D0.
  pose proof (ap_sub _ _ _ _ _ _ 4.61 A AJ ltac:(lra) ltac:(okb)) as S1. apply (ap_weak _ _ _ (61 / 10 ^ 15)) in S1; [|ulra].
  pose proof (ap_opp _ _ _ AG) as AG'.
  pose proof (ap_mul _ _ _ _ _ _ 1 4.6052 4.62 AG' S1 ltac:(rewrite Rabs_Ropp; bd) GAP ltac:(lra) ltac:(okb)) as S2. apply (ap_weak _ _ _ (99 / 10 ^ 15)) in S2; [|ulra].
  set (Y := - G * (M - MJ)) in *. assert (BY : Rabs Y <= 4.6052). { unfold Y. rewrite Rabs_mult, Rabs_Ropp, (Rabs_pos_eq G) by lra. pose proof (Rabs_pos (M - MJ)). nra. }
  pose proof (lexp2_ap L _ Y _ HE S2 ltac:(lra) ltac:(lra)) as S3. split; [apply (ap_weak _ _ _ _ S3); lra|]. apply logi_rng, BY.
Qed.

(** ** The two sums *)
Definition t1B (g e : B64) : B64 := Bmult mode_NE (Bmult mode_NE (Bmult mode_NE g g) e) (Bminus mode_NE one64 e).
Definition t2B (s g e : B64) : B64 := Bmult mode_NE g (Bminus mode_NE s e).
Lemma t1_ap g G e E : ap g G (8 / 10 ^ 15) -> 0.65 <= G <= 1 -> ap e E (27 / 10 ^ 15) -> 0.0098 <= E <= 0.9902 ->
  ap (t1B g e) (G ^ 2 * E * (1 - E)) (35 / 10 ^ 15) /\ 0.004099 <= G ^ 2 * E * (1 - E) <= / 4.
Proof.
  intros A BG AE BE. assert (G2 : 0.4225 <= G * G <= 1) by nra.
  assert (EE : 0.0097039 <= E * (1 - E) <= / 4) by (pose proof (Rmult_le_pos (E - 0.0098) (0.9902 - E) ltac:(lra) ltac:(lra)); pose proof (pow2_ge_0 (E - / 2)); lra).
  assert (GE : 0 <= G * G * E <= E) by (split; [apply Rmult_le_pos; lra|rewrite <- (Rmult_1_l E) at 2; apply Rmult_le_compat_r; lra]).
  pose proof (ap_mul _ _ _ _ _ _ 1 1 1.01 A A ltac:(bd) ltac:(bd) ltac:(lra) ltac:(okb)) as S1. apply (ap_weak _ _ _ (17 / 10 ^ 15)) in S1; [|ulra].
  pose proof (ap_mul _ _ _ _ _ _ 1 E 1.01 S1 AE ltac:(bd) ltac:(apply Rabs_le; lra) ltac:(rewrite Rmult_1_l; lra) ltac:(okb)) as S2. apply (ap_weak _ _ _ (E * (17 / 10 ^ 15) + 272 / 10 ^ 16)) in S2; [|ulra].
  pose proof (one_minus_ap _ _ _ AE ltac:(lra) ltac:(lra)) as S3. apply (ap_weak _ _ _ (272 / 10 ^ 16)) in S3; [|lra].
  assert (T : 0.004099 <= G * G * E * (1 - E) <= / 4). { replace (G * G * E * (1 - E)) with (G * G * (E * (1 - E))) by ring. nra. }
  assert (W : (1 - E) * (E * (17 / 10 ^ 15) + 272 / 10 ^ 16) = 17 / 10 ^ 15 * (E * (1 - E)) + 272 / 10 ^ 16 * (1 - E)) by ring.
  pose proof (ap_mul _ _ _ _ _ _ E (1 - E) 0.26 S2 S3 ltac:(rewrite Rabs_pos_eq; lra) ltac:(bd) ltac:(rewrite W; nra) ltac:(okb)) as S4. rewrite W in S4.
  replace (G ^ 2 * E * (1 - E)) with (G * G * E * (1 - E)) by ring. split; [|exact T]. apply (ap_weak _ _ _ _ S4).
  replace ((E * (17 / 10 ^ 15) + 272 / 10 ^ 16) * (272 / 10 ^ 16)) with (E * (17 / 10 ^ 15 * (272 / 10 ^ 16)) + 272 / 10 ^ 16 * (272 / 10 ^ 16)) by ring. unfold u0. lra.
Qed.
Lemma t2_ap o s g G e E : ap o s 0 -> 0 <= s <= 1 -> ap g G (8 / 10 ^ 15) -> 0.65 <= G <= 1 -> ap e E (27 / 10 ^ 15) -> 0.0098 <= E <= 0.9902 ->
  ap (t2B o g e) (G * (s - E)) (36 / 10 ^ 15) /\ Rabs (G * (s - E)) <= 1 /\ ap (Bminus mode_NE o e) (s - E) (28 / 10 ^ 15).
Proof.
  intros O S A BG AE BE. pose proof (pts_minus_ap _ _ _ _ _ O S AE ltac:(lra) ltac:(lra)) as S1. apply (ap_weak _ _ _ (272 / 10 ^ 16)) in S1; [|lra].
  assert (T : Rabs (G * (s - E)) <= 1) by (apply Rabs_le; nra).
  pose proof (ap_mul _ _ _ _ _ _ 1 1 1.01 A S1 ltac:(bd) ltac:(bd) ltac:(lra) ltac:(okb)) as S2. split; [apply (ap_weak _ _ _ _ S2); ulra|]. split; [exact T|]. apply (ap_weak _ _ _ _ S1). lra.
Qed.
Lemma sum100_acc (X : Type) (f : X -> B64) (F : X -> R) d l : 0 <= d <= / 10 ^ 6 ->
  Forall (fun x => ap (f x) (F x) d /\ Rabs (F x) <= 1) l ->
  forall acc s (n : nat), ap acc s (INR n * (d + u0 * 101)) -> Rabs s <= INR n -> (n + length l <= 100)%nat ->
  ap (fold_left (Bplus mode_NE) (map f l) acc) (s + Rsum (map F l)) (INR (n + length l) * (d + u0 * 101)) /\ Rabs (s + Rsum (map F l)) <= INR (n + length l).
Proof.
  intros D. induction l as [|x l IH]; intros HF acc s n A Bs Hn; simpl.
  - rewrite Nat.add_0_r, Rplus_0_r. split; assumption.
  - apply Forall_cons_iff in HF as [[Ax Bx] HF]. simpl in Hn. assert (Hn' : INR n <= 99) by (replace 99 with (INR 99) by (rewrite INR_IZR_INZ; reflexivity); apply le_INR; lia). pose proof (pos_INR n) as Pn.
    assert (Bs' : Rabs (s + F x) <= INR (S n)) by (rewrite S_INR; eapply Rle_trans; [apply Rabs_triang|lra]).
    assert (DU : 0 <= d + u0 * 101 <= / 1000) by ulra.
    pose proof (ap_add _ _ _ _ _ _ 101 A Ax ltac:(rewrite S_INR in Bs'; nra) ltac:(okb)) as S1. apply (ap_weak _ _ _ (INR (S n) * (d + u0 * 101))) in S1; [|rewrite S_INR; lra].
    specialize (IH HF _ _ (S n) S1 Bs' ltac:(lia)). replace (n + S (length l))%nat with (S n + length l)%nat by lia. replace (s + (F x + Rsum (map F l))) with (s + F x + Rsum (map F l)) by ring. exact IH.
Qed.
Lemma sum100 (X : Type) (L : Libm) (f : X -> B64) (F : X -> R) d l : 0 <= d <= / 10 ^ 6 ->
  Forall (fun x => ap (f x) (F x) d /\ Rabs (F x) <= 1) l -> (length l <= 100)%nat ->
  ap (fsum (A := B64A L) (map f l)) (Rsum (map F l)) (INR (length l) * (d + u0 * 101)) /\ Rabs (Rsum (map F l)) <= INR (length l).
Proof.
  intros D HF Hn. pose proof (sum100_acc X f F d l D HF (B754_zero true) 0 0%nat) as H. rewrite !Rplus_0_l in H. apply H.
  - split; [reflexivity|]. simpl. rewrite Rminus_0_r, Rabs_R0. lra.
  - rewrite Rabs_R0. simpl. lra.
  - exact Hn.
Qed.

(** ** The quantities of the update, from the two sums *)
Section Core.
  Variables (S m : B64) (Sg Mr n : R).
  Hypothesis Hn : 1 <= n <= 100.
  Hypothesis AS : ap S Sg (n * (48 / 10 ^ 15)).
  Hypothesis BS : 0.004099 * n <= Sg <= n / 4.
  Hypothesis AM : ap m Mr (n * (49 / 10 ^ 15)).
  Hypothesis BMr : Rabs Mr <= n.
  Let V := / Sg.
  Let v := Bdiv mode_NE one64 S.
  Lemma V_rng : 4 / n <= V <= 244 / n /\ 0.04 <= V <= 244 /\ V * n <= 244.
  Proof.
    assert (I : 0 < / n <= 1) by (split; [apply Rinv_0_lt_compat; lra|apply inv_le1; lra]).
    assert (J : / 100 <= / n) by (apply Rinv_le_contravar; lra).
    assert (A : 4 / n <= V). { unfold V. replace (4 / n) with (/ (n / 4)) by (field; lra). apply Rinv_le_contravar; lra. }
    assert (B : V <= 244 / n). { unfold V. replace (244 / n) with (/ (n / 244)) by (field; lra). apply Rinv_le_contravar; lra. }
    repeat split; try lra. replace 244 with (244 / n * n) by (field; lra). apply Rmult_le_compat_r; lra.
  Qed.
  Lemma S_rp : rp S Sg (118 / 10 ^ 13).
  Proof. apply (ap_weak _ _ _ _ AS). lra. Qed.
  Lemma v_rp : rp v V (12 / 10 ^ 12).
  Proof.
    pose proof V_rng. assert (0 < Sg) by lra. apply (rp_weak _ _ (101 / 100 * (118 / 10 ^ 13) + 2 * u0)); [|apply Rinv_0_lt_compat; lra|ulra]. apply rp_inv; [exact S_rp|lra|lra|fold V; lra].
  Qed.
  Let Dl := V * Mr.
  Let delta := Bmult mode_NE v m.
  Lemma Dl_abs : Rabs Dl = V * Rabs Mr.
  Proof. unfold Dl. pose proof V_rng. rewrite Rabs_mult, (Rabs_pos_eq V) by lra. reflexivity. Qed.
  Lemma delta_ap : Rabs Dl <= 1000 -> ap delta Dl (126 / 10 ^ 13 + 122 / 10 ^ 13 * Rabs Dl).
  Proof.
    intro H. pose proof V_rng as VR. pose proof v_rp as A. unfold rp in A. pose proof (Rabs_pos Mr) as M0. pose proof Dl_abs as DA.
    assert (E1 : V * (n * (49 / 10 ^ 15)) <= 244 * (49 / 10 ^ 15)) by lra.
    assert (E2 : Rabs Mr * (12 / 10 ^ 12 * V) = 12 / 10 ^ 12 * Rabs Dl) by (rewrite DA; ring).
    assert (E3 : 12 / 10 ^ 12 * V * (n * (49 / 10 ^ 15)) <= 12 / 10 ^ 12 * (244 * (49 / 10 ^ 15))) by lra.
    pose proof (ap_mul _ _ _ _ _ _ V (Rabs Mr) (2 * Rabs Dl + 1) A AM ltac:(rewrite Rabs_pos_eq; lra) ltac:(lra) ltac:(pose proof (Rabs_pos Dl); lra) ltac:(pose proof (Rabs_pos Dl); okb)) as S1.
    fold Dl in S1. apply (ap_weak _ _ _ _ S1). unfold u0. pose proof (Rabs_pos Dl). lra.
  Qed.
  Variable ph : R.
  Hypothesis Hph : 0 < ph <= 5.
  Hypothesis UD : Dl ^ 2 <= 100 * (ph + V).
  Lemma Dl_le : Rabs Dl <= 158 /\ Rabs Dl <= 50 * (ph + V).
  Proof.
    pose proof V_rng as VR. assert (Q : Rabs Dl * Rabs Dl = Dl ^ 2) by (rewrite <- Rabs_mult, Rabs_pos_eq by nra; ring). pose proof (Rabs_pos Dl).
    split; apply Rnot_lt_le; intro; nra.
  Qed.
  Lemma d2_ap : ap (Bmult mode_NE delta delta) (Dl ^ 2) ((ph + V) / 2 / 10 ^ 8).
  Proof.
    destruct Dl_le as [D1 D2]. pose proof V_rng as VR. pose proof (delta_ap ltac:(lra)) as A. set (D := Rabs Dl) in *. assert (D0 : 0 <= D) by apply Rabs_pos.
    assert (Q : D * D = Dl ^ 2) by (unfold D; rewrite <- Rabs_mult, Rabs_pos_eq by nra; ring). set (e := 126 / 10 ^ 13 + 122 / 10 ^ 13 * D) in *.
    assert (E0 : 0 <= e <= / 10 ^ 8) by (unfold e; lra). assert (E1 : D * e = 126 / 10 ^ 13 * D + 122 / 10 ^ 13 * (D * D)) by (unfold e; ring).
    assert (E2 : e * e <= / 10 ^ 8 * e) by (apply Rmult_le_compat_r; lra).
    replace (Dl ^ 2) with (Dl * Dl) in * by ring.
    pose proof (ap_mul _ _ _ _ _ _ D D (2 * (D * D) + 1) A A ltac:(unfold D; lra) ltac:(unfold D; lra) ltac:(nra) ltac:(apply okB; nra)) as S1.
    apply (ap_weak _ _ _ _ S1). rewrite E1. unfold e in *. unfold u0. lra.
  Qed.
End Core.

(** ** New deviation, rating *)
Lemma hyp_lip a b z : 0 < a -> 0 < b -> Rabs (sqrt (a ^ 2 + z ^ 2) - sqrt (b ^ 2 + z ^ 2)) <= Rabs (a - b).
Proof.
  intros A B. set (p := sqrt (a ^ 2 + z ^ 2)). set (q := sqrt (b ^ 2 + z ^ 2)).
  assert (Z : 0 <= z ^ 2) by apply pow2_ge_0.
  assert (P : a <= p). { unfold p. rewrite <- (sqrt_pow2 a) at 1 by lra. apply sqrt_le_1_alt. lra. }
  assert (Q : b <= q). { unfold q. rewrite <- (sqrt_pow2 b) at 1 by lra. apply sqrt_le_1_alt. lra. }
  assert (PP : p * p = a ^ 2 + z ^ 2) by (apply sqrt_sqrt; nra). assert (QQ : q * q = b ^ 2 + z ^ 2) by (apply sqrt_sqrt; nra).
  assert (E : p - q = (a - b) * ((a + b) / (p + q))). { apply Rmult_eq_reg_r with (p + q); [|lra]. replace ((a - b) * ((a + b) / (p + q)) * (p + q)) with ((a - b) * (a + b)) by (field; lra). nra. }
  rewrite E, Rabs_mult. rewrite <- (Rmult_1_r (Rabs (a - b))) at 2. apply Rmult_le_compat_l; [apply Rabs_pos|].
  assert (0 < / (p + q)) by (apply Rinv_0_lt_compat; lra). rewrite Rabs_pos_eq; [|apply Rmult_le_pos; lra]. apply Rmult_le_reg_r with (p + q); [lra|]. replace ((a + b) / (p + q) * (p + q)) with (a + b) by (field; lra). lra.
Qed.
Lemma hyp_rp L f Ph z : hypots_accurate L -> ap f Ph (8 / 10 ^ 16) -> / 200 <= Ph <= 2.1 -> fin z -> 0 <= ext z <= 3000 ->
  rp (l_hypot L f z) (sqrt (Ph ^ 2 + ext z ^ 2)) (2 / 10 ^ 13) /\ / 200 <= sqrt (Ph ^ 2 + ext z ^ 2) <= 3010.
Proof.
  intros HL [F A] B Fz Bz. pose proof (Rabs_le_inv _ _ A) as A'.
  destruct (HL f z F Fz) as [Fh Ah]; [rewrite <- (ext_fin f F), Rabs_pos_eq; lra|rewrite <- (ext_fin z Fz), Rabs_pos_eq; lra|].
  rewrite <- (ext_fin f F), <- (ext_fin z Fz), <- (ext_fin _ Fh) in Ah. pose proof (hyp_lip (ext f) Ph (ext z) ltac:(lra) ltac:(lra)) as LI.
  set (H := sqrt (Ph ^ 2 + ext z ^ 2)) in *. set (H' := sqrt (ext f ^ 2 + ext z ^ 2)) in *.
  assert (BH : / 200 <= H <= 3010). { unfold H. split; [apply Rle_trans with Ph; [lra|]; rewrite <- (sqrt_pow2 Ph) at 1 by lra; apply sqrt_le_1_alt; nra|]. rewrite <- (sqrt_pow2 3010) by lra. apply sqrt_le_1_alt. nra. }
  split; [|exact BH]. split; [exact Fh|]. pose proof i50. assert (LI' := Rabs_le_inv _ _ (Rle_trans _ _ _ LI A)).
  assert (Ah' : Rabs (ext (l_hypot L f z) - H') <= / 10 ^ 15 * H') by (eapply Rle_trans; [exact Ah|apply Rmult_le_compat_r; lra]). apply Rabs_le_inv in Ah'. apply Rabs_le. lra.
Qed.
Lemma nd_rp L f Ph v V z : hypots_accurate L -> ap f Ph (8 / 10 ^ 16) -> / 200 <= Ph <= 2.1 -> rp v V (12 / 10 ^ 12) -> 0.04 <= V <= 244 -> fin z -> 0 <= ext z <= 3000 ->
  rp (g2_new_deviation (A := B64A L) f z v) (g2_phi' Ph (ext z) V) (13 / 10 ^ 12) /\ / 300 <= g2_phi' Ph (ext z) V <= 16 /\ g2_phi' Ph (ext z) V ^ 2 <= V.
Proof.
  intros HL A B Av BV Fz Bz. destruct (hyp_rp L f Ph z HL A B Fz Bz) as [AH BH].
  change (g2_new_deviation (A := B64A L) f z v) with (Bdiv mode_NE one64 (Bsqrt mode_NE (Bplus mode_NE (Bdiv mode_NE one64 (Bmult mode_NE (l_hypot L f z) (l_hypot L f z))) (Bdiv mode_NE one64 v)))).
  unfold g2_phi'. rewrite <- (sqrt_sqrt (Ph ^ 2 + ext z ^ 2)) by nra. set (H := sqrt (Ph ^ 2 + ext z ^ 2)) in *.
  assert (H2 : / 40000 <= H * H <= 10 ^ 7) by nra. assert (IH : / 10 ^ 7 <= / (H * H) <= 40000). { split; [apply Rinv_le_contravar; lra|]. replace 40000 with (/ / 40000) by lra. apply Rinv_le_contravar; lra. }
  assert (IV : / 244 <= / V <= 25). { split; [apply Rinv_le_contravar; lra|]. replace 25 with (/ 0.04) by lra. apply Rinv_le_contravar; lra. }
  pose proof (rp_mul _ _ _ _ _ _ AH AH ltac:(lra) ltac:(lra) ltac:(lra) ltac:(lra) ltac:(lra)) as S1. apply (rp_weak _ _ _ (41 / 10 ^ 14)) in S1; [|lra|ulra].
  pose proof (rp_inv _ _ _ S1 ltac:(lra) ltac:(lra) ltac:(lra)) as S2. apply (rp_weak _ _ _ (122 / 10 ^ 13)) in S2; [|lra|ulra].
  pose proof (rp_inv _ _ _ Av ltac:(lra) ltac:(lra) ltac:(lra)) as S3. apply (rp_weak _ _ _ (122 / 10 ^ 13)) in S3; [|lra|ulra].
  pose proof (rp_add _ _ _ _ _ S2 S3 ltac:(lra) ltac:(lra) ltac:(lra) ltac:(lra)) as S4. apply (rp_weak _ _ _ (123 / 10 ^ 13)) in S4; [|lra|ulra].
  set (W := / (H * H) + / V) in *. assert (BW : / 244 <= W <= 40025) by (unfold W; lra).
  assert (SW : / 16 <= sqrt W <= 300). { split; [replace (/ 16) with (sqrt (/ 16 * / 16)) by (apply sqrt_square; lra)|replace 300 with (sqrt (300 * 300)) by (apply sqrt_square; lra)]; apply sqrt_le_1_alt; lra. }
  assert (IW : / 300 <= / sqrt W <= 16). { split; [apply Rinv_le_contravar; lra|]. replace 16 with (/ / 16) by lra. apply Rinv_le_contravar; lra. }
  pose proof (rp_sqrt _ _ _ S4 ltac:(lra) ltac:(lra) ltac:(lra)) as S5. apply (rp_weak _ _ _ (124 / 10 ^ 13)) in S5; [|lra|ulra].
  pose proof (rp_inv _ _ _ S5 ltac:(lra) ltac:(lra) ltac:(lra)) as S6. split; [apply (rp_weak _ _ _ _ S6); [lra|ulra]|]. split; [exact IW|].
  replace ((/ sqrt W) ^ 2) with (/ (sqrt W * sqrt W)) by (field; lra). rewrite sqrt_sqrt by lra. replace V with (/ / V) at 1 by (field; lra). apply Rinv_le_contravar; unfold W; lra.
Qed.
Lemma nr_ap x X y Y n mu MU : rp x X (28 / 10 ^ 12) -> 0 < X <= 244 -> ap y Y (n * (49 / 10 ^ 15)) -> 0 <= n -> X * n <= 244 -> X * Rabs Y <= 158 -> ap mu MU (3 / 10 ^ 14) -> - 67 <= MU <= 67 ->
  ap (Bfma mode_NE (Bfma mode_NE x y mu) scB (b64_of_Z 1500)) (g2s * (MU + X * Y) + 1500) (/ 10 ^ 6).
Proof.
  intros A B AY N XN XY AM BM. assert (T : Rabs (X * Y) <= 158) by (rewrite Rabs_mult, (Rabs_pos_eq X) by lra; exact XY). pose proof (Rabs_le_inv _ _ T) as T'.
  assert (E3 : 28 / 10 ^ 12 * X * (n * (49 / 10 ^ 15)) = 28 / 10 ^ 12 * (49 / 10 ^ 15) * (X * n)) by ring. assert (E1 : X * (n * (49 / 10 ^ 15)) = 49 / 10 ^ 15 * (X * n)) by ring.
  assert (E2 : Rabs Y * (28 / 10 ^ 12 * X) = 28 / 10 ^ 12 * (X * Rabs Y)) by ring.
  assert (S1 : ap (Bfma mode_NE x y mu) (X * Y + MU) (45 / 10 ^ 10)).
  { pose proof (ap_fma _ _ _ _ _ _ _ _ _ X (Rabs Y) 226 A AY AM ltac:(rewrite Rabs_pos_eq; lra) ltac:(lra)) as S. rewrite E1, E2, E3 in S. specialize (S ltac:(bd2) ltac:(okb)). apply (ap_weak _ _ _ _ S). ulra. }
  pose proof (ap_fma _ _ _ _ _ _ _ _ _ 226 174 50000 S1 scB_ap (ap_Z 1500 ltac:(lia)) ltac:(bd) ltac:(rewrite g2s_rng; bd) ltac:(rewrite g2s_rng; bd2) ltac:(okb)) as S2.
  replace (g2s * (MU + X * Y) + 1500) with ((X * Y + MU) * g2s + 1500) by ring. apply (ap_weak _ _ _ _ S2). ulra.
Qed.
Lemma rd_ap x X : rp x X (13 / 10 ^ 12) -> / 300 <= X <= 16 -> ap (Bmult mode_NE x scB) (g2s * X) (/ 10 ^ 7).
Proof.
  intros A B. pose proof (ap_mul _ _ _ _ _ _ 16 174 3000 A scB_ap ltac:(bd) ltac:(rewrite g2s_rng; bd) ltac:(lra) ltac:(okb)) as S.
  replace (g2s * X) with (X * g2s) by ring. apply (ap_weak _ _ _ _ S). ulra.
Qed.

Lemma upd_ap L f Ph S Sg m Mr n s t tol fuel z : exp_accurate L -> lnw_accurate L -> ap f Ph (8 / 10 ^ 16) -> / 200 <= Ph <= 2.1 ->
  1 <= n <= 100 -> ap S Sg (n * (48 / 10 ^ 15)) -> 0.004099 * n <= Sg <= n / 4 -> ap m Mr (n * (49 / 10 ^ 15)) -> Rabs Mr <= n ->
  num_in (/ 100) (3 / 10) s -> num_in (/ 10) (12 / 10) t -> finite tol -> 99 / 10 ^ 8 <= B2R tol ->
  let V := / Sg in let D := V * Mr in
  D ^ 2 <= 100 * (Ph ^ 2 + V) -> B2R t ^ 2 * D ^ 2 <= 10 * (Ph ^ 2 + V) -> (Ph ^ 2 + V) / 10 ^ 7 <= Rabs (D ^ 2 - Ph ^ 2 - V) ->
  let v := Bdiv mode_NE one64 S in let delta := Bmult mode_NE v m in
  g2_new_volatility (A := B64A L) fuel s (Bmult mode_NE delta delta) (Bmult mode_NE f f) v t tol = Some z ->
  g2_solves D Ph V (B2R s) (B2R t) (B2R tol + / 10 ^ 7) (B2R z) /\ fin z /\ 0 <= ext z <= 3000.
Proof.
  intros HE HL Af Bf Hn AS BS AM BM [Fs Bs] [Ft Bt] Fo Bo V D U1 U2 SEP v delta Hz.
  destruct (V_rng Sg n Hn BS) as (V1 & V2 & V3). fold V in V1, V2, V3. pose proof (v_rp S Sg n Hn AS BS) as Av. unfold rp in Av. fold V in Av. fold v in Av.
  assert (P2 : 0 < Ph ^ 2 <= 5) by nra.
  pose proof (d2_ap S m Sg Mr n Hn AS BS AM (Ph ^ 2) P2 U1) as Ad. fold V in Ad. fold D in Ad. fold v in Ad. fold delta in Ad.
  pose proof (ap_mul _ _ _ _ _ _ 2.1 2.1 5 Af Af ltac:(bd) ltac:(bd) ltac:(lra) ltac:(okb)) as Ap.
  destruct (vol_ok L (Bmult mode_NE delta delta) (Bmult mode_NE f f) v s t (D ^ 2) (Ph ^ 2) V HE HL Ad
    ltac:(replace (Ph ^ 2) with (Ph * Ph) in * by ring; apply (ap_weak _ _ _ _ Ap); ulra) ltac:(apply (ap_weak _ _ _ _ Av); lra)
    ltac:(split; [apply pow2_ge_0|exact U1]) ltac:(lra) ltac:(lra) ltac:(lra) Fs ltac:(rewrite (ext_fin s Fs); exact Bs) Ft ltac:(rewrite (ext_fin t Ft); exact Bt) tol Fo ltac:(rewrite (ext_fin tol Fo); exact Bo)
    ltac:(rewrite (ext_fin t Ft); exact U2) SEP fuel z Hz) as (r & R0 & Fz & Bz & RZ).
  rewrite (ext_fin s Fs), (ext_fin t Ft) in R0. rewrite (ext_fin tol Fo) in RZ.
  split; [|split; [exact Fz|lra]]. rewrite (ext_fin z Fz) in RZ, Bz. split; [lra|]. exists r. split; [|exact RZ].
  rewrite <- R0. unfold g2f, hf. f_equal.
Qed.

(** What the update gives, from the two sums; [xr] is the float that multiplies [yr]. *)
Lemma out_ap L r RD S m Mr n s t tol fuel z xr X yr Y games : exp_accurate L -> lnw_accurate L -> hypots_accurate L ->
  num_in (- 10 ^ 4) (10 ^ 4) r -> num_in 1 350 RD -> num_in (/ 100) (3 / 10) s -> num_in (/ 10) (12 / 10) t -> finite tol -> 99 / 10 ^ 8 <= B2R tol ->
  1 <= n <= 100 -> ap S (/ g2v (g2mu (B2R r)) games) (n * (48 / 10 ^ 15)) -> 0.004099 * n <= / g2v (g2mu (B2R r)) games <= n / 4 ->
  Mr = g2M (g2mu (B2R r)) games -> ap m Mr (n * (49 / 10 ^ 15)) -> Rabs Mr <= n ->
  g2_moderate (B2R r) (B2R RD) (B2R t) games ->
  let v := Bdiv mode_NE one64 S in let delta := Bmult mode_NE v m in let f := phB RD in
  g2_new_volatility (A := B64A L) fuel s (Bmult mode_NE delta delta) (Bmult mode_NE f f) v t tol = Some z ->
  let nd := g2_new_deviation (A := B64A L) f z v in let ND2 := g2_phi' (g2phi (B2R RD)) (ext z) (g2v (g2mu (B2R r)) games) ^ 2 in
  (rp (Bmult mode_NE nd nd) ND2 (27 / 10 ^ 12) -> / 90000 <= ND2 <= 244 -> ND2 * n <= 244 -> rp xr X (28 / 10 ^ 12) /\ 0 < X <= ND2) -> ap yr Y (n * (49 / 10 ^ 15)) -> X * Y = ND2 * Mr ->
  g2_updated (mkGlicko2 (Bfma mode_NE (Bfma mode_NE xr yr (muB r)) scB (b64_of_Z 1500)) (Bmult mode_NE nd scB) z) (B2R r) (B2R RD) (B2R s) (B2R t) (B2R tol) games.
Proof.
  intros HE HL HH Nr Nd Ns Nt Fo Bo Hn AS BS EM AM BM MOD v delta f Hz nd ND2 HX AY XY.
  destruct (mu_ap r Nr) as [Amu Bmu]. destruct (ph_ap RD Nd) as [Aph Bph]. set (mu := g2mu (B2R r)) in *. set (Ph := g2phi (B2R RD)) in *. set (V := g2v mu games) in *.
  assert (IV : / / V = V) by (rewrite Rinv_inv; reflexivity).
  destruct MOD as (U1 & U2 & SEP). fold mu in U1, U2, SEP. fold Ph in U1, U2, SEP. fold V in U1, U2, SEP. rewrite <- EM in U1, U2, SEP.
  destruct (V_rng (/ V) n Hn BS) as (V1 & V2 & V3). rewrite IV in V1, V2, V3. pose proof (v_rp S (/ V) n Hn AS BS) as Av. rewrite IV in Av. fold v in Av.
  destruct (upd_ap L f Ph S (/ V) m Mr n s t tol fuel z HE HL Aph Bph Hn AS BS AM BM Ns Nt Fo Bo) as (SOL & Fz & Bz); rewrite ?IV; try assumption.
  rewrite IV in SOL. destruct (nd_rp L f Ph v V z HH Aph Bph Av V2 Fz Bz) as (And & Bnd & NV). fold nd in And. fold ND2 in NV.
  assert (N2 : / 90000 <= ND2 <= 244) by (split; [|lra]; unfold ND2; replace (/ 90000) with ((/ 300) ^ 2) by lra; apply pow_incr; lra).
  pose proof (rp_mul _ _ _ _ _ _ And And ltac:(lra) ltac:(lra) ltac:(lra) ltac:(lra)) as An2.
  replace (g2_phi' Ph (ext z) V * g2_phi' Ph (ext z) V) with ND2 in An2 by (unfold ND2; ring). specialize (An2 ltac:(lra)). apply (rp_weak _ _ _ (27 / 10 ^ 12)) in An2; [|lra|ulra].
  assert (NN : ND2 * n <= 244) by (apply Rle_trans with (V * n); [apply Rmult_le_compat_r; lra|lra]).
  destruct (HX An2 ltac:(lra) NN) as [AX BX].
  destruct (Dl_le (/ V) Mr n Hn BS (Ph ^ 2) ltac:(nra) ltac:(rewrite IV; exact U1)) as [DL _]. rewrite IV, Rabs_mult, (Rabs_pos_eq V) in DL by lra.
  assert (XA : X * Rabs Y <= 158). { rewrite <- (Rabs_pos_eq X) by lra. rewrite <- Rabs_mult, XY, Rabs_mult, (Rabs_pos_eq ND2) by lra. apply Rle_trans with (2 := DL). apply Rmult_le_compat_r; [apply Rabs_pos|lra]. }
  pose proof (nr_ap xr X yr Y n (muB r) mu AX ltac:(lra) AY ltac:(lra) ltac:(apply Rle_trans with (2 := NN); apply Rmult_le_compat_r; lra) XA Amu Bmu) as AR. rewrite XY in AR.
  pose proof (rd_ap _ _ And Bnd) as AD. unfold g2_updated. cbn [g2_volatility g2_rating g2_deviation]. fold mu Ph V. rewrite <- EM, <- (ext_fin z Fz). rewrite <- (ext_fin z Fz) in SOL.
  split; [exact Fz|]. split; [exact SOL|]. split; apply ap_near.
  - unfold g2_new_r. fold mu Ph V ND2. rewrite <- EM. exact AR.
  - unfold g2_new_rd. fold mu Ph V. exact AD.
Qed.

(** ** Games and rating periods *)
Lemma gap_mu r1 r2 : Rabs (r1 - r2) <= 800 -> Rabs (g2mu r1 - g2mu r2) <= 4.6052.
Proof. intro H. apply Rabs_le_inv in H. unfold g2mu. rewrite (g2s_div (r1 - 1500)), (g2s_div (r2 - 1500)). apply Rabs_le. lra. Qed.
Lemma pair_ap L r rj dj : exp_accurate L -> num_in (- 10 ^ 4) (10 ^ 4) r -> num_in (- 10 ^ 4) (10 ^ 4) rj -> num_in 1 350 dj -> Rabs (B2R r - B2R rj) <= 800 ->
  let g := gB L (phB dj) in let G := g2g (g2phi (B2R dj)) in let E := g2E (g2mu (B2R r)) (g2mu (B2R rj)) (g2phi (B2R dj)) in
  ap g G (8 / 10 ^ 15) /\ 0.65 <= G <= 1 /\ ap (eB L (muB r) (muB rj) g) E (27 / 10 ^ 15) /\ 0.0098 <= E <= 0.9902.
Proof.
  intros HE Nr Nj Nd GAP g G E. destruct (mu_ap r Nr) as [A1 B1]. destruct (mu_ap rj Nj) as [A2 B2]. destruct (ph_ap dj Nd) as [A3 B3].
  pose proof (g_ap L _ _ _ A3 ltac:(lra) ltac:(lra)) as AG. fold g in AG. fold G in AG. apply (ap_weak _ _ _ (8 / 10 ^ 15)) in AG; [|lra].
  assert (BG : 0.65 <= G <= 1) by (split; [apply g2g_lo; lra|apply g2g_rng; lra]).
  destruct (e_ap L _ _ _ _ _ _ _ HE A1 A2 B1 B2 (gap_mu _ _ GAP) AG ltac:(lra) ltac:(lra)) as [AE BE]. auto.
Qed.
Lemma half_game L fuel r RD s rj dj t tol o sc z : exp_accurate L -> lnw_accurate L -> hypots_accurate L ->
  num_in (- 10 ^ 4) (10 ^ 4) r -> num_in 1 350 RD -> num_in (/ 100) (3 / 10) s -> num_in (- 10 ^ 4) (10 ^ 4) rj -> num_in 1 350 dj ->
  num_in (/ 10) (12 / 10) t -> finite tol -> 99 / 10 ^ 8 <= B2R tol -> Rabs (B2R r - B2R rj) <= 800 -> ap o sc 0 -> 0 <= sc <= 1 ->
  let games := [(g2mu (B2R rj), g2phi (B2R dj), sc)] in g2_moderate (B2R r) (B2R RD) (B2R t) games ->
  let g := gB L (phB dj) in let e := eB L (muB r) (muB rj) g in let v := Bdiv mode_NE one64 (t1B g e) in let delta := Bmult mode_NE v (t2B o g e) in let f := phB RD in
  g2_new_volatility (A := B64A L) fuel s (Bmult mode_NE delta delta) (Bmult mode_NE f f) v t tol = Some z ->
  let nd := g2_new_deviation (A := B64A L) f z v in
  g2_updated (mkGlicko2 (Bfma mode_NE (Bfma mode_NE (Bmult mode_NE (Bmult mode_NE nd nd) g) (Bminus mode_NE o e) (muB r)) scB (b64_of_Z 1500)) (Bmult mode_NE nd scB) z)
    (B2R r) (B2R RD) (B2R s) (B2R t) (B2R tol) games.
Proof.
  intros HE HL HH Nr Nd Ns Nj Ndj Nt Fo Bo GAP AO BO games MOD g e v delta f Hz nd.
  destruct (pair_ap L r rj dj HE Nr Nj Ndj GAP) as (AG & BG & AE & BE). fold g in AG, AE. fold e in AE. set (G := g2g (g2phi (B2R dj))) in *. set (E := g2E (g2mu (B2R r)) (g2mu (B2R rj)) (g2phi (B2R dj))) in *.
  destruct (t1_ap g G e E AG BG AE BE) as [A1 B1]. destruct (t2_ap o sc g G e E AO BO AG BG AE BE) as (A2 & B2 & A3).
  assert (EV : / g2v (g2mu (B2R r)) games = G ^ 2 * E * (1 - E)) by (unfold g2v, games; simpl map; unfold Rsum; cbn [fold_right]; rewrite Rinv_inv; fold G E; ring).
  assert (EM : g2M (g2mu (B2R r)) games = G * (sc - E)) by (unfold g2M, games; simpl map; unfold Rsum; cbn [fold_right]; fold G E; ring).
  refine (out_ap L r RD (t1B g e) (t2B o g e) (G * (sc - E)) 1 s t tol fuel z _ (g2_phi' (g2phi (B2R RD)) (ext z) (g2v (g2mu (B2R r)) games) ^ 2 * G) _ (sc - E) games HE HL HH Nr Nd Ns Nt Fo Bo _ _ _ _ _ _ MOD Hz _ _ _); try assumption.
  - lra.
  - rewrite EV. apply (ap_weak _ _ _ _ A1). lra.
  - rewrite EV. lra.
  - symmetry; exact EM.
  - apply (ap_weak _ _ _ _ A2). lra.
  - set (N2 := g2_phi' _ _ _ ^ 2). intros H1 H2 _. pose proof (rp_of _ _ _ 0.65 AG ltac:(lra) ltac:(lra)) as RG.
    assert (P : 0 < N2 * G <= N2) by nra. split; [|exact P].
    assert (PL : / 10 ^ 25 <= N2 * G -> rp (Bmult mode_NE (Bmult mode_NE nd nd) g) (N2 * G) (28 / 10 ^ 12)).
    { intro Q. apply (rp_weak _ _ (27 / 10 ^ 12 + 8 / 10 ^ 15 / 0.65 + 27 / 10 ^ 12 * (8 / 10 ^ 15 / 0.65) + 2 * u0)); [|lra|ulra]. apply rp_mul; [exact H1|exact RG|lra|lra|lra|lra|lra]. }
    apply PL. nra.
  - apply (ap_weak _ _ _ _ A3). lra.
  - ring.
Qed.

Lemma C115_game_proof : forall (L : Libm) (fuel : nat) (p1 p2 q1 q2 : Glicko2Rating B64) (o : Outcomes) (cfg : Glicko2Config B64),
  exp_accurate L -> lnw_accurate L -> hypots_accurate L ->
  num_in (- 10 ^ 4) (10 ^ 4) (g2_rating p1) -> num_in 1 350 (g2_deviation p1) -> num_in (/ 100) (3 / 10) (g2_volatility p1) ->
  num_in (- 10 ^ 4) (10 ^ 4) (g2_rating p2) -> num_in 1 350 (g2_deviation p2) -> num_in (/ 100) (3 / 10) (g2_volatility p2) ->
  num_in (/ 10) (12 / 10) (g2_tau cfg) -> finite (g2_convergence_tolerance cfg) -> 99 / 10 ^ 8 <= B2R (g2_convergence_tolerance cfg) ->
  let r1 := B2R (g2_rating p1) in let d1 := B2R (g2_deviation p1) in let r2 := B2R (g2_rating p2) in let d2 := B2R (g2_deviation p2) in
  let tau := B2R (g2_tau cfg) in let tol := B2R (g2_convergence_tolerance cfg) in
  let games1 := [(g2mu r2, g2phi d2, points o)] in let games2 := [(g2mu r1, g2phi d1, points (invert o))] in
  Rabs (r1 - r2) <= 800 -> g2_moderate r1 d1 tau games1 -> g2_moderate r2 d2 tau games2 ->
  glicko2 (A := B64A L) fuel p1 p2 o cfg = Some (q1, q2) ->
  g2_updated q1 r1 d1 (B2R (g2_volatility p1)) tau tol games1 /\ g2_updated q2 r2 d2 (B2R (g2_volatility p2)) tau tol games2.
Proof.
  intros L fuel [r1 d1 s1] [r2 d2 s2] q1 q2 o [t tol].
  intros HE HL HH Nr1 Nd1 Ns1 Nr2 Nd2 Ns2 Nt Fo Bo R1 D1 R2 D2 T TO games1 games2 GAP M1 M2 H.
  destruct (ext_points L o) as [Fp Ep]. destruct (ext_points2 L o) as [Fq Eq]. cbv zeta in Fq, Eq. pose proof (points_range o) as PR.
  assert (PI' : points (invert o) = 1 - points o) by (destruct o; simpl; lra). rewrite <- PI' in Eq.
  unfold glicko2 in H. cbn [g2_rating g2_deviation g2_volatility g2_tau g2_convergence_tolerance] in H.
  match type of H with match ?a with _ => _ end = _ => destruct a as [z1|] eqn:Z1; [|discriminate] end.
  match type of H with match ?a with _ => _ end = _ => destruct a as [z2|] eqn:Z2; [|discriminate] end.
  apply some_pair in H as [-> ->]. split.
  - exact (half_game L fuel r1 d1 s1 r2 d2 t tol _ _ z1 HE HL HH Nr1 Nd1 Ns1 Nr2 Nd2 Nt Fo Bo GAP (ap_exact _ _ Fp Ep) PR M1 Z1).
  - assert (GAP2 : Rabs (B2R r2 - B2R r1) <= 800) by (rewrite Rabs_minus_sym; exact GAP).
    exact (half_game L fuel r2 d2 s2 r1 d1 t tol _ _ z2 HE HL HH Nr2 Nd2 Ns2 Nr1 Nd1 Nt Fo Bo GAP2 (ap_exact _ _ Fq Eq) ltac:(lra) M2 Z2).
Qed.

Lemma C115_period_proof : forall (L : Libm) (fuel : nat) (p q : Glicko2Rating B64) (rs : list (Glicko2Rating B64 * Outcomes)) (cfg : Glicko2Config B64),
  exp_accurate L -> lnw_accurate L -> hypots_accurate L -> (1 <= length rs <= 100)%nat ->
  num_in (- 10 ^ 4) (10 ^ 4) (g2_rating p) -> num_in 1 350 (g2_deviation p) -> num_in (/ 100) (3 / 10) (g2_volatility p) ->
  num_in (/ 10) (12 / 10) (g2_tau cfg) -> finite (g2_convergence_tolerance cfg) -> 99 / 10 ^ 8 <= B2R (g2_convergence_tolerance cfg) ->
  let r := B2R (g2_rating p) in let d := B2R (g2_deviation p) in let tau := B2R (g2_tau cfg) in
  Forall (fun g => num_in (- 10 ^ 4) (10 ^ 4) (g2_rating (fst g)) /\ num_in 1 350 (g2_deviation (fst g)) /\ Rabs (r - B2R (g2_rating (fst g))) <= 800) rs ->
  let games := map (fun g => (g2mu (B2R (g2_rating (fst g))), g2phi (B2R (g2_deviation (fst g))), points (snd g))) rs in
  g2_moderate r d tau games ->
  glicko2_rating_period (A := B64A L) fuel p rs cfg = Some q ->
  g2_updated q r d (B2R (g2_volatility p)) tau (B2R (g2_convergence_tolerance cfg)) games.
Proof.
  intros L fuel [r d s] q rs [t tol] HE HL HH LEN Nr Nd Ns Nt Fo Bo R D T HF games MOD H.
  cbn [g2_rating g2_deviation g2_volatility g2_tau g2_convergence_tolerance] in Nr, Nd, Ns, Nt, Fo, Bo, R, D, T.
  set (g := fun x : Glicko2Rating B64 * Outcomes => gB L (phB (g2_deviation (fst x)))). set (e := fun x : Glicko2Rating B64 * Outcomes => eB L (muB r) (muB (g2_rating (fst x))) (g x)).
  set (G := fun x : Glicko2Rating B64 * Outcomes => g2g (g2phi (B2R (g2_deviation (fst x))))).
  set (E := fun x : Glicko2Rating B64 * Outcomes => g2E (g2mu R) (g2mu (B2R (g2_rating (fst x)))) (g2phi (B2R (g2_deviation (fst x))))).
  set (f1 := fun x => t1B (g x) (e x)). set (f2 := fun x : Glicko2Rating B64 * Outcomes => t2B (to_chess_points (A := B64A L) (snd x)) (g x) (e x)).
  set (F1 := fun x => G x ^ 2 * E x * (1 - E x)). set (F2 := fun x : Glicko2Rating B64 * Outcomes => G x * (points (snd x) - E x)).
  assert (P1 : Forall (fun x => (ap (f1 x) (F1 x) (35 / 10 ^ 15) /\ Rabs (F1 x) <= 1) /\ 0.004099 <= F1 x <= / 4) rs /\ Forall (fun x => ap (f2 x) (F2 x) (36 / 10 ^ 15) /\ Rabs (F2 x) <= 1) rs).
  { split; apply (Forall_impl _ (P := fun x => _)) with (2 := HF); intros x (Hr & Hd & GAP); destruct (pair_ap L r (g2_rating (fst x)) (g2_deviation (fst x)) HE Nr Hr Hd GAP) as (AG & BG & AE & BE).
    - destruct (t1_ap _ _ _ _ AG BG AE BE) as [A1 B1]. split; [split; [exact A1|]|exact B1]. unfold F1, G, E, R. rewrite Rabs_pos_eq; lra.
    - destruct (ext_points L (snd x)) as [Fp Ep]. destruct (t2_ap _ _ _ _ _ _ (ap_exact _ _ Fp Ep) (points_range (snd x)) AG BG AE BE) as (A2 & B2 & _). split; assumption. }
  destruct P1 as [P1 P2]. set (n := INR (length rs)).
  assert (Hn : 1 <= n <= 100). { unfold n. split; [apply (le_INR 1); lia|]. replace 100 with (INR 100) by (rewrite INR_IZR_INZ; reflexivity). apply le_INR; lia. }
  destruct (sum100 _ L f1 F1 (35 / 10 ^ 15) rs ltac:(lra) ltac:(apply (Forall_impl _) with (2 := P1); tauto) ltac:(lia)) as [S1 _]. fold n in S1.
  destruct (sum100 _ L f2 F2 (36 / 10 ^ 15) rs ltac:(lra) P2 ltac:(lia)) as [S2 BM]. fold n in S2, BM.
  assert (BS : 0.004099 * n <= Rsum (map F1 rs) <= n / 4).
  { unfold n. clear - P1. induction rs as [|x l IH]; [simpl; lra|]. apply Forall_cons_iff in P1 as [[_ B] P1]. specialize (IH P1). simpl length. rewrite S_INR. simpl map. unfold Rsum in *. cbn [fold_right]. lra. }
  assert (EV : / g2v (g2mu R) games = Rsum (map F1 rs)). { unfold g2v, games. rewrite Rinv_inv, map_map. reflexivity. }
  assert (EM : Rsum (map F2 rs) = g2M (g2mu R) games). { unfold g2M, games. rewrite map_map. reflexivity. }
  assert (H' : match g2_new_volatility (A := B64A L) fuel s (let dl := Bmult mode_NE (Bdiv mode_NE one64 (fsum (A := B64A L) (map f1 rs))) (fsum (A := B64A L) (map f2 rs)) in Bmult mode_NE dl dl)
      (Bmult mode_NE (phB d) (phB d)) (Bdiv mode_NE one64 (fsum (A := B64A L) (map f1 rs))) t tol with
    | None => None
    | Some z => let nd := g2_new_deviation (A := B64A L) (phB d) z (Bdiv mode_NE one64 (fsum (A := B64A L) (map f1 rs))) in
      Some (mkGlicko2 (Bfma mode_NE (Bfma mode_NE (Bmult mode_NE nd nd) (fsum (A := B64A L) (map f2 rs)) (muB r)) scB (b64_of_Z 1500)) (Bmult mode_NE nd scB) z) end = Some q).
  { destruct rs as [|x l]; [simpl in LEN; lia|]. exact H. }
  clear H. destruct (g2_new_volatility _ _ _ _ _ _ _) as [z|] eqn:Z; [|discriminate]. cbv zeta in H'. injection H' as <-.
  refine (out_ap L r d _ _ (Rsum (map F2 rs)) n s t tol fuel z _ (g2_phi' (g2phi (B2R d)) (ext z) (g2v (g2mu (B2R r)) games) ^ 2) _ (Rsum (map F2 rs)) games HE HL HH Nr Nd Ns Nt Fo Bo Hn _ _ EM _ BM MOD Z _ _ _).
  - fold R. rewrite EV. apply (ap_weak _ _ _ _ S1). unfold u0. nra.
  - fold R. rewrite EV. exact BS.
  - apply (ap_weak _ _ _ _ S2). unfold u0. nra.
  - set (N2 := g2_phi' _ _ _ ^ 2). intros H1 H2 _. split; [apply (rp_weak _ _ _ _ H1); lra|lra].
  - apply (ap_weak _ _ _ _ S2). unfold u0. nra.
  - reflexivity.
Qed.

(** ** Results that are not upsets are moderate *)
Lemma moderate_single r RD t muj phij s : 1 <= RD <= 350 -> 0 <= t <= 12 / 10 -> 0 <= phij <= 2.1 -> Rabs (g2mu r - muj) <= 4.6052 ->
  let E := g2E (g2mu r) muj phij in (s - E) ^ 2 <= E * (1 - E) -> g2_moderate r RD t [(muj, phij, s)].
Proof.
  intros Hd Ht Hj GAP E UP. unfold g2_moderate. cbv zeta.
  assert (Ph : 1 / 173.7178 <= g2phi RD) by (unfold g2phi; rewrite (g2s_div RD); lra). set (ph := g2phi RD) in *. assert (P2 : 3.3 / 10 ^ 5 <= ph ^ 2) by nra.
  set (G := g2g phij) in *. assert (BG : 0.65 <= G <= 1) by (split; [apply g2g_lo; lra|apply g2g_rng; lra]).
  assert (BE : 0.0098 <= E <= 0.9902).
  { unfold E, g2E. fold G. set (Y := - G * (g2mu r - muj)). assert (BY : Rabs Y <= 4.6052). { unfold Y. rewrite Rabs_mult, Rabs_Ropp, (Rabs_pos_eq G) by lra. pose proof (Rabs_pos (g2mu r - muj)). nra. }
    apply logi_rng, BY. }
  assert (EE : 0.0097039 <= E * (1 - E) <= / 4) by (pose proof (Rmult_le_pos (E - 0.0098) (0.9902 - E) ltac:(lra) ltac:(lra)); pose proof (pow2_ge_0 (E - / 2)); lra).
  assert (EV : g2v (g2mu r) [(muj, phij, s)] = / (G ^ 2 * (E * (1 - E)))) by (unfold g2v; simpl map; unfold Rsum; cbn [fold_right]; fold G E; f_equal; ring).
  assert (EM : g2M (g2mu r) [(muj, phij, s)] = G * (s - E)) by (unfold g2M; simpl map; unfold Rsum; cbn [fold_right]; fold G E; ring).
  rewrite EV, EM. assert (G2 : 0.4225 <= G ^ 2 <= 1) by nra. set (w := G ^ 2 * (E * (1 - E))). assert (W : 0.004099 <= w) by (unfold w; nra).
  assert (VW : 0 < / w <= 244). { split; [apply Rinv_0_lt_compat; lra|]. replace 244 with (/ (1 / 244)) by field. apply Rinv_le_contravar; lra. }
  assert (DD : (/ w * (G * (s - E))) ^ 2 <= / w).
  { replace ((/ w * (G * (s - E))) ^ 2) with (/ w * (/ w * (G ^ 2 * (s - E) ^ 2))) by ring. rewrite <- (Rmult_1_r (/ w)) at 3. apply Rmult_le_compat_l; [lra|].
    apply Rmult_le_reg_l with w; [lra|]. rewrite <- Rmult_assoc, Rinv_r, Rmult_1_l, Rmult_1_r by lra. unfold w. apply Rmult_le_compat_l; lra. }
  set (d2 := (/ w * (G * (s - E))) ^ 2) in *. assert (D0 : 0 <= d2) by apply pow2_ge_0.
  split; [lra|]. split; [assert (T2 : 0 <= t ^ 2 <= 1.44) by nra; assert (t ^ 2 * d2 <= 1.44 * d2) by (apply Rmult_le_compat_r; lra); lra|].
  rewrite Rabs_left by lra. lra.
Qed.
Lemma e_273 : exp 1 <= 2.7295.
Proof.
  assert (H : exp (/ 128) <= 128 / 127). { rewrite <- (Ropp_involutive (/ 128)), exp_Ropp. replace (128 / 127) with (/ (127 / 128)) by field. apply Rinv_le_contravar; [lra|]. pose proof (exp_ineq1_le (- / 128)). lra. }
  assert (D : forall x, exp (x + x) = exp x * exp x) by (intro x; apply exp_plus).
  assert (S : forall x c d, exp x <= c -> c * c <= d -> exp (x + x) <= d). { intros x c d Hc Hd. rewrite D. pose proof (exp_pos x). nra. }
  pose proof (S _ _ 1.015811 H ltac:(lra)) as H1. pose proof (S _ _ 1.031872 H1 ltac:(lra)) as H2. pose proof (S _ _ 1.064760 H2 ltac:(lra)) as H3. pose proof (S _ _ 1.133714 H3 ltac:(lra)) as H4.
  pose proof (S _ _ 1.285308 H4 ltac:(lra)) as H5. pose proof (S _ _ 1.652017 H5 ltac:(lra)) as H6. pose proof (S _ _ 2.7295 H6 ltac:(lra)) as H7. eapply Rle_trans; [|exact H7]. right. f_equal. field.
Qed.
Lemma exp_300 : exp (300 / 173.7178) <= 5.8.
Proof.
  apply Rle_trans with (exp (7 / 4)); [left; apply exp_increasing; lra|]. apply Rnot_lt_le. intro H. pose proof (exp_pos (7 / 4)) as P.
  assert (E4 : exp (7 / 4) * exp (7 / 4) * (exp (7 / 4) * exp (7 / 4)) = exp 1 ^ 7). { rewrite <- !exp_plus. replace (7 / 4 + 7 / 4 + (7 / 4 + 7 / 4)) with (1 + 1 + 1 + 1 + 1 + 1 + 1) by lra. rewrite !exp_plus. ring. }
  pose proof e_273 as B1. pose proof (exp_pos 1). assert (U : exp 1 ^ 7 <= 2.7295 ^ 7) by (apply pow_incr; lra). assert (Q : 33.64 < exp (7 / 4) * exp (7 / 4)) by nra. nra.
Qed.
(** The favourite wins, or the game is a draw of players within 300 points. *)
Definition no_upset (r1 r2 : R) (o : Outcomes) : Prop :=
  match o with WIN => r2 <= r1 | LOSS => r1 <= r2 | DRAW => Rabs (r1 - r2) <= 300 end.
Lemma no_upset_sq r1 r2 d2 o : no_upset r1 r2 o -> 0 <= g2phi d2 <= 2.1 -> let E := g2E (g2mu r1) (g2mu r2) (g2phi d2) in (points o - E) ^ 2 <= E * (1 - E).
Proof.
  intros H B E. unfold E, g2E. set (G := g2g (g2phi d2)). assert (BG : / 2 <= G <= 1) by (apply g2g_rng; lra).
  assert (MU : g2mu r1 - g2mu r2 = (r1 - r2) * (1 / 173.7178)) by (unfold g2mu; rewrite (g2s_div (r1 - 1500)), (g2s_div (r2 - 1500)); ring). rewrite MU.
  set (Y := - G * ((r1 - r2) * (1 / 173.7178))). assert (EY : forall a b, a <= b -> exp a <= exp b) by (intros a b [Q| ->]; [left; apply exp_increasing; exact Q|lra]).
  pose proof (exp_pos Y) as P0. assert (I : 0 < / (1 + exp Y)) by (apply Rinv_0_lt_compat; lra). set (p := exp Y) in *.
  assert (K : (points o * (1 + p) - 1) ^ 2 <= p).
  { destruct o; cbn [points no_upset] in *.
    - assert (p <= 1) by (unfold p; rewrite <- exp_0; apply EY; unfold Y; nra). nra.
    - assert (1 <= p) by (unfold p; rewrite <- exp_0; apply EY; unfold Y; nra). nra.
    - assert (A : Rabs Y <= 300 / 173.7178). { unfold Y. rewrite !Rabs_mult, Rabs_Ropp, (Rabs_pos_eq G), (Rabs_pos_eq (1 / 173.7178)) by lra. pose proof (Rabs_pos (r1 - r2)). nra. } apply Rabs_le_inv in A.
      assert (U : p <= 5.8) by (apply Rle_trans with (2 := exp_300); apply EY; lra).
      assert (LW : / 5.8 <= p). { unfold p. rewrite <- (Ropp_involutive Y), exp_Ropp. apply Rinv_le_contravar; [apply exp_pos|]. apply Rle_trans with (2 := exp_300); apply EY; lra. }
      assert (0 <= (5.8 - p) * (p - / 5.8)) by (apply Rmult_le_pos; lra). nra. }
  apply Rmult_le_reg_r with ((1 + p) ^ 2); [nra|]. replace ((points o - / (1 + p)) ^ 2 * (1 + p) ^ 2) with ((points o * (1 + p) - 1) ^ 2) by (field; lra).
  replace (/ (1 + p) * (1 - / (1 + p)) * (1 + p) ^ 2) with p by (field; lra). exact K.
Qed.
Lemma no_upset_inv r1 r2 o : no_upset r1 r2 o -> no_upset r2 r1 (invert o).
Proof. destruct o; cbn; intro H; try assumption. rewrite Rabs_minus_sym. exact H. Qed.
Lemma no_upset_moderate r1 d1 r2 d2 t o : 1 <= d1 <= 350 -> 1 <= d2 <= 350 -> 0 <= t <= 12 / 10 -> Rabs (r1 - r2) <= 800 -> no_upset r1 r2 o ->
  g2_moderate r1 d1 t [(g2mu r2, g2phi d2, points o)].
Proof.
  intros H1 H2 Ht GAP U. assert (B : 0 <= g2phi d2 <= 2.1) by (unfold g2phi; rewrite (g2s_div d2); lra).
  apply moderate_single; try assumption; [apply gap_mu, GAP|]. apply no_upset_sq; assumption.
Qed.
Lemma C115_usual_proof : forall (L : Libm) (fuel : nat) (p1 p2 q1 q2 : Glicko2Rating B64) (o : Outcomes) (cfg : Glicko2Config B64),
  exp_accurate L -> lnw_accurate L -> hypots_accurate L ->
  num_in (- 10 ^ 4) (10 ^ 4) (g2_rating p1) -> num_in 1 350 (g2_deviation p1) -> num_in (/ 100) (3 / 10) (g2_volatility p1) ->
  num_in (- 10 ^ 4) (10 ^ 4) (g2_rating p2) -> num_in 1 350 (g2_deviation p2) -> num_in (/ 100) (3 / 10) (g2_volatility p2) ->
  num_in (/ 10) (12 / 10) (g2_tau cfg) -> finite (g2_convergence_tolerance cfg) -> 99 / 10 ^ 8 <= B2R (g2_convergence_tolerance cfg) ->
  let r1 := B2R (g2_rating p1) in let d1 := B2R (g2_deviation p1) in let r2 := B2R (g2_rating p2) in let d2 := B2R (g2_deviation p2) in
  let tau := B2R (g2_tau cfg) in let tol := B2R (g2_convergence_tolerance cfg) in
  Rabs (r1 - r2) <= 800 -> (match o with WIN => r2 <= r1 | LOSS => r1 <= r2 | DRAW => Rabs (r1 - r2) <= 300 end) ->
  glicko2 (A := B64A L) fuel p1 p2 o cfg = Some (q1, q2) ->
  g2_updated q1 r1 d1 (B2R (g2_volatility p1)) tau tol [(g2mu r2, g2phi d2, points o)] /\
  g2_updated q2 r2 d2 (B2R (g2_volatility p2)) tau tol [(g2mu r1, g2phi d1, points (invert o))].
Proof.
  intros L fuel p1 p2 q1 q2 o cfg HE HL HH N1 M1 V1 N2 M2 V2 NT Fo Bo r1 d1 r2 d2 tau tol GAP U H.
  assert (TT : 0 <= tau <= 12 / 10) by (destruct NT as [_ NT]; unfold tau; lra). destruct M1 as [F1 B1], M2 as [F2 B2].
  apply (C115_game_proof L fuel p1 p2 q1 q2 o cfg); try assumption; try (split; assumption).
  - apply no_upset_moderate; assumption.
  - apply no_upset_moderate; try assumption; [rewrite Rabs_minus_sym; exact GAP|apply no_upset_inv; exact U].
Qed.

(** ** Expected scores and decay *)
Lemma hyp2_ap L f1 P1 f2 P2 : hypots_accurate L -> ap f1 P1 (8 / 10 ^ 16) -> / 200 <= P1 <= 2.1 -> ap f2 P2 (8 / 10 ^ 16) -> / 200 <= P2 <= 2.1 ->
  ap (l_hypot L f2 f1) (sqrt (P1 ^ 2 + P2 ^ 2)) (5 / 10 ^ 15) /\ 0 <= sqrt (P1 ^ 2 + P2 ^ 2) <= 3.
Proof.
  intros HL [F1 A1] B1 [F2 A2] B2. pose proof (Rabs_le_inv _ _ A1) as A1'. pose proof (Rabs_le_inv _ _ A2) as A2'.
  assert (SB : forall a b, 0 <= a <= 2.11 -> 0 <= b <= 2.11 -> 0 <= sqrt (a ^ 2 + b ^ 2) <= 3). { intros a b Ha Hb. split; [apply sqrt_pos|]. rewrite <- (sqrt_pow2 3) by lra. apply sqrt_le_1_alt. nra. }
  split; [|apply SB; lra]. destruct (HL f2 f1 F2 F1) as [Fh Ah]; [rewrite <- (ext_fin f2 F2), Rabs_pos_eq; lra|rewrite <- (ext_fin f1 F1), Rabs_pos_eq; lra|].
  rewrite <- (ext_fin f2 F2), <- (ext_fin f1 F1), <- (ext_fin _ Fh) in Ah. split; [exact Fh|].
  pose proof (hyp_lip (ext f2) P2 (ext f1) ltac:(lra) ltac:(lra)) as L1. pose proof (hyp_lip (ext f1) P1 P2 ltac:(lra) ltac:(lra)) as L2.
  rewrite (Rplus_comm (P2 ^ 2) (ext f1 ^ 2)) in L1. pose proof (SB (ext f2) (ext f1) ltac:(lra) ltac:(lra)) as S1. pose proof i50.
  assert (Ah' : Rabs (ext (l_hypot L f2 f1) - sqrt (ext f2 ^ 2 + ext f1 ^ 2)) <= / 10 ^ 15 * 3) by (eapply Rle_trans; [exact Ah|apply Rmult_le_compat; lra]).
  apply Rabs_le_inv in Ah'. pose proof (Rabs_le_inv _ _ (Rle_trans _ _ _ L1 A2)). pose proof (Rabs_le_inv _ _ (Rle_trans _ _ _ L2 A1)). apply Rabs_le. lra.
Qed.
Lemma arg_ap L r1 d1 r2 d2 : hypots_accurate L -> num_in (- 10 ^ 4) (10 ^ 4) r1 -> num_in 1 350 d1 -> num_in (- 10 ^ 4) (10 ^ 4) r2 -> num_in 1 350 d2 ->
  let G := g2g (sqrt (g2phi (B2R d1) ^ 2 + g2phi (B2R d2) ^ 2)) in let M := g2mu (B2R r1) - g2mu (B2R r2) in let g := gB L (l_hypot L (phB d2) (phB d1)) in
  ap (Bmult mode_NE (Bopp g) (Bminus mode_NE (muB r1) (muB r2))) (- G * M) (3 / 10 ^ 12) /\
  ap (Bopp (Bmult mode_NE g (Bminus mode_NE (muB r1) (muB r2)))) (- G * M) (3 / 10 ^ 12) /\ Rabs (- G * M) <= 134.
Proof.
  intros HH N1 M1 N2 M2 G M g. destruct (mu_ap r1 N1) as [A1 B1]. destruct (mu_ap r2 N2) as [A2 B2]. destruct (ph_ap d1 M1) as [A3 B3]. destruct (ph_ap d2 M2) as [A4 B4].
  destruct (hyp2_ap L _ _ _ _ HH A3 B3 A4 B4) as [AH BH]. pose proof (g_ap L _ _ _ AH BH ltac:(lra)) as AG. fold g in AG. fold G in AG. apply (ap_weak _ _ _ (16 / 10 ^ 15)) in AG; [|lra].
  pose proof (g2g_rng _ BH) as BG. fold G in BG. assert (BM : Rabs M <= 134) by (apply Rabs_le; unfold M; lra).
  pose proof (ap_sub _ _ _ _ _ _ 135 A1 A2 ltac:(unfold M in BM; lra) ltac:(okb)) as S1. fold M in S1. apply (ap_weak _ _ _ (8 / 10 ^ 14)) in S1; [|ulra].
  assert (BP : Rabs (- G * M) <= 134). { rewrite Rabs_mult, Rabs_Ropp, (Rabs_pos_eq G) by lra. pose proof (Rabs_pos M). nra. }
  split; [|split; [|exact BP]].
  - pose proof (ap_mul _ _ _ _ _ _ 1 134 135 (ap_opp _ _ _ AG) S1 ltac:(rewrite Rabs_Ropp; bd) BM ltac:(lra) ltac:(okb)) as S2. apply (ap_weak _ _ _ _ S2). ulra.
  - pose proof (ap_mul _ _ _ _ _ _ 1 134 135 AG S1 ltac:(bd) BM ltac:(lra) ltac:(okb)) as S2. replace (- G * M) with (- (G * M)) by ring. apply ap_opp. apply (ap_weak _ _ _ _ S2). ulra.
Qed.
Lemma C115_expected_proof : forall (L : Libm) (p1 p2 : Glicko2Rating B64), exp_accurate L -> hypots_accurate L ->
  num_in (- 10 ^ 4) (10 ^ 4) (g2_rating p1) -> num_in 1 350 (g2_deviation p1) -> num_in (- 10 ^ 4) (10 ^ 4) (g2_rating p2) -> num_in 1 350 (g2_deviation p2) ->
  let E := g2E (g2mu (B2R (g2_rating p1))) (g2mu (B2R (g2_rating p2))) (sqrt (g2phi (B2R (g2_deviation p1)) ^ 2 + g2phi (B2R (g2_deviation p2)) ^ 2)) in
  near (fst (glicko2_expected_score (A := B64A L) p1 p2)) E (/ 10 ^ 11) /\ near (snd (glicko2_expected_score (A := B64A L) p1 p2)) (1 - E) (/ 10 ^ 11).
Proof.
  intros L [r1 d1 s1] [r2 d2 s2] HE HH N1 M1 N2 M2 E. destruct (arg_ap L r1 d1 r2 d2 HH N1 M1 N2 M2) as (A & _ & B).
  destruct (lexp_ap L _ _ _ HE A ltac:(lra) ltac:(lra)) as [A1 B1]. pose proof (one_minus_ap _ _ _ A1 ltac:(lra) ltac:(lra)) as A2.
  split; apply ap_near; [apply (ap_weak _ _ _ _ A1)|apply (ap_weak _ _ _ _ A2)]; lra.
Qed.
Lemma C115_expected_period_proof : forall (L : Libm) (p : Glicko2Rating B64) (os : list (Glicko2Rating B64)), exp_accurate L -> hypots_accurate L ->
  num_in (- 10 ^ 4) (10 ^ 4) (g2_rating p) -> num_in 1 350 (g2_deviation p) ->
  Forall (fun q => num_in (- 10 ^ 4) (10 ^ 4) (g2_rating q) /\ num_in 1 350 (g2_deviation q)) os ->
  Forall2 (fun e q => near e (g2E (g2mu (B2R (g2_rating p))) (g2mu (B2R (g2_rating q))) (sqrt (g2phi (B2R (g2_deviation p)) ^ 2 + g2phi (B2R (g2_deviation q)) ^ 2))) (/ 10 ^ 11))
    (glicko2_expected_score_rating_period (A := B64A L) p os) os.
Proof.
  intros L [r1 d1 s1] os HE HH N1 M1 H. unfold glicko2_expected_score_rating_period. induction H as [|[r2 d2 s2] l [N2 M2] HF IH]; [constructor|]. cbn [map]. constructor; [|exact IH].
  destruct (arg_ap L r1 d1 r2 d2 HH N1 M1 N2 M2) as (_ & A & B). destruct (lexp_ap L _ _ _ HE A ltac:(lra) ltac:(lra)) as [A1 B1]. apply ap_near, (ap_weak _ _ _ _ A1). lra.
Qed.
Lemma C115_decay_proof : forall (L : Libm) (p : Glicko2Rating B64), hypots_accurate L -> num_in 1 350 (g2_deviation p) -> num_in 0 10 (g2_volatility p) ->
  let q := glicko2_decay_deviation (A := B64A L) p in
  g2_rating q = g2_rating p /\ g2_volatility q = g2_volatility p /\
  near (g2_deviation q) (Rmin (sqrt (B2R (g2_deviation p) ^ 2 + (g2s * B2R (g2_volatility p)) ^ 2)) 350) (/ 10 ^ 8).
Proof.
  intros L [r d s] HH Nd [Fs Bs] q. split; [reflexivity|]. split; [reflexivity|]. cbn [g2_deviation g2_volatility] in *. destruct (ph_ap d Nd) as [A B].
  destruct (hyp_rp L _ _ s HH A B Fs ltac:(rewrite (ext_fin s Fs); lra)) as [AH BH]. rewrite (ext_fin s Fs) in AH, BH. set (H := sqrt (g2phi (B2R d) ^ 2 + B2R s ^ 2)) in *.
  assert (BH2 : H <= 13). { unfold H. rewrite <- (sqrt_pow2 13) by lra. apply sqrt_le_1_alt. nra. }
  pose proof (ap_mul _ _ _ _ _ _ 13 174 3000 AH scB_ap ltac:(bd) ltac:(rewrite g2s_rng; bd) ltac:(lra) ltac:(okb)) as S1. apply (ap_weak _ _ _ (/ 10 ^ 8)) in S1; [|ulra].
  assert (EQ : sqrt (B2R d ^ 2 + (g2s * B2R s) ^ 2) = H * g2s). { unfold H. rewrite <- (sqrt_pow2 g2s) at 2 by (rewrite g2s_rng; lra). rewrite <- sqrt_mult_alt by nra. f_equal. unfold g2phi. field. rewrite g2s_rng. lra. }
  rewrite EQ. apply ap_near. exact (min_ap _ _ _ _ _ S1 (ap_Z 350 ltac:(lia))).
Qed.

(** ** The correctly rounded libm meets the contracts *)
Lemma libm_hypots_accurate : hypots_accurate libm_rounded.
Proof.
  intros x y Fx Fy Bx By. destruct (real_fun_fin (fun r => sqrt (B2R x * B2R x + r * r)) (B754_infinity false) (B754_infinity false) y Fy) as [N H].
  rewrite (ext_fin y Fy) in H. apply (libm_acc _ _ N).
  - change (l_hypot libm_rounded x y) with (real_fun (fun r => sqrt (B2R x * B2R x + r * r)) (B754_infinity false) (B754_infinity false) y). rewrite H. f_equal. f_equal. ring.
  - assert (X2 : / 10 ^ 6 <= B2R x ^ 2 <= 10 ^ 12).
    { rewrite <- pow2_abs. split; [replace (/ 10 ^ 6) with ((/ 10 ^ 3) ^ 2) by lra; apply pow_incr; lra|]. replace (10 ^ 12) with ((10 ^ 6) ^ 2) by lra. apply pow_incr. pose proof (Rabs_pos (B2R x)). lra. }
    assert (Y2 : 0 <= B2R y ^ 2 <= 10 ^ 12). { split; [apply pow2_ge_0|]. rewrite <- pow2_abs. apply Rle_trans with ((10 ^ 6) ^ 2); [apply pow_incr; split; [apply Rabs_pos|lra]|lra]. }
    apply small_bpow. assert (/ 10 ^ 3 <= sqrt (B2R x ^ 2 + B2R y ^ 2) <= 10 ^ 7); [|okb]. split.
    + replace (/ 10 ^ 3) with (sqrt ((/ 10 ^ 3) ^ 2)) by (apply sqrt_pow2; lra). apply sqrt_le_1_alt; lra.
    + replace (10 ^ 7) with (sqrt ((10 ^ 7) ^ 2)) by (apply sqrt_pow2; lra). apply sqrt_le_1_alt; lra.
Qed.
Lemma libm_lnw_accurate : lnw_accurate libm_rounded.
Proof.
  intros x F B. destruct (real_fun_fin ln (B754_infinity false) B754_nan x F) as [N H]. rewrite (ext_fin x F) in H. change (real_fun ln (B754_infinity false) B754_nan x) with (l_ln libm_rounded x) in N, H.
  set (y := l_ln libm_rounded x) in *. clearbody y. set (v := ln (B2R x)) in *.
  assert (LB : Rabs v <= 30).
  { pose proof ln10_close as LN. assert (U : ln (10 ^ 6) = 6 * ln 10) by (rewrite (ln_pow 10 ltac:(lra) 6); simpl; lra). assert (W : ln (/ 10 ^ 12) = - (12 * ln 10)) by (rewrite ln_Rinv by lra; rewrite (ln_pow 10 ltac:(lra) 12); simpl; lra).
    pose proof (ln_le' (/ 10 ^ 12) (B2R x) ltac:(lra) ltac:(lra)). pose proof (ln_le' (B2R x) (10 ^ 6) ltac:(lra) ltac:(lra)). apply Rabs_le. unfold v. lra. }
  destruct (ap_rnd y v v 0 (1 + Rabs v) N H) as [FY AY]; [rewrite Rminus_diag_eq by reflexivity; rewrite Rabs_R0; lra|lra|pose proof (Rabs_pos v); okb|].
  split; [exact FY|]. rewrite <- (ext_fin y FY). eapply Rle_trans; [exact AY|]. rewrite Rplus_0_l. apply Rmult_le_compat_r; [pose proof (Rabs_pos v); lra|ulra].
Qed.

(** ** A case in which the loops stop at once *)
Lemma upd_quick L f Ph S Sg m Mr n s t tol fuel : exp_accurate L -> lnw_accurate L -> ap f Ph (8 / 10 ^ 16) -> / 200 <= Ph <= 2.1 ->
  1 <= n <= 100 -> ap S Sg (n * (48 / 10 ^ 15)) -> 0.004099 * n <= Sg <= n / 4 -> ap m Mr (n * (49 / 10 ^ 15)) ->
  num_in (/ 100) (3 / 10) s -> num_in (/ 10) (12 / 10) t -> finite tol -> 2 <= B2R tol ->
  let V := / Sg in let D := V * Mr in D ^ 2 <= V ->
  let v := Bdiv mode_NE one64 S in let delta := Bmult mode_NE v m in
  exists z, g2_new_volatility (A := B64A L) (Datatypes.S fuel) s (Bmult mode_NE delta delta) (Bmult mode_NE f f) v t tol = Some z.
Proof.
  intros HE HL Af Bf Hn AS BS AM [Fs Bs] [Ft Bt] Fo Bo V D U v delta.
  destruct (V_rng Sg n Hn BS) as (V1 & V2 & V3). fold V in V1, V2, V3. pose proof (v_rp S Sg n Hn AS BS) as Av. unfold rp in Av. fold V in Av. fold v in Av.
  assert (P2 : 25 / 10 ^ 6 <= Ph ^ 2 <= 5) by nra. assert (D0 : 0 <= D ^ 2) by apply pow2_ge_0.
  pose proof (d2_ap S m Sg Mr n Hn AS BS AM (Ph ^ 2) ltac:(lra) ltac:(fold V; fold D; lra)) as Ad. fold V in Ad. fold D in Ad. fold v in Ad. fold delta in Ad.
  pose proof (ap_mul _ _ _ _ _ _ 2.1 2.1 5 Af Af ltac:(bd) ltac:(bd) ltac:(lra) ltac:(okb)) as Ap.
  assert (T2 : 0 <= B2R t ^ 2 <= 1.44) by nra. assert (TD : B2R t ^ 2 * D ^ 2 <= 1.44 * D ^ 2) by (apply Rmult_le_compat_r; lra).
  destruct (vol_quick L (Bmult mode_NE delta delta) (Bmult mode_NE f f) v s t (D ^ 2) (Ph ^ 2) V) with (tol := tol) (fuel := fuel) as [z Z]; try assumption; rewrite ?(ext_fin s Fs), ?(ext_fin t Ft), ?(ext_fin tol Fo); try lra.
  - replace (Ph ^ 2) with (Ph * Ph) in * by ring. apply (ap_weak _ _ _ _ Ap). ulra.
  - apply (ap_weak _ _ _ _ Av). lra.
  - rewrite Rabs_left by lra. lra.
  - exists z. exact Z.
Qed.
Lemma half_quick L fuel r RD s rj dj t tol o sc : exp_accurate L -> lnw_accurate L ->
  num_in (- 10 ^ 4) (10 ^ 4) r -> num_in 1 350 RD -> num_in (/ 100) (3 / 10) s -> num_in (- 10 ^ 4) (10 ^ 4) rj -> num_in 1 350 dj ->
  num_in (/ 10) (12 / 10) t -> finite tol -> 2 <= B2R tol -> Rabs (B2R r - B2R rj) <= 800 -> ap o sc 0 -> 0 <= sc <= 1 ->
  let E := g2E (g2mu (B2R r)) (g2mu (B2R rj)) (g2phi (B2R dj)) in (sc - E) ^ 2 <= E * (1 - E) ->
  let g := gB L (phB dj) in let e := eB L (muB r) (muB rj) g in let v := Bdiv mode_NE one64 (t1B g e) in let delta := Bmult mode_NE v (t2B o g e) in let f := phB RD in
  exists z, g2_new_volatility (A := B64A L) (Datatypes.S fuel) s (Bmult mode_NE delta delta) (Bmult mode_NE f f) v t tol = Some z.
Proof.
  intros HE HL Nr Nd Ns Nj Ndj Nt Fo Bo GAP AO BO E U g e v delta f. destruct (ph_ap RD Nd) as [Aph Bph].
  destruct (pair_ap L r rj dj HE Nr Nj Ndj GAP) as (AG & BG & AE & BE). fold g in AG, AE. fold e in AE. fold E in AE, BE. set (G := g2g (g2phi (B2R dj))) in *.
  destruct (t1_ap g G e E AG BG AE BE) as [A1 B1]. destruct (t2_ap o sc g G e E AO BO AG BG AE BE) as (A2 & B2 & A3).
  apply (ap_weak _ _ _ (1 * (48 / 10 ^ 15))) in A1; [|lra]. apply (ap_weak _ _ _ (1 * (49 / 10 ^ 15))) in A2; [|lra].
  apply (upd_quick L f _ (t1B g e) _ (t2B o g e) _ 1 s t tol fuel HE HL Aph Bph ltac:(lra) A1 ltac:(lra) A2 Ns Nt Fo Bo).
  set (w := G ^ 2 * E * (1 - E)) in *. assert (I : 0 < / w) by (apply Rinv_0_lt_compat; lra).
  replace ((/ w * (G * (sc - E))) ^ 2) with (/ w * (/ w * (G ^ 2 * (sc - E) ^ 2))) by ring. rewrite <- (Rmult_1_r (/ w)) at 3. apply Rmult_le_compat_l; [lra|].
  apply Rmult_le_reg_l with w; [lra|]. rewrite <- Rmult_assoc, Rinv_r, Rmult_1_l, Rmult_1_r by lra. unfold w. rewrite Rmult_assoc. apply Rmult_le_compat_l; [nra|exact U].
Qed.
Lemma game_quick (L : Libm) (fuel : nat) (r1 d1 s1 r2 d2 s2 t tol : B64) (o : Outcomes) : exp_accurate L -> lnw_accurate L ->
  num_in (- 10 ^ 4) (10 ^ 4) r1 -> num_in 1 350 d1 -> num_in (/ 100) (3 / 10) s1 -> num_in (- 10 ^ 4) (10 ^ 4) r2 -> num_in 1 350 d2 -> num_in (/ 100) (3 / 10) s2 ->
  num_in (/ 10) (12 / 10) t -> finite tol -> 2 <= B2R tol -> Rabs (B2R r1 - B2R r2) <= 800 -> no_upset (B2R r1) (B2R r2) o ->
  exists q1 q2, glicko2 (A := B64A L) (Datatypes.S fuel) (mkGlicko2 r1 d1 s1) (mkGlicko2 r2 d2 s2) o (mkGlicko2Config t tol) = Some (q1, q2).
Proof.
  intros HE HL N1 M1 V1 N2 M2 V2 Nt Fo Bo GAP U.
  destruct (ext_points L o) as [Fp Ep]. destruct (ext_points2 L o) as [Fq Eq]. cbv zeta in Fq, Eq. pose proof (points_range o) as PR.
  assert (PI' : points (invert o) = 1 - points o) by (destruct o; simpl; lra). rewrite <- PI' in Eq.
  destruct (ph_ap d1 M1) as [_ B1]. destruct (ph_ap d2 M2) as [_ B2].
  destruct (half_quick L fuel r1 d1 s1 r2 d2 t tol _ _ HE HL N1 M1 V1 N2 M2 Nt Fo Bo GAP (ap_exact _ _ Fp Ep) PR) as [z1 Z1]; [apply no_upset_sq; [exact U|lra]|].
  destruct (half_quick L fuel r2 d2 s2 r1 d1 t tol _ _ HE HL N2 M2 V2 N1 M1 Nt Fo Bo ltac:(rewrite Rabs_minus_sym; exact GAP) (ap_exact _ _ Fq Eq) ltac:(lra)) as [z2 Z2]; [apply no_upset_sq; [apply no_upset_inv; exact U|lra]|].
  unfold glicko2. cbn [g2_rating g2_deviation g2_volatility g2_tau g2_convergence_tolerance].
  match goal with |- exists _ _, match ?a with _ => _ end = _ => replace a with (Some z1) by (symmetry; exact Z1) end.
  match goal with |- exists _ _, match ?a with _ => _ end = _ => replace a with (Some z2) by (symmetry; exact Z2) end.
  eexists. eexists. reflexivity.
Qed.
