(** Property theorems in IEEE-754 double precision, continued: Glicko-Boost (C120). *)
From Coq Require Import ZArith NArith List Bool Reals Lra Lia.
From Flocq Require Import Core.Raux IEEE754.BinarySingleNaN.
From Verif Require Import Arith B64 SpecB64 SpecAcc SpecAcc7 XR ModelLib Spec ModelBoost
  MathB64 MathAcc MathAcc2 ProofB64 ProofB64b ProofB64c ProofB64g ProofGlicko ProofAcc ProofAccGB ProofAccGB2.
Import Spec ListNotations.
Local Open Scope R_scope.

(** C120: one game, one rating period, decay, the expected scores. *)
@THM C120_f64_boost_game C120_game_proof
@THM C120_f64_boost_period C120_period_proof
@THM C120_f64_boost_decay C120_decay_proof
@THM C120_f64_boost_expected C120_expected_proof
@THM C120_f64_boost_expected_period C120_expected_period_proof

(** The correctly rounded libm meets the contracts. *)
Example C120_libm_case : pow10_nonneg libm_rounded /\ pow10_accurate libm_rounded /\ ln10_accurate libm_rounded /\ hypot_accurate libm_rounded /\ exp_accurate libm_rounded.
Proof. exact (conj libm_pow_nonneg (conj libm_pow_accurate (conj libm_ln10_accurate (conj libm_hypot_accurate libm_exp_accurate)))). Qed.
(** The configuration of GlickoBoostConfig::new(), glicko_boost.rs:203-216. *)
Notation C120_default := (boost_config_new (A := B64A libm_rounded)).
Example C120_default_usual : gb_usual C120_default /\ 1.95 <= B2R (gb_k C120_default) <= 1.97.
Proof.
  assert (H : forall z lo hi, (Z.abs z <= 2 ^ 53)%Z -> lo <= IZR z <= hi -> num_in lo hi (b64_of_Z z)).
  { intros z lo hi Hz B. destruct (ext_ofZ z Hz) as [F E]. split; [exact F|]. rewrite <- (ext_fin _ F), E. exact B. }
  assert (K : forall m d B lo hi, (m <> 0)%Z -> (0 < d)%Z -> Rabs (IZR m / IZR d) <= B -> / 10 ^ 5 <= B <= 10 ^ 5 -> lo + B / 10 ^ 9 <= IZR m / IZR d <= hi - B / 10 ^ 9 -> num_in lo hi (b64_lit m d)).
  { intros m d B lo hi Hm Hd HB BB I. assert (OK : / 10 ^ 200 <= B <= 10 ^ 200) by (split; [apply Rle_trans with (/ 10 ^ 5); [apply Rinv_le_contravar; [lra|apply Rle_pow; [lra|lia]]|lra]|apply Rle_trans with (10 ^ 5); [lra|apply Rle_pow; [lra|lia]]]).
    destruct (lit_ap m d B Hm Hd HB OK) as [F A]. apply Rabs_le_inv in A. rewrite (ext_fin _ F) in A. assert (u0 * B <= B / 10 ^ 9) by (unfold u0; lra). split; [exact F|lra]. }
  unfold gb_usual, boost_config_new; cbn [gb_eta gb_k gb_b0 gb_b1 gb_alpha0 gb_alpha1 gb_alpha2 gb_alpha3 gb_alpha4 fofZ flit B64A].
  assert (HK : num_in 1.95 1.97 (b64_lit 196 100)) by (apply (K _ _ 2); try lia; try lra; rewrite Rabs_pos_eq; lra).
  split; [|exact (proj2 HK)]. split; [apply H; [vm_compute; discriminate|lra]|]. split; [destruct HK; split; [assumption|lra]|].
  split; [apply (K _ _ 1); try lia; try lra; rewrite Rabs_pos_eq; lra|]. split; [apply (K _ _ 20); try lia; try lra; rewrite Rabs_pos_eq; lra|].
  split; [apply (K _ _ 6); try lia; try lra; rewrite Rabs_pos_eq; lra|]. split; [apply (K _ _ 1); try lia; try lra; rewrite Rabs_left; lra|].
  split; [apply (K _ _ (/ 10 ^ 4)); try lia; try lra; rewrite Rabs_left; lra|]. split; [apply (K _ _ 1); try lia; try lra; rewrite Rabs_pos_eq; lra|].
  apply (K _ _ (/ 100)); try lia; try lra; rewrite Rabs_pos_eq; lra.
Qed.
(** With it, a win over an even opponent is clearly not exceptional, and a win
    against odds of 800 points (deviation 50) clearly is. *)
Example C120_clear_case : gb_clear C120_default 1500 [(1500, 50, 1)] /\ gb_clear C120_default 1500 [(2300, 50, 1)].
Proof.
  pose proof (proj2 C120_default_usual) as BK.
  assert (Z1 : forall E g lo, 0 < E < 1 -> 0 < g -> 0 <= lo -> lo ^ 2 * E <= 1 - E -> lo <= g * (1 - E) / sqrt (g ^ 2 * E * (1 - E))).
  { intros E g lo BE Bg Hlo HB. assert (PE : 0 < E * (1 - E)) by (apply Rmult_lt_0_compat; lra).
    replace (g ^ 2 * E * (1 - E)) with (g ^ 2 * (E * (1 - E))) by ring. rewrite sqrt_mult, sqrt_pow2 by (try apply pow2_ge_0; lra). assert (Ps := sqrt_lt_R0 _ PE).
    replace (g * (1 - E) / (g * sqrt (E * (1 - E)))) with ((1 - E) / sqrt (E * (1 - E))) by (field; lra). apply (Rmult_le_reg_r (sqrt (E * (1 - E)))); [exact Ps|].
    replace ((1 - E) / sqrt (E * (1 - E)) * sqrt (E * (1 - E))) with (1 - E) by (field; lra). rewrite <- (sqrt_pow2 lo Hlo), <- sqrt_mult by (try apply pow2_ge_0; lra). apply Rle_trans with (sqrt ((1 - E) ^ 2)); [|rewrite sqrt_pow2; lra].
    apply sqrt_le_1_alt. replace ((1 - E) ^ 2) with ((1 - E) * (1 - E)) by ring. rewrite <- Rmult_assoc. apply Rmult_le_compat_r; lra. }
  assert (Zf : forall r rj RD, boost_Z r [(rj, RD, 1)] = gg RD * (1 - gE r rj RD) / sqrt (gg RD ^ 2 * gE r rj RD * (1 - gE r rj RD))).
  { intros. unfold boost_Z, gM, gd2inv, Rsum. cbn [map fold_right]. rewrite !Rplus_0_r. do 2 f_equal. field. pose proof gq_rng. lra. }
  unfold gb_clear. rewrite !Zf. cbn [length INR]. pose proof (gg_rng 50 ltac:(lra)) as [_ Bg]. split; right.
  - assert (HE : gE 1500 1500 50 = / 2) by (unfold gE; replace (- gg 50 * (1500 - 1500) / 400) with 0 by field; rewrite Rpower_O by lra; lra). rewrite HE.
    replace (gg 50 ^ 2 * / 2 * (1 - / 2)) with ((gg 50 / 2) ^ 2) by field. rewrite sqrt_pow2 by lra. replace (gg 50 * (1 - / 2) / (gg 50 / 2)) with 1 by (field; lra). rewrite Rabs_left; lra.
  - assert (HE : 0 < gE 1500 2300 50 <= / 11). { unfold gE. assert (10 <= Rpower 10 (- gg 50 * (1500 - 2300) / 400)). { rewrite <- (Rpower_1 10) at 1 by lra. apply Rle_Rpower; lra. } split; [apply Rinv_0_lt_compat; lra|apply Rinv_le_contravar; lra]. }
    pose proof (Z1 (gE 1500 2300 50) (gg 50) 3 ltac:(lra) ltac:(lra) ltac:(lra) ltac:(lra)) as B. rewrite Rabs_pos_eq; lra.
Qed.
