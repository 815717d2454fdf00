(** Drawn TrueSkill games with a very small draw margin: the fitted normal
    distribution exceeds 1/2 at 0, so the probability of a draw passes through
    0 at a positive margin and the variance correction has a pole there. *)
From Coq Require Import ZArith NArith List Bool Lia Arith.PeanoNat Reals Lra.
From Coquelicot Require Import Coquelicot.
From Verif Require Import Arith XR Tac ModelLib ModelWengLin ModelTS Spec SpecTS SpecInTS SpecNormal MathTS MathTSW MathTSInv MathTSStart MathTSAcc MathTSDraw ProofTS ProofTSAcc ProofTSDraw.
Import ListNotations.
Local Open Scope R_scope.

Lemma nr_pos_above : 1 < nr_pos (1 / 1000000000).
Proof.
  unfold nr_pos. cbv zeta. set (t := / (1 + 1 / 1000000000 / 2)). assert (Et : t = 2000000000 / 2000000001) by (unfold t; field).
  assert (X : 1 / 1000000000 / 2 < nr_P t - (1 / 1000000000) ^ 2) by (rewrite Et; unfold nr_P; lra).
  set (x := nr_P t - (1 / 1000000000) ^ 2) in *. pose proof (exp_ineq1_le x). assert (0 < t) by (rewrite Et; lra).
  apply Rlt_le_trans with (t * (1 + x)); [|apply Rmult_le_compat_l; lra]. rewrite Et. lra.
Qed.
Lemma nr_pos_below : nr_pos (1 / 2000) < 1 - 1 / 10000.
Proof.
  pose proof nr_pos_0 as [_ N0]. unfold nr_pos in N0 |- *. cbv zeta in *. replace (/ (1 + 0 / 2)) with 1 in N0 by field.
  set (t := / (1 + 1 / 2000 / 2)). assert (Et : t = 4000 / 4001) by (unfold t; field).
  assert (exp (nr_P t - (1 / 2000) ^ 2) <= exp (nr_P 1 - 0 ^ 2)).
  { apply exp_mono. pose proof (nr_P_le t 1 ltac:(lra) ltac:(lra) ltac:(lra)). lra. }
  rewrite Rmult_1_l in N0. rewrite Et in *. pose proof (exp_pos (nr_P (4000 / 4001) - (1 / 2000) ^ 2)). nra.
Qed.
Lemma nr_pos_cont z : 0 <= z -> continuity_pt nr_pos z.
Proof.
  intros Hz. apply derivable_continuous_pt. apply ex_derive_Reals_0. unfold nr_pos, nr_P. auto_derive. repeat split; lra.
Qed.
Lemma tiny_d : tiny < 1 / 100000000000.
Proof.
  unfold tiny. replace (10 ^ 171) with (10 ^ 21 * 10 ^ 150) by (rewrite <- pow_add; reflexivity).
  assert (1 <= 10 ^ 150) by (apply pow_R1_Rle; lra). set (X := 10 ^ 150) in *. apply Rmult_lt_reg_r with (10 ^ 21 * X); [lra|].
  unfold Rdiv. rewrite Rmult_assoc, Rinv_l by lra. lra.
Qed.
(** A margin where the correction is at least 8. *)
Lemma pole : exists e, 0 < e < 1 / 1000 /\ 8 <= wdraw 0 e.
Proof.
  set (d := 1 / 100000000000). pose proof nr_pos_above. pose proof nr_pos_below.
  destruct (Ranalysis5.IVT_interv (fun z => 1 - d - nr_pos z) (1 / 1000000000) (1 / 2000)) as (z & [Z1 Z2] & Z3).
  - intros a Ha. apply continuity_pt_minus; [apply continuity_pt_const; intros ? ?; reflexivity|]. apply nr_pos_cont. lra.
  - lra.
  - unfold d. lra.
  - unfold d. lra.
  - pose proof sqrt2_pos as S2. assert (S : 1 < sqrt 2 < 2) by (split; [rewrite <- sqrt_1 at 1; apply sqrt_lt_1_alt; lra|rewrite <- (sqrt_square 2) at 2 by lra; apply sqrt_lt_1_alt; lra]).
    exists (z * sqrt 2). assert (E : 0 < z * sqrt 2 < 1 / 1000) by (split; [apply Rmult_lt_0_compat; lra|nra]). split; [exact E|].
    set (e := z * sqrt 2) in *.
    assert (DN : drawnorm 0 e = d).
    { unfold drawnorm. rewrite Rabs_R0, !Rminus_0_r, Phi_pos, Phi_neg by lra. rewrite Ropp_involutive. replace (e / sqrt 2) with z by (unfold e; field; lra). lra. }
    unfold wdraw, vdraw. rewrite DN. assert (T : tiny < d). { apply tiny_d. } destruct (Rlt_dec d tiny) as [C|_]; [lra|].
    rewrite !Rminus_0_r, !Rplus_0_r, phi_even. replace ((phi e - phi e) / d) with 0 by (unfold d; field).
    assert (P : 1 / 4 < phi e). { pose proof phi0_close. rewrite (phi_ratio 0 e). pose proof (exp_ineq1_le (- ((e - 0) * (e + 0) / 2))). nra. }
    assert (1 / 1000000000 <= e) by (unfold e; nra). replace (0 ^ 2 + (e * phi e + e * phi e) / d) with (200000000000 * (e * phi e)) by (unfold d; field).
    nra.
Qed.
Lemma C58_draw_refuted_proof : forall dp beta, 0.01 <= dp <= 1 -> 0 < beta -> exists s, 0 < s /\ forall m tau,
  let '(n1, n2) := trueskill (ts_in (m, s)) (ts_in (m, s)) DRAW (ts_cfg dp beta tau) in ts_uncertainty n1 = NaN /\ ts_uncertainty n2 = NaN.
Proof.
  intros dp beta Hd Hb. destruct pole as (e & He & W). pose proof (unit_margin_lin dp Hd) as U. set (u := unit_margin dp) in *.
  assert (UE : 10 * e < u) by lra. set (k := u / e). assert (K : 10 < k) by (unfold k; apply Rmult_lt_reg_r with e; [lra|]; unfold Rdiv; rewrite Rmult_assoc, Rinv_l by lra; lra).
  assert (K2 : 100 < k ^ 2) by nra. assert (B2 : 0 < beta ^ 2) by pos.
  set (s := beta * sqrt (k ^ 2 - 1)). assert (S2 : s ^ 2 = beta ^ 2 * (k ^ 2 - 1)). { unfold s. rewrite Rpow_mult_distr. f_equal. rewrite <- Rsqr_pow2. apply Rsqr_sqrt. lra. }
  assert (Sp : 0 < s) by (apply Rmult_lt_0_compat; [auto|apply sqrt_lt_R0; lra]).
  exists s. split; [exact Sp|]. intros m tau. rewrite (trueskill_eval m s m s DRAW dp beta tau (u * sqrt 2 * beta)) by (auto; apply draw_margin_eval; lra).
  set (c := tsc 2 beta (s ^ 2) (s ^ 2)). assert (C : c = sqrt 2 * (beta * k)).
  { unfold c, tsc. rewrite S2. replace (2 * beta ^ 2 + beta ^ 2 * (k ^ 2 - 1) + beta ^ 2 * (k ^ 2 - 1)) with (2 * (beta * k * (beta * k))) by ring.
    rewrite sqrt_mult by (try lra; nra). rewrite sqrt_square by nra. reflexivity. }
  assert (S2p : 0 < sqrt 2) by (apply sqrt_lt_R0; lra). assert (Cp : 0 < c) by (rewrite C; apply Rmult_lt_0_compat; nra).
  replace (u * sqrt 2 * beta / c) with e by (rewrite C; unfold k; field; lra).
  replace ((m - m) / c) with 0 by (field; lra). cbn [ts_w ts_out ts_uncertainty].
  assert (C2 : c ^ 2 = 2 * (beta ^ 2 * k ^ 2)). { rewrite C, !Rpow_mult_distr. f_equal. rewrite <- Rsqr_pow2. apply Rsqr_sqrt. lra. }
  assert (N : std (ts_var' tau c (wdraw 0 e) (m, s)) = NaN).
  { unfold std. destruct (Rlt_dec _ _) as [|X]; [reflexivity|]. exfalso. apply X. unfold ts_var'. cbn [snd]. set (w := wdraw 0 e) in *.
    pose proof (pow2_ge_0 tau). set (V := s ^ 2 + tau ^ 2). assert (VG : c ^ 2 < 4 * V) by (unfold V; rewrite C2, S2; nra).
    assert (c2p : 0 < c ^ 2) by pos. assert (Q : 1 < w * V / c ^ 2). { apply Rmult_lt_reg_r with (c ^ 2); auto. unfold Rdiv. rewrite (Rmult_assoc (w * V)), Rinv_l by lra. nra. }
    nra. }
  split; exact N.
Qed.
