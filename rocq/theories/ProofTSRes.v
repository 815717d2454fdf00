(** C126: in TrueSkill a win is better than a draw and a draw better than a loss. *)
From Coq Require Import ZArith NArith List Bool Reals Lra Lia Psatz.
From Coquelicot Require Import Coquelicot.
From Verif Require Import Arith XR Tac ModelLib ModelTS Spec SpecTS SpecInTS SpecNormal SpecTSN MathIval MathTS MathTSW MathTSMono MathTSDraw MathTSInv MathGauss MathTSNorm MathTSNorm2 ProofTS ProofTSAcc ProofTSDraw ProofTSNorm.
Import Spec ListNotations.
Local Open Scope R_scope.

(** The mean of a truncated normal variable is at most the middle of the interval
    when that is nonnegative. *)
Lemma phi_le_end z b : Rabs z <= b -> phi b <= phi z.
Proof. intros H. destruct (Rle_dec 0 z); [apply phi_dec; rewrite Rabs_pos_eq in H by auto; lra|]. rewrite <- (phi_even z). apply phi_dec. rewrite Rabs_left in H by lra. lra. Qed.
Lemma mid_up a b : a <= b -> 0 <= a + b -> mN a b <= (a + b) / 2 * mT a b.
Proof.
  intros Hab Hs. set (c := Rabs a). assert (C : a <= c <= b) by (unfold c; destruct (Rle_dec 0 a); [rewrite Rabs_pos_eq|rewrite Rabs_left]; lra).
  assert (C0 : mN a c <= (a + c) / 2 * mT a c).
  { unfold c. destruct (Rle_dec 0 a); [rewrite Rabs_pos_eq by lra|rewrite Rabs_left by lra].
    - destruct (m_start a) as (-> & _). unfold mN. lra.
    - unfold mN. rewrite phi_even. lra. }
  enough (mN a b - mN a c <= (a + b) / 2 * mT a b - (a + c) / 2 * mT a c) by lra.
  apply (mono_diff (mN a) (fun y => (a + y) / 2 * mT a y) (fun y => y * phi y) (fun y => / 2 * mT a y + (a + y) / 2 * phi y)); [| | |lra].
  - intros y _. apply mN_d.
  - intros y _. apply (is_derive_mult (fun y => (a + y) / 2) (mT a)); [auto_derive; [auto|field]|apply mT_d|intros; apply Rmult_comm].
  - intros y Hy. assert (M : phi y * (y - a) <= mT a y).
    { apply (T_ge a (y - a) y (phi y)); [lra|lra|apply Rlt_le, phi_pos|]. intros z Hz. apply phi_le_end. apply Rabs_le. unfold c in *. destruct (Rle_dec 0 a); [rewrite Rabs_pos_eq in * by auto|rewrite Rabs_left in * by lra]; lra. }
    lra.
Qed.
Lemma a_bound x : x < 0 -> tiny <= Phi x -> - x <= 283 / 10.
Proof.
  intros H X. pose proof (not_tiny_u x H X) as [U _]. pose proof sqrt2_pos as S2.
  assert (S3 : sqrt 2 <= 1.415) by (rewrite <- (sqrt_square 1.415) by lra; apply sqrt_le_1_alt; lra). set (a := - x) in *. assert (A : 0 < a) by (unfold a; lra).
  assert (Y0 : 0 <= a / sqrt 2) by (unfold Rdiv; apply Rmult_le_pos; [lra|apply Rlt_le, Rinv_0_lt_compat; auto]).
  assert (Y : a / sqrt 2 <= 20).
  { assert (1 + a / sqrt 2 / 2 <= 11); [|lra]. rewrite <- (Rinv_inv (1 + a / sqrt 2 / 2)), <- (Rinv_inv 11). apply Rinv_le_contravar; lra. }
  replace a with (a / sqrt 2 * sqrt 2) by (field; lra). apply Rle_trans with (20 * 1.415); [apply Rmult_le_compat; lra|lra].
Qed.
Lemma vdraw_odd t e : 1 / 30 <= e -> vdraw (- t) e = - vdraw t e.
Proof.
  intros He. unfold vdraw. assert (E : drawnorm (- t) e = drawnorm t e) by (unfold drawnorm; now rewrite Rabs_Ropp). rewrite E. destruct (Rlt_dec (drawnorm t e) tiny) as [L|L].
  - assert (t <> 0). { intros ->. pose proof (draw_not_tiny 0 e He ltac:(lra) ltac:(lra)). lra. } destruct (Rlt_dec (- t) 0), (Rlt_dec t 0); lra.
  - replace (- e - - t) with (- (e - t)) by ring. replace (e - - t) with (- (- e - t)) by ring. rewrite !phi_even. unfold Rdiv. ring.
Qed.
Lemma win_over_draw t e : 1 / 30 <= e -> vdraw t e < vwin t e.
Proof.
  intros He. destruct (Rle_dec 0 t) as [P|P].
  - assert (VW : 0 < vwin t e). { pose proof (vwin_near t e) as V. unfold within in V. rewrite vwinN_hz in V. pose proof (hz_pos (e - t)) as HP. rewrite (Rabs_pos_eq (hz _)) in V by lra. apply Rabs_le_between in V. destruct (Rle_dec (-26) (t - e)); lra. }
    enough (vdraw t e <= 0) by lra. unfold vdraw. destruct (draw_sides t e) as (E1 & E2 & _ & _). destruct (draw_near_pos t e He P) as (TP & N0 & K1 & K2). rewrite (Rabs_pos_eq t P) in *. destruct (Rlt_dec (drawnorm t e) tiny) as [L|L].
    + destruct (K2 L) as (A & _). destruct (Rlt_dec t 0); lra.
    + rewrite E2. destruct (Rlt_dec t 0); [lra|]. assert (0 < drawnorm t e) by (pose proof tiny_small; assert (0 < tiny) by (unfold tiny; apply Rdiv_lt_0_compat; [lra|apply pow_lt; lra]); lra).
      assert (0 <= mN (t - e) (e + t) / drawnorm t e) by (apply Rmult_le_pos; [auto|apply Rlt_le, Rinv_0_lt_compat; auto]). unfold Rdiv in *. lra.
  - set (A := e - t). assert (A0 : 1 / 30 < A) by (unfold A; lra).
    assert (VW : A <= vwin t e /\ (A <= 26 -> A + 0.01 <= vwin t e)).
    { unfold vwin. destruct (Rlt_dec (Phi (t - e)) tiny) as [L|L].
      - split; [unfold A; lra|]. intros H. pose proof (Phi_not_tiny (t - e) ltac:(unfold A in H; lra)). lra.
      - pose proof (a_bound (t - e) ltac:(lra) ltac:(lra)) as AB. replace (- (t - e)) with A in AB by (unfold A; ring).
        destruct (win_core 0.0000103 (t - e) ltac:(lra) (Phi_rel _)) as (V & _). cbv zeta in V. replace (- (t - e)) with A in V by (unfold A; ring). apply Rabs_le_between in V.
        pose proof (hz_low2 A ltac:(lra)) as LO. pose proof (hz_up1 A ltac:(lra)) as UP.
        assert (Q : 0.012 <= A / (A ^ 2 + 2)). { apply Rmult_le_reg_r with (A ^ 2 + 2); [nra|]. replace (A / (A ^ 2 + 2) * (A ^ 2 + 2)) with A by (field; nra). nra. }
        lra. }
    assert (VD : vdraw t e < A /\ (A <= 26 -> vdraw t e < A + 0.01)); [|destruct VW as [W1 W2], VD as [D1 D2]; lra].
    enough (vdraw t e < A) by (split; lra). unfold vdraw. destruct (draw_sides t e) as (E1 & E2 & _ & E4). destruct (draw_near_pos (Rabs t) e He (Rabs_pos t)) as (TP & N0 & K1 & K2). rewrite E4 in *. rewrite (Rabs_left t) in * by lra.
    destruct (Rlt_dec (drawnorm t e) tiny) as [L|L]; [destruct (Rlt_dec t 0); unfold A; lra|]. rewrite E2. destruct (Rlt_dec t 0); [|lra]. rewrite Rmult_1_l.
    destruct (K1 ltac:(lra)) as (V & _). apply Rabs_le_between in V. pose proof (mid_up (- t - e) (e + - t) ltac:(lra) ltac:(lra)) as M.
    set (N := mN (- t - e) (e + - t)) in *. set (T := mT (- t - e) (e + - t)) in *. set (D := drawnorm t e) in *.
    assert (NT : N / T <= - t). { apply Rmult_le_reg_r with T; auto. unfold Rdiv. rewrite Rmult_assoc, Rinv_l by lra. replace ((- t - e + (e + - t)) / 2) with (- t) in M by field. lra. }
    assert (TB : - t - e <= 283 / 10).
    { destruct (Rle_dec (- t - e) 0) as [|NZ]; [lra|]. replace (- t - e) with (- (e + t)) by ring. apply a_bound; [lra|]. apply Rle_trans with D; [lra|]. unfold D, drawnorm. rewrite Rabs_left by lra. replace (e - - t) with (e + t) by ring.
      assert (0 < Phi (- e - - t)); [|lra]. pose proof (Phi_rel (- e - - t)) as PR. pose proof (Ncdf_range (- e - - t)). apply Rabs_le_between in PR. lra. }
    unfold A. lra.
Qed.
Lemma tsv_order t e : 1 / 30 <= e -> ts_v LOSS t e < ts_v DRAW t e < ts_v WIN t e.
Proof. intros He. cbn [ts_v]. pose proof (win_over_draw t e He). pose proof (win_over_draw (- t) e He) as H2. rewrite (vdraw_odd t e He) in H2. lra. Qed.

Lemma C126_player_proof : forall m1 s1 m2 s2 dp beta tau, 0 < s1 -> 0 < s2 ->
  0.01 <= dp <= 1 -> 0 < beta -> s1 ^ 2 + s2 ^ 2 <= 2 * (1400 * dp ^ 2 - 1) * beta ^ 2 ->
  exists w1 d1 l1 w2 d2 l2 u1 u2 u3 u4 u5 u6,
    trueskill (ts_in (m1, s1)) (ts_in (m2, s2)) WIN (ts_cfg dp beta tau) = (mkTS (Fin w1) u1, mkTS (Fin w2) u2) /\
    trueskill (ts_in (m1, s1)) (ts_in (m2, s2)) DRAW (ts_cfg dp beta tau) = (mkTS (Fin d1) u3, mkTS (Fin d2) u4) /\
    trueskill (ts_in (m1, s1)) (ts_in (m2, s2)) LOSS (ts_cfg dp beta tau) = (mkTS (Fin l1) u5, mkTS (Fin l2) u6) /\
    l1 < d1 < w1 /\ w2 < d2 < l2.
Proof.
  intros m1 s1 m2 s2 dp beta tau H1 H2 Hd Hb HV. pose proof (draw_margin_eval dp beta 2 ltac:(lra)) as He. set (e := unit_margin dp * sqrt 2 * beta) in *.
  pose proof (pow_lt _ 2 H1) as Q1. pose proof (pow_lt _ 2 H2) as Q2.
  rewrite !(trueskill_eval m1 s1 m2 s2 _ dp beta tau e H1 H2 He). cbv zeta. set (c := tsc 2 beta (s1 ^ 2) (s2 ^ 2)). set (t := (m1 - m2) / c).
  assert (Hc : 0 < c) by (apply tsc_pos; [lra|apply pow2_ge_0|apply pow_lt; auto]).
  assert (HE : 1 / 30 <= e / c). { unfold e, c, tsc. rewrite Rplus_assoc. apply margin_30; lra. }
  pose proof (tsv_order t (e / c) HE) as O. unfold ts_out, ts_mu'. cbn [fst snd]. do 12 eexists. split; [reflexivity|]. split; [reflexivity|]. split; [reflexivity|].
  pose proof (pow2_ge_0 tau) as Q3. assert (K1 : 0 < (s1 ^ 2 + tau ^ 2) / c) by (apply Rdiv_lt_0_compat; lra). assert (K2 : 0 < (s2 ^ 2 + tau ^ 2) / c) by (apply Rdiv_lt_0_compat; lra).
  destruct O as [O1 O2]. pose proof (Rmult_lt_compat_l _ _ _ K1 O1). pose proof (Rmult_lt_compat_l _ _ _ K1 O2). pose proof (Rmult_lt_compat_l _ _ _ K2 O1). pose proof (Rmult_lt_compat_l _ _ _ K2 O2). lra.
Qed.
Lemma C126_teams_proof : forall t1 t2 dp beta tau, wl_ok t1 -> wl_ok t2 ->
  let n := INR (length t1 + length t2) in
  0.01 <= dp <= 1 -> 0 < beta -> side_var t1 + side_var t2 <= n * (1400 * dp ^ 2 - 1) * beta ^ 2 ->
  let after o := trueskill_two_teams (tst_in t1) (tst_in t2) o (ts_cfg dp beta tau) in
  let rating l i x := exists u, nth_error l i = Some (mkTS (Fin x) u) in
  (forall i, (i < length t1)%nat -> exists w d l, rating (fst (after WIN)) i w /\ rating (fst (after DRAW)) i d /\ rating (fst (after LOSS)) i l /\ l < d < w) /\
  (forall i, (i < length t2)%nat -> exists w d l, rating (snd (after WIN)) i w /\ rating (snd (after DRAW)) i d /\ rating (snd (after LOSS)) i l /\ w < d < l).
Proof.
  intros t1 t2 dp beta tau O1 O2 n Hd Hb HV after rating. set (c := sqrt (n * beta ^ 2 + side_var t1 + side_var t2)). set (t := (side_mu t1 - side_mu t2) / c).
  assert (Hn : 0 < n). { apply lt_0_INR. destruct O1 as [N _]. destruct t1; [congruence|cbn; lia]. }
  pose proof (side_var_pos _ O1) as P1. pose proof (side_var_nonneg t2) as P2. assert (B2 : 0 < beta ^ 2) by (apply pow_lt; auto). assert (NB : 0 < n * beta ^ 2) by (apply Rmult_lt_0_compat; auto).
  assert (Hc : 0 < c) by (apply sqrt_lt_R0; lra). pose proof (draw_margin_eval dp beta n ltac:(lra)) as He. set (e := unit_margin dp * sqrt n * beta) in *.
  assert (HE : 1 / 30 <= e / c). { unfold e, c. rewrite Rplus_assoc. apply margin_30; lra. }
  assert (EA : forall o, after o = (map (ts_out tau c (ts_v o t (e / c)) (ts_w o t (e / c))) t1, map (ts_out tau c (- ts_v o t (e / c)) (ts_w o t (e / c))) t2)).
  { intros o. unfold after. destruct (C51_formula_proof t1 t2 o dp beta tau O1 O2) as (e' & E1 & E2). cbv zeta in E2. fold n in E1, E2. fold c in E2. fold t in E2. rewrite He in E1. injection E1 as <-. exact E2. }
  rewrite !EA. cbn [fst snd]. pose proof (tsv_order t (e / c) HE) as [X1 X2]. pose proof (pow2_ge_0 tau) as Q3.
  assert (RT : forall v w q i p, nth_error q i = Some p -> rating (map (ts_out tau c v w) q) i (ts_mu' tau c v p)). { intros v w q i p H. unfold rating. rewrite (map_nth_error (ts_out tau c v w) i q H). eexists. reflexivity. }
  assert (KP : forall q i p, wl_ok q -> nth_error q i = Some p -> 0 < (snd p ^ 2 + tau ^ 2) / c). { intros q i p [_ F] H. apply nth_error_In in H. rewrite List.Forall_forall in F. specialize (F p H). pose proof (pow_lt _ 2 F). apply Rdiv_lt_0_compat; lra. }
  split; intros i Hi.
  - destruct (nth_error t1 i) as [p|] eqn:E; [|apply nth_error_None in E; lia]. do 3 eexists. do 3 (split; [apply RT; exact E|]). unfold ts_mu'. pose proof (KP t1 i p O1 E) as K.
    pose proof (Rmult_lt_compat_l _ _ _ K X1). pose proof (Rmult_lt_compat_l _ _ _ K X2). lra.
  - destruct (nth_error t2 i) as [p|] eqn:E; [|apply nth_error_None in E; lia]. do 3 eexists. do 3 (split; [apply RT; exact E|]). unfold ts_mu'. pose proof (KP t2 i p O2 E) as K.
    pose proof (Rmult_lt_compat_l _ _ _ K X1). pose proof (Rmult_lt_compat_l _ _ _ K X2). lra.
Qed.
