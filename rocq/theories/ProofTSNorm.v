(** Proofs of C102: TrueSkill against the true normal distribution. *)
From Coq Require Import ZArith List Bool Lia Arith.PeanoNat Reals Lra.
From Coquelicot Require Import Coquelicot.
From Verif Require Import Arith XR Tac ModelLib ModelTS Spec SpecTS SpecIn SpecInTS SpecNormal SpecTSN MathTS MathTSInv MathTSDraw MathTSNorm MathTSNorm2 ProofTS ProofTSAcc ProofTSDraw.
Import ListNotations.
Local Open Scope R_scope.

Lemma within_scale r k x y : 0 <= k -> within r x y -> within r (k * x) (k * y).
Proof.
  unfold within. intros Hk H. replace (k * x - k * y) with (k * (x - y)) by ring. rewrite !Rabs_mult, (Rabs_pos_eq k Hk).
  replace (r * (k * Rabs y)) with (k * (r * Rabs y)) by ring. apply Rmult_le_compat_l; auto.
Qed.
Lemma within_opp r x y : within r x y -> within r (- x) (- y).
Proof. unfold within. intros H. rewrite Rabs_Ropp. replace (- x - - y) with (- (x - y)) by ring. rewrite Rabs_Ropp. exact H. Qed.
Lemma var_diff S c w w' d : 0 <= S -> 0 < c -> Rabs (w - w') <= d -> Rabs (S * (1 - w * S / c ^ 2) - S * (1 - w' * S / c ^ 2)) <= d * (S ^ 2 / c ^ 2).
Proof.
  intros HS Hc H. assert (C2 : 0 < c ^ 2) by (apply pow_lt; auto). replace (S * (1 - w * S / c ^ 2) - S * (1 - w' * S / c ^ 2)) with (- (w - w') * (S ^ 2 / c ^ 2)) by (field; lra).
  assert (K : 0 <= S ^ 2 / c ^ 2) by (apply Rmult_le_pos; [apply pow2_ge_0|apply Rlt_le, Rinv_0_lt_compat; auto]).
  rewrite Rabs_mult, Rabs_Ropp, (Rabs_pos_eq (S ^ 2 / c ^ 2)) by auto. apply Rmult_le_compat_r; auto.
Qed.
Lemma C102_player_proof : forall m1 s1 m2 s2 o dp beta tau, 0 < s1 -> 0 < s2 ->
  (o = DRAW -> 0.01 <= dp <= 1 /\ 0 < beta /\ s1 ^ 2 + s2 ^ 2 <= 2 * (1400 * dp ^ 2 - 1) * beta ^ 2) ->
  let c := sqrt (2 * beta ^ 2 + s1 ^ 2 + s2 ^ 2) in let t := (m1 - m2) / c in
  let S1 := s1 ^ 2 + tau ^ 2 in let S2 := s2 ^ 2 + tau ^ 2 in
  exists e m1' v1' m2' v2',
    ts_draw_margin (Fin dp) (Fin beta) (Fin 2) = Fin e /\
    trueskill (ts_in (m1, s1)) (ts_in (m2, s2)) o (ts_cfg dp beta tau) = (mkTS (Fin m1') (std v1'), mkTS (Fin m2') (std v2')) /\
    let v := tsN_v o t (e / c) in let w := tsN_w o t (e / c) in
    within 0.0015 (m1' - m1) (S1 / c * v) /\ within 0.0015 (m2' - m2) (- (S2 / c * v)) /\
    (-26 <= lead o t (e / c) ->
      within 0.000018 (m1' - m1) (S1 / c * v) /\ within 0.000018 (m2' - m2) (- (S2 / c * v)) /\
      Rabs (v1' - S1 * (1 - w * S1 / c ^ 2)) <= 0.0005 * (S1 ^ 2 / c ^ 2) /\ Rabs (v2' - S2 * (1 - w * S2 / c ^ 2)) <= 0.0005 * (S2 ^ 2 / c ^ 2)) /\
    (lead o t 0 < 0 ->
      Rabs (v1' - S1 * (1 - w * S1 / c ^ 2)) <= 0.003 * (S1 ^ 2 / c ^ 2) /\ Rabs (v2' - S2 * (1 - w * S2 / c ^ 2)) <= 0.003 * (S2 ^ 2 / c ^ 2)).
Proof.
  intros m1 s1 m2 s2 o dp beta tau H1 H2 HD c t S1 S2.
  assert (Q1 : 0 < s1 ^ 2) by (apply pow_lt; auto). assert (Q2 : 0 < s2 ^ 2) by (apply pow_lt; auto). pose proof (pow2_ge_0 tau) as QT. pose proof (pow2_ge_0 beta) as QB.
  assert (Hc : 0 < c) by (apply sqrt_lt_R0; lra).
  exists (unit_margin dp * sqrt 2 * beta). pose proof (draw_margin_eval dp beta 2 ltac:(lra)) as EM. set (e := unit_margin dp * sqrt 2 * beta) in *.
  pose proof (trueskill_eval m1 s1 m2 s2 o dp beta tau e H1 H2 EM) as ET. cbv zeta in ET. unfold tsc in ET. fold c in ET. fold t in ET.
  set (V := ts_v o t (e / c)) in *. set (W := ts_w o t (e / c)) in *.
  exists (ts_mu' tau c V (m1, s1)), (ts_var' tau c W (m1, s1)), (ts_mu' tau c (- V) (m2, s2)), (ts_var' tau c W (m2, s2)).
  split; [exact EM|]. split; [exact ET|]. intros v w. unfold ts_mu', ts_var'. cbn [fst snd]. fold S1 S2.
  replace (m1 + S1 / c * V - m1) with (S1 / c * V) by ring. replace (m2 + S2 / c * - V - m2) with (- (S2 / c * V)) by ring.
  assert (HE : o = DRAW -> 1 / 30 <= e / c).
  { intros Ho. destruct (HD Ho) as (D1 & D2 & D3). unfold e, c. rewrite Rplus_assoc. apply margin_30; lra. }
  destruct (tsv_near o t (e / c) HE) as (V1 & V2). destruct (tsw_near o t (e / c) HE) as (W1 & W2). fold V v in V1, V2. fold W w in W1, W2.
  assert (P1 : 0 <= S1) by (unfold S1; lra). assert (P2 : 0 <= S2) by (unfold S2; lra).
  assert (K : forall S, 0 <= S -> 0 <= S / c) by (intros S HS; apply Rmult_le_pos; [auto|apply Rlt_le, Rinv_0_lt_compat; auto]).
  split; [apply within_scale; auto|]. split; [apply within_opp, within_scale; auto|]. split.
  - intros L. split; [apply within_scale; auto|]. split; [apply within_opp, within_scale; auto|]. split; apply var_diff; auto.
  - intros L. split; apply var_diff; auto.
Qed.
Lemma C102_teams_proof : forall t1 t2 o dp beta tau, wl_ok t1 -> wl_ok t2 ->
  let n := INR (length t1 + length t2) in
  (o = DRAW -> 0.01 <= dp <= 1 /\ 0 < beta /\ side_var t1 + side_var t2 <= n * (1400 * dp ^ 2 - 1) * beta ^ 2) ->
  let c := sqrt (n * beta ^ 2 + side_var t1 + side_var t2) in let t := (side_mu t1 - side_mu t2) / c in
  exists e v w, ts_draw_margin (Fin dp) (Fin beta) (Fin n) = Fin e /\
    trueskill_two_teams (tst_in t1) (tst_in t2) o (ts_cfg dp beta tau) = (map (ts_out tau c v w) t1, map (ts_out tau c (- v) w) t2) /\
    within 0.0015 v (tsN_v o t (e / c)) /\
    (-26 <= lead o t (e / c) -> within 0.000018 v (tsN_v o t (e / c)) /\ Rabs (w - tsN_w o t (e / c)) <= 0.0005) /\
    (lead o t 0 < 0 -> Rabs (w - tsN_w o t (e / c)) <= 0.003).
Proof.
  intros t1 t2 o dp beta tau O1 O2 n HD c t. destruct (C51_formula_proof t1 t2 o dp beta tau O1 O2) as (e & E1 & E2). cbv zeta in E2. fold n in E1, E2. fold c in E2. fold t in E2.
  exists e, (ts_v o t (e / c)), (ts_w o t (e / c)). split; [exact E1|]. split; [exact E2|].
  assert (Hn : 0 < n). { apply lt_0_INR. destruct O1 as [N _]. destruct t1; [congruence|cbn; lia]. }
  assert (SV : 0 < side_var t1 + side_var t2) by (pose proof (side_var_pos _ O1); pose proof (side_var_nonneg t2); lra).
  rewrite draw_margin_eval in E1 by lra. injection E1 as <-. set (e := unit_margin dp * sqrt n * beta) in *.
  assert (HE : o = DRAW -> 1 / 30 <= e / c).
  { intros Ho. destruct (HD Ho) as (D1 & D2 & D3). unfold e, c. rewrite Rplus_assoc. apply margin_30; lra. }
  destruct (tsv_near o t (e / c) HE) as (V1 & V2). destruct (tsw_near o t (e / c) HE) as (W1 & W2). split; [exact V1|]. split; [intros L; split; auto|auto].
Qed.
Lemma C102_expected_proof : forall m1 s1 m2 s2 dp beta tau, 0 < beta ->
  let p := Ncdf ((m1 - m2) / sqrt (2 * beta ^ 2 + s1 ^ 2 + s2 ^ 2)) in
  exists e1 e2, ts_expected_score (ts_in (m1, s1)) (ts_in (m2, s2)) (ts_cfg dp beta tau) = (Fin e1, Fin e2) /\
    0 < p < 1 /\ within 0.0000103 e1 p /\ within 0.0000103 e2 (1 - p).
Proof.
  intros m1 s1 m2 s2 dp beta tau Hb p. do 2 eexists. split; [apply ts_expected_eval; auto|]. unfold tsc.
  pose proof (Ncdf_range ((m1 - m2) / sqrt (2 * beta ^ 2 + s1 ^ 2 + s2 ^ 2))) as R. fold p in R. split; [exact R|]. unfold within. rewrite (Rabs_pos_eq p), (Rabs_pos_eq (1 - p)) by lra.
  split; [apply Phi_rel|apply Phi_relc].
Qed.
Lemma C102_expected_teams_proof : forall t1 t2 dp beta tau, 0 < beta -> t1 ++ t2 <> [] ->
  let p := Ncdf ((side_mu t1 - side_mu t2) / sqrt (INR (length t1 + length t2) * beta ^ 2 + side_var t1 + side_var t2)) in
  exists e1 e2, ts_expected_score_two_teams (tst_in t1) (tst_in t2) (ts_cfg dp beta tau) = (Fin e1, Fin e2) /\
    0 < p < 1 /\ within 0.0000103 e1 p /\ within 0.0000103 e2 (1 - p).
Proof.
  intros t1 t2 dp beta tau Hb HN p. do 2 eexists. split; [apply ts_expected_two_eval; auto|]. unfold tsc.
  pose proof (Ncdf_range ((side_mu t1 - side_mu t2) / sqrt (INR (length t1 + length t2) * beta ^ 2 + side_var t1 + side_var t2))) as R. fold p in R. split; [exact R|]. unfold within. rewrite (Rabs_pos_eq p), (Rabs_pos_eq (1 - p)) by lra.
  split; [apply Phi_rel|apply Phi_relc].
Qed.
Lemma C102_moments_proof : forall t eps,
  is_lim (fun b => cmean (eps - t) b) p_infty (vwinN t eps) /\ is_lim (fun b => cvar (eps - t) b) p_infty (1 - wwinN t eps) /\
  (0 < eps -> vdrawN t eps = cmean (- eps - t) (eps - t) /\ wdrawN t eps = 1 - cvar (- eps - t) (eps - t)).
Proof. intros t eps. destruct (win_moments t eps) as (A & B). split; [exact A|]. split; [exact B|]. apply draw_moments. Qed.
Lemma C102_total_proof : is_lim Ncdf p_infty 1 /\ is_lim Ncdf m_infty 0 /\ forall x, 0 < Ncdf x < 1.
Proof.
  split; [|split; [|apply Ncdf_range]].
  - apply lim_fin. intros d Hd. destruct (decs (d / 2) ltac:(lra)) as (M & HM). exists M. intros y Hy. destruct (HM y Hy) as (_ & _ & H). unfold Ntl in H. apply Rabs_def1; lra.
  - apply is_lim_spec. intros [d Hd]. destruct (decs (d / 2) ltac:(lra)) as (M & HM). exists (- M). intros y Hy. destruct (HM (- y) ltac:(lra)) as (_ & _ & H). rewrite Ntl_neg in H. apply Rabs_def1; cbn; lra.
Qed.
