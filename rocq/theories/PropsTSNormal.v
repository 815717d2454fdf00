(** Property theorems about TrueSkill games against the corrections of the true
    truncated Gaussian (SpecTSN.v). *)
From Coq Require Import ZArith NArith List Bool Reals Lra Lia.
From Coquelicot Require Import Coquelicot.
From Verif Require Import Arith XR ModelLib ModelTS Spec SpecTS SpecInTS SpecNormal SpecTSN ProofTS ProofTSNorm.
Import ListNotations.
Local Open Scope R_scope.

(** C102: rating and variance changes of a game or a two-team match. *)
Theorem C102_ts_normal_1v1 : forall m1 s1 m2 s2 o dp beta tau, 0 < s1 -> 0 < s2 ->
  (o = DRAW -> 0.01 <= dp <= 1 /\ 0 < beta /\ s1 ^ 2 + s2 ^ 2 <= 2 * (1400 * dp ^ 2 - 1) * beta ^ 2) ->
  let c := sqrt (2 * beta ^ 2 + s1 ^ 2 + s2 ^ 2) in let t := (m1 - m2) / c in
  let S1 := s1 ^ 2 + tau ^ 2 in let S2 := s2 ^ 2 + tau ^ 2 in
  exists e m1' v1' m2' v2',
    ts_draw_margin (Fin dp) (Fin beta) (Fin 2) = Fin e /\
    trueskill (ts_in (m1, s1)) (ts_in (m2, s2)) o (ts_cfg dp beta tau) = (mkTS (Fin m1') (std v1'), mkTS (Fin m2') (std v2')) /\
    let v := tsN_v o t (e / c) in let w := tsN_w o t (e / c) in
    within 0.0015 (m1' - m1) (S1 / c * v) /\ within 0.0015 (m2' - m2) (- (S2 / c * v)) /\
    (-26 <= lead o t (e / c) ->
      within 0.000018 (m1' - m1) (S1 / c * v) /\ within 0.000018 (m2' - m2) (- (S2 / c * v)) /\
      Rabs (v1' - S1 * (1 - w * S1 / c ^ 2)) <= 0.0005 * (S1 ^ 2 / c ^ 2) /\ Rabs (v2' - S2 * (1 - w * S2 / c ^ 2)) <= 0.0005 * (S2 ^ 2 / c ^ 2)) /\
    (lead o t 0 < 0 ->
      Rabs (v1' - S1 * (1 - w * S1 / c ^ 2)) <= 0.003 * (S1 ^ 2 / c ^ 2) /\ Rabs (v2' - S2 * (1 - w * S2 / c ^ 2)) <= 0.003 * (S2 ^ 2 / c ^ 2)).
Proof. exact C102_player_proof. Qed.
Print Assumptions C102_ts_normal_1v1.
Theorem C102_ts_normal_teams : forall t1 t2 o dp beta tau, wl_ok t1 -> wl_ok t2 ->
  let n := INR (length t1 + length t2) in
  (o = DRAW -> 0.01 <= dp <= 1 /\ 0 < beta /\ side_var t1 + side_var t2 <= n * (1400 * dp ^ 2 - 1) * beta ^ 2) ->
  let c := sqrt (n * beta ^ 2 + side_var t1 + side_var t2) in let t := (side_mu t1 - side_mu t2) / c in
  exists e v w, ts_draw_margin (Fin dp) (Fin beta) (Fin n) = Fin e /\
    trueskill_two_teams (tst_in t1) (tst_in t2) o (ts_cfg dp beta tau) = (map (ts_out tau c v w) t1, map (ts_out tau c (- v) w) t2) /\
    within 0.0015 v (tsN_v o t (e / c)) /\
    (-26 <= lead o t (e / c) -> within 0.000018 v (tsN_v o t (e / c)) /\ Rabs (w - tsN_w o t (e / c)) <= 0.0005) /\
    (lead o t 0 < 0 -> Rabs (w - tsN_w o t (e / c)) <= 0.003).
Proof. exact C102_teams_proof. Qed.
Print Assumptions C102_ts_normal_teams.
Theorem C102_ts_normal_expected : forall m1 s1 m2 s2 dp beta tau, 0 < beta ->
  let p := Ncdf ((m1 - m2) / sqrt (2 * beta ^ 2 + s1 ^ 2 + s2 ^ 2)) in
  exists e1 e2, ts_expected_score (ts_in (m1, s1)) (ts_in (m2, s2)) (ts_cfg dp beta tau) = (Fin e1, Fin e2) /\
    0 < p < 1 /\ within 0.0000103 e1 p /\ within 0.0000103 e2 (1 - p).
Proof. exact C102_expected_proof. Qed.
Print Assumptions C102_ts_normal_expected.
Theorem C102_ts_normal_expected_teams : forall t1 t2 dp beta tau, 0 < beta -> t1 ++ t2 <> [] ->
  let p := Ncdf ((side_mu t1 - side_mu t2) / sqrt (INR (length t1 + length t2) * beta ^ 2 + side_var t1 + side_var t2)) in
  exists e1 e2, ts_expected_score_two_teams (tst_in t1) (tst_in t2) (ts_cfg dp beta tau) = (Fin e1, Fin e2) /\
    0 < p < 1 /\ within 0.0000103 e1 p /\ within 0.0000103 e2 (1 - p).
Proof. exact C102_expected_teams_proof. Qed.
Print Assumptions C102_ts_normal_expected_teams.
(** What the reference corrections are: mean and variance of a standard normal
    variable conditioned on the result, and [Ncdf] is a distribution function. *)
Theorem C102_ts_normal_moments : forall t eps,
  is_lim (fun b => cmean (eps - t) b) p_infty (vwinN t eps) /\ is_lim (fun b => cvar (eps - t) b) p_infty (1 - wwinN t eps) /\
  (0 < eps -> vdrawN t eps = cmean (- eps - t) (eps - t) /\ wdrawN t eps = 1 - cvar (- eps - t) (eps - t)).
Proof. exact C102_moments_proof. Qed.
Print Assumptions C102_ts_normal_moments.
Theorem C102_ts_normal_distribution : is_lim Ncdf p_infty 1 /\ is_lim Ncdf m_infty 0 /\ forall x, 0 < Ncdf x < 1.
Proof. exact C102_total_proof. Qed.
Print Assumptions C102_ts_normal_distribution.
Example C102_case : 0 < 25/3 /\ 0.01 <= 0.1 <= 1 /\ 0 < 25/6 /\ (25/3) ^ 2 + (25/3) ^ 2 <= 2 * (1400 * 0.1 ^ 2 - 1) * (25/6) ^ 2.
Proof. lra. Qed.
Example C102_teams_case : let t1 := [(25, 25/3); (30, 4)] in let t2 := [(20, 2)] in
  wl_ok t1 /\ wl_ok t2 /\ side_var t1 + side_var t2 <= INR (length t1 + length t2) * (1400 * 0.1 ^ 2 - 1) * (25/6) ^ 2 /\ t1 ++ t2 <> [].
Proof. cbn. repeat split; try discriminate; try (repeat constructor; cbn; lra). Qed.
(** An upset by 20 deviations and a close game both count as ordinary. *)
Example C102_lead_case : -26 <= lead WIN (-20) 1 /\ -26 <= lead LOSS 0 (1/10) /\ lead WIN (-30) 1 < -26 /\ lead WIN (-30) 0 < 0.
Proof. unfold lead. lra. Qed.
