(** Proofs of C131 for the other systems. *)
From Coq Require Import ZArith NArith List Bool Reals Lra Lia.
From Verif Require Import Arith XR Tac ModelLib ModelElo ModelFifa ModelIngo ModelUscf ModelEgf ModelDwz ModelTS
  Spec SpecTS SpecInTS ProofElo ProofFifa ProofIngo ProofUscf ProofEgf ProofDwz ProofDrift ProofTS ProofTSAcc ProofTSUpset ProofTSOrder ProofTSManyTop MathTS MathTSW MathTSMono ProofTriangle ProofEgf2 ProofRematch.
Import Spec ListNotations.
Local Open Scope R_scope.

(** TrueSkill *)
Lemma vwin_ge t e : e - t <= vwin t e.
Proof.
  unfold vwin. destruct (Rlt_dec (Phi (t - e)) tiny) as [h|h]; [lra|]. pose proof (wwin_range t e ltac:(lra)) as [W _]. pose proof (vwin_pos t e) as V. unfold wwin in W. destruct (Rlt_dec (Phi (t - e)) tiny) as [h'|_]; [lra|].
  assert (0 < vwin t e + t - e) by nra. unfold vwin in H. destruct (Rlt_dec (Phi (t - e)) tiny); lra.
Qed.
(** The new variances: not smaller than ... *)
Lemma ts_var_low s tau c w : 0 < c -> 0 <= w <= 1 -> s ^ 2 + tau ^ 2 <= c ^ 2 -> let V := s ^ 2 + tau ^ 2 in
  s ^ 2 - w * V <= V * (1 - w * V / c ^ 2) /\ 0 <= V * (1 - w * V / c ^ 2).
Proof.
  intros Hc Hw HV V. assert (C2 : 0 < c ^ 2) by (apply pow_lt; auto). pose proof (pow2_ge_0 s). pose proof (pow2_ge_0 tau). assert (V0 : 0 <= V) by (unfold V; lra).
  assert (Q : 0 <= V / c ^ 2 <= 1). { split; [unfold Rdiv; apply Rmult_le_pos; [auto|left; apply Rinv_0_lt_compat; auto]|]. apply Rmult_le_reg_r with (c ^ 2); [auto|]. unfold Rdiv. rewrite Rmult_assoc, Rinv_l by lra. unfold V. lra. }
  set (q := V / c ^ 2) in *. replace (w * V / c ^ 2) with (w * q) by (unfold q; field; lra). assert (0 <= w * q <= w) by (split; nra). split; [|apply Rmult_le_pos; lra].
  assert (V * (w * q) <= V * w) by (apply Rmult_le_compat_l; lra). unfold V in *. nra.
Qed.
Lemma C131_ts_proof : forall m1 s1 m2 s2 dp beta tau, 0 < s1 -> 0 < s2 -> 0 < beta -> 0 <= dp <= 1 -> m1 <= m2 ->
  tau ^ 2 <= 2 * beta ^ 2 + s1 ^ 2 -> tau ^ 2 <= 2 * beta ^ 2 + s2 ^ 2 ->
  let cfg := ts_cfg dp beta tau in let p1 := ts_in (m1, s1) in let p2 := ts_in (m2, s2) in
  let '(q1, q2) := trueskill p1 p2 WIN cfg in
  exists e e' m1' m2', fst (ts_expected_score p1 p2 cfg) = Fin e /\ fst (ts_expected_score q1 q2 cfg) = Fin e' /\
    ts_rating q1 = Fin m1' /\ ts_rating q2 = Fin m2' /\ (m1' <= m2' -> e < e') /\ e <= e' + 0.0000002.
Proof.
  intros m1 s1 m2 s2 dp beta tau H1 H2 Hb Hdp Hm T2 T1 cfg p1 p2. unfold p1, p2, cfg. destruct (C50_proof m1 s1 m2 s2 WIN dp beta tau H1 H2) as (e & n1 & n2 & He & E1 & E2 & -> & _).
  destruct (C59_margin_acc_proof dp beta 2 Hdp Hb ltac:(lra)) as (e2 & He2 & E0 & _). rewrite He in He2. injection He2 as <-.
  set (A := 2 * beta ^ 2 + s1 ^ 2 + s2 ^ 2) in *. set (c := sqrt A) in *. assert (P1 : 0 < s1 ^ 2) by (apply pow_lt; auto). assert (P2 : 0 < s2 ^ 2) by (apply pow_lt; auto). assert (Pb : 0 < beta ^ 2) by (apply pow_lt; auto). pose proof (pow2_ge_0 tau) as Pt.
  assert (HA : 0 < A) by (unfold A; lra). assert (Hc : 0 < c) by (apply sqrt_lt_R0; auto). assert (C2 : c ^ 2 = A) by (apply pow2_sqrt; lra). cbn [ts_v ts_w] in *.
  set (a := m2 - m1) in *. set (t := (m1 - m2) / c) in *. assert (Et : t = - (a / c)) by (unfold t, a; field; lra). assert (A0 : 0 <= a) by (unfold a; lra). assert (A1 : 0 <= a / c) by (unfold Rdiv; apply Rmult_le_pos; [auto|left; apply Rinv_0_lt_compat; auto]).
  assert (E0' : 0 <= e / c) by (unfold Rdiv; apply Rmult_le_pos; [auto|left; apply Rinv_0_lt_compat; auto]). pose proof (vwin_ge t (e / c)) as Vg. pose proof (vwin_pos t (e / c)) as V0. pose proof (wwin_unit t (e / c)) as W. set (v := vwin t (e / c)) in *. set (w := wwin t (e / c)) in *.
  destruct (ts_var_low s1 tau c w Hc W ltac:(rewrite C2; unfold A; lra)) as (X1 & Y1). destruct (ts_var_low s2 tau c w Hc W ltac:(rewrite C2; unfold A; lra)) as (X2 & Y2). cbv zeta in X1, X2, Y1, Y2.
  set (v1 := (s1 ^ 2 + tau ^ 2) * (1 - w * (s1 ^ 2 + tau ^ 2) / c ^ 2)) in *. set (v2 := (s2 ^ 2 + tau ^ 2) * (1 - w * (s2 ^ 2 + tau ^ 2) / c ^ 2)) in *.
  unfold std. destruct (Rlt_dec v1 0); [lra|]. destruct (Rlt_dec v2 0); [lra|]. change (mkTS (Fin n1) (Fin (sqrt v1))) with (ts_in (n1, sqrt v1)). change (mkTS (Fin n2) (Fin (sqrt v2))) with (ts_in (n2, sqrt v2)).
  destruct (C54_players_proof m1 s1 m2 s2 dp beta tau Hb) as (x & _ & Ex & -> & _). destruct (C54_players_proof n1 (sqrt v1) n2 (sqrt v2) dp beta tau Hb) as (y & _ & Ey & -> & _). exists x, y, n1, n2. cbn [fst ts_rating ts_in]. do 4 (split; [reflexivity|]).
  fold A c t in Ex. rewrite !pow2_sqrt in Ey by lra. set (B := 2 * beta ^ 2 + v1 + v2) in *. assert (HB : 0 < B) by (unfold B; lra).
  set (D := (s1 ^ 2 + tau ^ 2 + (s2 ^ 2 + tau ^ 2)) / c * v). assert (HD : 0 < D) by (unfold D; apply Rmult_lt_0_compat; [apply Rdiv_lt_0_compat; lra|auto]).
  assert (G : n2 - n1 = a - D) by (rewrite E1, E2; unfold D, a; field; lra).
  assert (AB : a * (A - B) <= D * A).
  { apply Rle_trans with (a * (w * (s1 ^ 2 + tau ^ 2 + (s2 ^ 2 + tau ^ 2)))); [apply Rmult_le_compat_l; [auto|]; unfold A, B; lra|].
    replace (D * A) with (c * (s1 ^ 2 + tau ^ 2 + (s2 ^ 2 + tau ^ 2)) * v) by (unfold D; rewrite <- C2; field; lra). replace (a * (w * (s1 ^ 2 + tau ^ 2 + (s2 ^ 2 + tau ^ 2)))) with (c * (s1 ^ 2 + tau ^ 2 + (s2 ^ 2 + tau ^ 2)) * (a / c * w)) by (field; lra).
    apply Rmult_le_compat_l; [apply Rmult_le_pos; lra|]. apply Rle_trans with (a / c * 1); [apply Rmult_le_compat_l; lra|lra]. }
  pose proof (gap_core a D A B A0 HD HA HB AB) as GC. fold c in GC. assert (LT : t < (n1 - n2) / sqrt B). { rewrite Et. replace ((n1 - n2) / sqrt B) with (- ((a - D) / sqrt B)); [lra|]. rewrite <- G. field. apply Rgt_not_eq, sqrt_lt_R0; auto. }
  rewrite Ex, Ey. split.
  - intros Hn. apply Phi_lt_neg; [auto|]. pose proof (sqrt_lt_R0 B HB). unfold Rdiv. assert (0 <= (n2 - n1) * / sqrt B) by (apply Rmult_le_pos; [lra|left; apply Rinv_0_lt_compat; auto]). lra.
  - apply Phi_almost_mono. lra.
Qed.
(** Without dynamics the favourite's wins raise it as well ... *)
Lemma C131_ts_fav_proof : forall m1 s1 m2 s2 dp beta, 0 < s1 -> 0 < s2 -> 0 < beta -> m2 < m1 ->
  let cfg := ts_cfg dp beta 0 in let p1 := ts_in (m1, s1) in let p2 := ts_in (m2, s2) in
  let '(q1, q2) := trueskill p1 p2 WIN cfg in
  exists e e', fst (ts_expected_score p1 p2 cfg) = Fin e /\ fst (ts_expected_score q1 q2 cfg) = Fin e' /\ e < e'.
Proof.
  intros m1 s1 m2 s2 dp beta H1 H2 Hb Hm cfg p1 p2. unfold p1, p2, cfg. destruct (C50_proof m1 s1 m2 s2 WIN dp beta 0 H1 H2) as (e & n1 & n2 & He & _ & _ & -> & HW & _). specialize (HW eq_refl).
  set (A := 2 * beta ^ 2 + s1 ^ 2 + s2 ^ 2) in *. set (c := sqrt A) in *. assert (P1 : 0 < s1 ^ 2) by (apply pow_lt; auto). assert (P2 : 0 < s2 ^ 2) by (apply pow_lt; auto). assert (Pb : 0 < beta ^ 2) by (apply pow_lt; auto).
  assert (HA : 0 < A) by (unfold A; lra). assert (Hc : 0 < c) by (apply sqrt_lt_R0; auto). assert (C2 : c ^ 2 = A) by (apply pow2_sqrt; lra). cbn [ts_w].
  set (t := (m1 - m2) / c). pose proof (wwin_unit t (e / c)) as W. set (w := wwin t (e / c)) in *. replace (0 ^ 2) with 0 by ring. rewrite !Rplus_0_r.
  assert (U : forall V, 0 < V <= c ^ 2 -> 0 <= V * (1 - w * V / c ^ 2) <= V).
  { intros V HV. assert (Q : 0 <= V / c ^ 2 <= 1). { split; [unfold Rdiv; apply Rmult_le_pos; [lra|left; apply Rinv_0_lt_compat; lra]|]. apply Rmult_le_reg_r with (c ^ 2); [lra|]. unfold Rdiv. rewrite Rmult_assoc, Rinv_l by lra. lra. }
    replace (w * V / c ^ 2) with (w * (V / c ^ 2)) by (field; lra). set (q := V / c ^ 2) in *. assert (0 <= w * q <= 1) by (split; nra). split; nra. }
  pose proof (U (s1 ^ 2) ltac:(rewrite C2; unfold A; lra)) as U1. pose proof (U (s2 ^ 2) ltac:(rewrite C2; unfold A; lra)) as U2. set (v1 := s1 ^ 2 * (1 - w * s1 ^ 2 / c ^ 2)) in *. set (v2 := s2 ^ 2 * (1 - w * s2 ^ 2 / c ^ 2)) in *.
  unfold std. destruct (Rlt_dec v1 0); [lra|]. destruct (Rlt_dec v2 0); [lra|]. change (mkTS (Fin n1) (Fin (sqrt v1))) with (ts_in (n1, sqrt v1)). change (mkTS (Fin n2) (Fin (sqrt v2))) with (ts_in (n2, sqrt v2)).
  destruct (C54_players_proof m1 s1 m2 s2 dp beta 0 Hb) as (x & _ & Ex & -> & _). destruct (C54_players_proof n1 (sqrt v1) n2 (sqrt v2) dp beta 0 Hb) as (y & _ & Ey & -> & _). exists x, y. cbn [fst]. do 2 (split; [reflexivity|]).
  fold A c t in Ex. rewrite !pow2_sqrt in Ey by lra. set (B := 2 * beta ^ 2 + v1 + v2) in *. assert (HB : 0 < B <= A) by (unfold A, B; lra). rewrite Ex, Ey. apply Phi_lt_pos; unfold t.
  - apply Rdiv_lt_0_compat; lra.
  - pose proof (sqrt_lt_R0 B ltac:(lra)) as SB. assert (S : sqrt B <= c) by (apply sqrt_le_1_alt; lra). apply Rlt_le_trans with ((n1 - n2) / c); unfold Rdiv.
    + apply Rmult_lt_compat_r; [apply Rinv_0_lt_compat; auto|lra].
    + apply Rmult_le_compat_l; [lra|]. apply Rinv_le_contravar; auto.
Qed.
(** ... with dynamics a win over a far weaker opponent lowers it. *)
Lemma vw_far z : 0 < z -> forall t e, t - e = z -> 0 <= vwin t e <= 2 /\ 0 <= wwin t e <= 4 / z.
Proof.
  intros Hz t e E. pose proof (Phi_pos_ge z ltac:(lra)) as P. assert (N : ~ Phi (t - e) < tiny). { rewrite E. unfold tiny. lra. }
  assert (S2 : 2 <= sqrt (2 * PI)). { rewrite <- (sqrt_pow2 2) at 1 by lra. apply sqrt_le_1_alt. pose proof PI_RGT_0. pose proof PI2_3_2. lra. }
  assert (F : phi z <= / (1 + z ^ 2 / 2) / 2).
  { unfold phi, Rdiv. rewrite exp_Ropp. pose proof (exp_ineq1_le (z ^ 2 * / 2)). pose proof (pow2_ge_0 z). apply Rmult_le_compat; [left; apply Rinv_0_lt_compat, exp_pos|left; apply Rinv_0_lt_compat; lra| |]; apply Rinv_le_contravar; lra. }
  assert (V : vwin t e = phi z / Phi z) by (unfold vwin; destruct (Rlt_dec (Phi (t - e)) tiny); [contradiction|rewrite E; reflexivity]).
  assert (P0 : 0 < Phi z) by lra. assert (J0 := Rinv_0_lt_compat _ P0). assert (P2 : / Phi z <= 21 / 10). { replace (21 / 10) with (/ (10 / 21)) by field. apply Rinv_le_contravar; lra. }
  pose proof (pow2_ge_0 z) as Z2. assert (J : 0 < / (1 + z ^ 2 / 2) <= 1) by (split; [apply Rinv_0_lt_compat; lra|]; rewrite <- Rinv_1; apply Rinv_le_contravar; lra).
  assert (F0 : 0 < phi z) by (unfold phi; apply Rdiv_lt_0_compat; [apply exp_pos|lra]).
  assert (VB : 0 <= vwin t e <= 21 / 20 * / (1 + z ^ 2 / 2)). { split; [left; apply vwin_pos|]. rewrite V. unfold Rdiv at 1. apply Rle_trans with (/ (1 + z ^ 2 / 2) / 2 * (21 / 10)); [apply Rmult_le_compat; lra|lra]. }
  assert (W : wwin t e = vwin t e * (vwin t e + z)). { unfold wwin at 1. destruct (Rlt_dec (Phi (t - e)) tiny); [contradiction|]. replace (vwin t e + t - e) with (vwin t e + z) by lra. reflexivity. }
  assert (ZI : 0 < / z) by (apply Rinv_0_lt_compat; auto).
  assert (VM : vwin t e * z <= 21 / 10 * / z).
  { apply Rle_trans with (21 / 20 * / (1 + z ^ 2 / 2) * z); [apply Rmult_le_compat_r; lra|]. apply Rmult_le_reg_r with (z * (1 + z ^ 2 / 2)); [apply Rmult_lt_0_compat; lra|].
    replace (21 / 20 * / (1 + z ^ 2 / 2) * z * (z * (1 + z ^ 2 / 2))) with (21 / 20 * z ^ 2) by (field; lra). replace (21 / 10 * / z * (z * (1 + z ^ 2 / 2))) with (21 / 10 + 21 / 20 * z ^ 2) by (field; lra). lra. }
  assert (VN : vwin t e <= 21 / 20 * / z).
  { eapply Rle_trans; [apply VB|]. apply Rmult_le_compat_l; [lra|]. apply Rinv_le_contravar; [auto|]. nra. }
  split; [lra|]. rewrite W. split; [apply Rmult_le_pos; lra|]. replace (vwin t e * (vwin t e + z)) with (vwin t e * vwin t e + vwin t e * z) by ring.
  assert (vwin t e * vwin t e <= 21 / 20 * / z * (21 / 20)) by (apply Rmult_le_compat; lra). unfold Rdiv. lra.
Qed.
Lemma C131_ts_refuted_proof : forall m1 s1 s2 dp beta tau, 0 < s1 -> 0 < s2 -> 0 < beta -> tau <> 0 -> exists m2, m2 < m1 /\
  let cfg := ts_cfg dp beta tau in let p1 := ts_in (m1, s1) in let p2 := ts_in (m2, s2) in
  let '(q1, q2) := trueskill p1 p2 WIN cfg in
  exists e e', fst (ts_expected_score p1 p2 cfg) = Fin e /\ fst (ts_expected_score q1 q2 cfg) = Fin e' /\ e' < e.
Proof.
  intros m1 s1 s2 dp beta tau H1 H2 Hb Ht. destruct (C50_proof m1 s1 m1 s2 WIN dp beta tau H1 H2) as (e & _ & _ & He & _).
  assert (P1 : 0 < s1 ^ 2) by (apply pow_lt; auto). assert (P2 : 0 < s2 ^ 2) by (apply pow_lt; auto). assert (Pb : 0 < beta ^ 2) by (apply pow_lt; auto). assert (Pt : 0 < tau ^ 2) by (replace (tau ^ 2) with (Rsqr tau) by (unfold Rsqr; ring); apply Rsqr_pos_lt; auto).
  set (A := 2 * beta ^ 2 + s1 ^ 2 + s2 ^ 2) in *. set (c := sqrt A). assert (HA : 0 < A) by (unfold A; lra). assert (Hc : 0 < c) by (apply sqrt_lt_R0; auto). assert (C2 : c ^ 2 = A) by (apply pow2_sqrt; lra).
  set (d := sqrt (A + tau ^ 2)). assert (Hd : c < d) by (apply sqrt_lt_1_alt; lra).
  set (V1 := s1 ^ 2 + tau ^ 2) in *. set (V2 := s2 ^ 2 + tau ^ 2) in *. set (V := V1 + V2). assert (HV : 0 < V) by (unfold V, V1, V2; lra).
  set (Q := (V1 ^ 2 + V2 ^ 2) / c ^ 2). assert (HQ1 : 0 < V1 ^ 2) by (apply pow_lt; unfold V1; lra). assert (HQ2 : 0 < V2 ^ 2) by (apply pow_lt; unfold V2; lra). assert (HQ : 0 < Q) by (apply Rdiv_lt_0_compat; lra).
  set (a1 := 2 * V / (d - c)). assert (Ha1 : 0 < a1) by (apply Rdiv_lt_0_compat; lra). set (z0 := 4 * Q / tau ^ 2). assert (Hz0 : 0 < z0) by (apply Rdiv_lt_0_compat; lra).
  set (a := a1 + 1 + Rabs e + c * (z0 + 1)). pose proof (Rabs_pos e) as R0. pose proof (Rle_abs e) as R1. assert (CZ : 0 < c * (z0 + 1)) by (apply Rmult_lt_0_compat; lra). assert (Ha : 0 < a) by (unfold a; lra).
  exists (m1 - a). split; [lra|]. intros cfg p1 p2. unfold p1, p2, cfg. destruct (C50_proof m1 s1 (m1 - a) s2 WIN dp beta tau H1 H2) as (e2 & n1 & n2 & He2 & E1 & E2 & -> & _). rewrite He in He2. injection He2 as <-.
  fold A c V1 V2 in E1, E2 |- *. cbn [ts_v ts_w] in *. replace ((m1 - (m1 - a)) / c) with (a / c) in * by (f_equal; ring).
  set (z := a / c - e / c). assert (Hz : z0 + 1 < z). { unfold z. replace (a / c - e / c) with ((a - e) / c) by (field; lra). apply Rmult_lt_reg_r with c; [auto|]. replace ((a - e) / c * c) with (a - e) by (field; lra). unfold a. lra. }
  destruct (vw_far z ltac:(lra) (a / c) (e / c) eq_refl) as ([v0 v1] & w0 & w1). set (v := vwin (a / c) (e / c)) in *. set (w := wwin (a / c) (e / c)) in *.
  assert (WQ : w * Q <= tau ^ 2).
  { apply Rle_trans with (4 / z0 * Q); [apply Rmult_le_compat_r; [lra|]|unfold z0; right; field; lra]. eapply Rle_trans; [apply w1|]. unfold Rdiv. apply Rmult_le_compat_l; [lra|]. apply Rinv_le_contravar; lra. }
  set (k1 := w * (V1 ^ 2 / c ^ 2)). set (k2 := w * (V2 ^ 2 / c ^ 2)). assert (K : k1 + k2 = w * Q) by (unfold k1, k2, Q; field; lra).
  assert (K1 : 0 <= k1). { apply Rmult_le_pos; [auto|]. left. apply Rdiv_lt_0_compat; lra. } assert (K2 : 0 <= k2). { apply Rmult_le_pos; [auto|]. left. apply Rdiv_lt_0_compat; lra. }
  replace (V1 * (1 - w * V1 / c ^ 2)) with (V1 - k1) by (unfold k1; field; lra). replace (V2 * (1 - w * V2 / c ^ 2)) with (V2 - k2) by (unfold k2; field; lra).
  assert (X1 : 0 < V1 - k1) by (unfold V1; lra). assert (X2 : 0 < V2 - k2) by (unfold V2; lra). unfold std. destruct (Rlt_dec (V1 - k1) 0); [lra|]. destruct (Rlt_dec (V2 - k2) 0); [lra|].
  change (mkTS (Fin n1) (Fin (sqrt (V1 - k1)))) with (ts_in (n1, sqrt (V1 - k1))). change (mkTS (Fin n2) (Fin (sqrt (V2 - k2)))) with (ts_in (n2, sqrt (V2 - k2))).
  destruct (C54_players_proof m1 s1 (m1 - a) s2 dp beta tau Hb) as (x & _ & Ex & -> & _). destruct (C54_players_proof n1 (sqrt (V1 - k1)) n2 (sqrt (V2 - k2)) dp beta tau Hb) as (y & _ & Ey & -> & _). exists x, y. cbn [fst]. do 2 (split; [reflexivity|]).
  fold A c in Ex. replace ((m1 - (m1 - a)) / c) with (a / c) in Ex by (f_equal; ring). rewrite !pow2_sqrt in Ey by lra. set (B := 2 * beta ^ 2 + (V1 - k1) + (V2 - k2)) in *. assert (HB : A + tau ^ 2 <= B) by (unfold A, B, V1, V2; lra).
  set (D := V / c * v). assert (HD : 0 <= D <= V / c * 2). { assert (0 < V / c) by (apply Rdiv_lt_0_compat; auto). unfold D. split; [apply Rmult_le_pos; lra|apply Rmult_le_compat_l; lra]. }
  assert (G : n1 - n2 = a + D) by (rewrite E1, E2; unfold D, V; field; lra). rewrite Ex, Ey, G. pose proof (sqrt_lt_R0 B ltac:(lra)) as SB. assert (SD : d <= sqrt B) by (apply sqrt_le_1_alt; lra).
  apply Phi_lt_pos; [apply Rdiv_lt_0_compat; lra|]. apply Rle_lt_trans with ((a + V / c * 2) / d).
  - unfold Rdiv at 1 2. apply Rmult_le_compat; [lra|left; apply Rinv_0_lt_compat; auto|lra|]. apply Rinv_le_contravar; lra.
  - apply Rmult_lt_reg_r with (d * c); [apply Rmult_lt_0_compat; lra|]. replace ((a + V / c * 2) / d * (d * c)) with (a * c + 2 * V) by (field; lra). replace (a / c * (d * c)) with (a * d) by (field; lra).
    assert (a1 * (d - c) = 2 * V) by (unfold a1; field; lra). assert (0 < (a - a1) * (d - c)) by (apply Rmult_lt_0_compat; unfold a; lra). lra.
Qed.

(** Elo, FIFA, DWZ *)
Lemma elo_E_both a b a' b' : a < a' -> b' <= b -> elo_E a b < elo_E a' b'.
Proof.
  intros H1 [H2| ->]; [|apply elo_E_mono; auto]. apply Rlt_trans with (elo_E a' b); [apply elo_E_mono; auto|]. rewrite (elo_E_swap b a'), (elo_E_swap b' a'). pose proof (elo_E_mono b' b a' H2). lra.
Qed.
Lemma C131_elo_proof : forall r1 r2 k, 0 < k ->
  let '(p1, p2) := elo (mkElo (Fin r1)) (mkElo (Fin r2)) WIN (mkEloConfig (Fin k)) in
  exists e e', fst (elo_expected_score (mkElo (Fin r1)) (mkElo (Fin r2))) = Fin e /\ fst (elo_expected_score p1 p2) = Fin e' /\ e < e'.
Proof.
  intros r1 r2 k Hk. rewrite elo_eval, !elo_expected_eval. do 2 eexists. do 2 (split; [reflexivity|]). pose proof (elo_E_range r1 r2). pose proof (elo_E_range r2 r1). apply elo_E_both; unfold elo_upd; cbn [points invert]; nra.
Qed.
Lemma C131_fifa_proof : forall r1 r2 k ko, 0 < k ->
  let '(p1, p2) := fifa (mkFifa (Fin r1)) (mkFifa (Fin r2)) WIN (mkFifaConfig (Fin k) ko false) in
  exists e e', fst (fifa_expected_score (mkFifa (Fin r1)) (mkFifa (Fin r2))) = Fin e /\ fst (fifa_expected_score p1 p2) = Fin e' /\ e < e'.
Proof.
  intros r1 r2 k ko Hk. rewrite fifa_eval, !fifa_expected_eval. do 2 eexists. do 2 (split; [reflexivity|]). pose proof (fifa_We_range r1 r2). pose proof (fifa_We_range r2 r1). cbn [code_W1 code_W2 points invert].
  assert (A : r1 < ko_max ko r1 (fifa_upd k r1 r2 1)). { assert (r1 < fifa_upd k r1 r2 1) by (unfold fifa_upd; nra). unfold ko_max. destruct ko; [eapply Rlt_le_trans; [eassumption|apply Rmax_r]|auto]. }
  assert (B : ko_max ko r2 (fifa_upd k r2 r1 0) <= r2). { assert (fifa_upd k r2 r1 0 < r2) by (unfold fifa_upd; nra). unfold ko_max. destruct ko; [apply Rmax_lub; lra|lra]. }
  set (x := ko_max ko r1 (fifa_upd k r1 r2 1)) in *. set (y := ko_max ko r2 (fifa_upd k r2 r1 0)) in *. clearbody x y. apply Rlt_le_trans with (fifa_We x r2); [apply fifa_We_mono; auto|]. pose proof (fifa_We_swap r2 x). pose proof (fifa_We_swap y x). destruct B as [B| ->]; [|lra]. pose proof (fifa_We_mono y r2 x B). lra.
Qed.
Lemma C131_dwz_proof : forall r1 i1 a1 r2 i2 a2, (1 <= i1)%N -> (1 <= i2)%N ->
  let p1 := mkDwz (Fin r1) i1 a1 in let p2 := mkDwz (Fin r2) i2 a2 in let '(q1, q2) := dwz p1 p2 WIN in
  exists e e', fst (dwz_expected_score p1 p2) = Fin e /\ fst (dwz_expected_score q1 q2) = Fin e' /\ e < e'.
Proof.
  intros r1 i1 a1 r2 i2 a2 H1 H2 p1 p2. unfold p1, p2. rewrite dwz_eval, !dwz_expected_eval by auto. do 2 eexists. do 2 (split; [reflexivity|]). pose proof (elo_E_range r1 r2) as E1. pose proof (elo_E_range r2 r1) as E2. cbn [points invert].
  pose proof (dwz_E_ge5 r1 a1 1 (elo_E r1 r2) (NR i1)) as D1. pose proof (dwz_E_ge5 r2 a2 0 (elo_E r2 r1) (NR i2)) as D2. set (d1 := dwz_E r1 _ _ _ _) in *. set (d2 := dwz_E r2 _ _ _ _) in *.
  assert (X1 : 0 < 800 / (d1 + 1) * (1 - elo_E r1 r2)) by (apply Rmult_lt_0_compat; [apply Rdiv_lt_0_compat|]; lra). assert (X2 : 0 < 800 / (d2 + 1) * elo_E r2 r1) by (apply Rmult_lt_0_compat; [apply Rdiv_lt_0_compat|]; lra).
  apply elo_E_both; unfold dwz_upd; lra.
Qed.
(** Ingo *)
Lemma C131_ingo_proof : forall r1 a1 r2 a2, let p1 := mkIngo (Fin r1) a1 in let p2 := mkIngo (Fin r2) a2 in let '(q1, q2) := ingo p1 p2 WIN in
  exists e e', fst (ingo_expected_score p1 p2) = Fin e /\ fst (ingo_expected_score q1 q2) = Fin e' /\ (e < 1 -> e < e') /\ (1 < e -> e' < e).
Proof.
  intros r1 a1 r2 a2 p1 p2. unfold p1, p2. destruct (C23_proof r1 a1 r2 a2 WIN) as [-> _]. destruct (C25_partial_proof r1 a1 r2 a2) as (x & x' & -> & _ & _ & Ex & _). set (n1 := ingo_upd 1 r1 _ _ _). set (n2 := ingo_upd 1 r2 _ _ _). destruct (C25_partial_proof n1 a1 n2 a2) as (y & y' & -> & _ & _ & Ey & _).
  exists x, y. do 2 (split; [reflexivity|]). unfold n1, n2, ingo_upd, ingo_perf in Ey. cbn [points invert] in Ey. pose proof (ingo_D_range a1). pose proof (ingo_D_range a2).
  assert (I1 : 0 < / (1 + ingo_D a1)) by (apply Rinv_0_lt_compat; lra). assert (I2 : 0 < / (1 + ingo_D a2)) by (apply Rinv_0_lt_compat; lra).
  assert (E : y = x + (1 - x) * (/ (1 + ingo_D a1) + / (1 + ingo_D a2))) by (rewrite Ex, Ey; field; split; lra).
  split; intros; assert (P : 0 < / (1 + ingo_D a1) + / (1 + ingo_D a2)) by lra; set (k := / (1 + ingo_D a1) + / (1 + ingo_D a2)) in *; clearbody k; nra.
Qed.
(** USCF *)
Lemma C131_uscf_proof : forall r1 n1 r2 n2 t, (8 < n1)%N -> (8 < n2)%N -> 100 <= r2 ->
  let p1 := mkUscf (Fin r1) n1 in let p2 := mkUscf (Fin r2) n2 in let '(q1, q2) := uscf p1 p2 WIN (mkUscfConfig (Fin t)) in
  exists e e', fst (uscf_expected_score p1 p2) = Fin e /\ fst (uscf_expected_score q1 q2) = Fin e' /\ e < e'.
Proof.
  intros r1 n1 r2 n2 t H1 H2 Hr p1 p2. unfold p1, p2. destruct (C72_proof r1 n1 r2 n2 t H1) as (w & _ & _ & W & _ & _ & _ & RW & _). destruct (C72_proof r2 n2 r1 n1 t H2) as (_ & _ & l & _ & _ & L & _ & _ & _ & RL & _).
  rewrite C10_proof in W, L |- *. cbn [fst uscf_rating] in W, L. injection W as W. injection L as L. rewrite !uscf_exp_eval. do 2 eexists. do 2 (split; [reflexivity|]). cbn [points invert] in *. replace (1 - 1) with 0 by ring. rewrite W, L. apply elo_E_both; auto.
Qed.
Lemma C131_uscf_refuted_proof : forall r1 n1 r2 n2 t, (n1 <= 8)%N -> (n2 <= 8)%N -> 100 <= r2 -> r2 + 400 < r1 ->
  let p1 := mkUscf (Fin r1) n1 in let p2 := mkUscf (Fin r2) n2 in let '(q1, q2) := uscf p1 p2 WIN (mkUscfConfig (Fin t)) in
  exists e e', fst (uscf_expected_score p1 p2) = Fin e /\ fst (uscf_expected_score q1 q2) = Fin e' /\ e' < e.
Proof.
  intros r1 n1 r2 n2 t H1 H2 Hr HL p1 p2. unfold p1, p2. rewrite C10_proof. rewrite (proj2 (N.leb_le _ _) H1), (proj2 (N.leb_le _ _) H2). rewrite !uscf_exp_eval. do 2 eexists. do 2 (split; [reflexivity|]). unfold uscf_prov.
  assert (N1 : 0 <= IZR (Z.of_N n1)) by (apply IZR_le; lia). assert (N2 : 0 <= IZR (Z.of_N n2)) by (apply IZR_le; lia). set (x := IZR (Z.of_N n1)) in *. set (y := IZR (Z.of_N n2)) in *.
  apply elo_E_both.
  - apply Rmax_lub_lt; [lra|]. apply Rmult_lt_reg_r with (x + 1); [lra|]. replace ((x * r1 + 1 * r2 + 400 * (1 - 0)) / (x + 1) * (x + 1)) with (x * r1 + 1 * r2 + 400 * (1 - 0)) by (field; lra). lra.
  - eapply Rle_trans; [|apply Rmax_r]. apply Rmult_le_reg_r with (y + 1); [lra|]. replace ((y * r2 + 1 * r1 + 400 * (0 - 1)) / (y + 1) * (y + 1)) with (y * r2 + 1 * r1 + 400 * (0 - 1)) by (field; lra). lra.
Qed.
(** EGF *)
Lemma ln1e u : 0 <= u -> u <= ln (1 + exp u) <= 8 / 10 + u.
Proof.
  intros H. pose proof (exp_pos u). split.
  - rewrite <- (ln_exp u) at 1. left. apply ln_increasing; lra.
  - apply Rle_trans with (ln (2 * exp u)).
    + assert (1 <= exp u) by (rewrite <- exp_0; destruct H as [H|<-]; [left; apply exp_increasing; auto|lra]). destruct (Req_dec (1 + exp u) (2 * exp u)) as [-> |N]; [lra|]. left. apply ln_increasing; lra.
    + rewrite ln_mult, ln_exp by lra. pose proof ln_lt_2. assert (ln 2 <= 8 / 10); [|lra]. rewrite <- (ln_exp (8 / 10)). destruct (Req_dec 2 (exp (8 / 10))) as [-> |N]; [lra|]. left. apply ln_increasing; [lra|].
      assert (2 <= exp (8 / 10)); [|lra]. replace (8 / 10) with (2 / 10 + 2 / 10 + (2 / 10 + 2 / 10)) by field. rewrite !exp_plus. pose proof (exp_ineq1_le (2 / 10)) as X. set (k := exp (2 / 10)) in *. assert (Y : 12 / 10 * (12 / 10) <= k * k) by (apply Rmult_le_compat; lra). assert (12 / 10 * (12 / 10) * (12 / 10 * (12 / 10)) <= k * k * (k * k)) by (apply Rmult_le_compat; lra). lra.
Qed.
Lemma egf_C_le r : r <= 3100 -> (3300 - r) / 200 <= egf_C r <= ((3300 - r) / 200) ^ 2.
Proof.
  intros H. unfold egf_C. set (b := (3300 - r) / 200). assert (1 <= b) by (unfold b; lra). split.
  - rewrite <- (Rpower_1 b) at 1 by lra. apply Rle_Rpower; lra.
  - rewrite <- Rpower_pow by lra. apply Rle_Rpower; [lra|]. simpl. lra.
Qed.
Lemma egf_bon_le r : r <= 3100 -> egf_bon r <= egf_C r / 2.
Proof.
  intros H. pose proof (egf_C_le r H) as [C _]. destruct (Rle_dec r 2300).
  - unfold egf_bon. pose proof (ln1e ((2300 - r) / 80) ltac:(lra)). lra.
  - pose proof (egf_bon_dec 2300 r ltac:(lra)) as B. unfold egf_bon at 2 in B. pose proof (ln1e ((2300 - 2300) / 80) ltac:(lra)). lra.
Qed.
Lemma egf_eval0 r1 r2 o : r1 < 3300 -> r2 < 3300 -> egf (mkEgf (Fin r1)) (mkEgf (Fin r2)) o egf_config_new = (mkEgf (Fin (egf_upd r1 (points o) (egf_E r1 r2))), mkEgf (Fin (egf_upd r2 (1 - points o) (1 - egf_E r1 r2)))).
Proof.
  intros H1 H2. change (egf_config_new (F := XR)) with (mkEgfConfig (Fin 0)).
  assert (E1 : egf_adj (egf_h1 0) r1 = r1) by (unfold egf_adj, egf_h1; destruct (Rlt_dec 0 0); [lra|]; destruct (Req_EM_T 0 0); lra).
  assert (E2 : egf_adj (egf_h2 0) r2 = r2) by (unfold egf_adj, egf_h2; destruct (Rlt_dec 0 0); [lra|]; destruct (Req_EM_T 0 0); lra).
  pose proof (C13_proof r1 r2 o 0 H1 H2 ltac:(rewrite E1; auto) ltac:(rewrite E2; auto)) as K. cbv zeta in K. rewrite E1, E2 in K. apply K.
Qed.
Lemma C131_egf_proof : forall r1 r2, -900 <= r1 -> r1 <= r2 -> r2 <= 3100 ->
  let p1 := mkEgf (Fin r1) in let p2 := mkEgf (Fin r2) in let '(q1, q2) := egf p1 p2 WIN egf_config_new in
  exists e e', fst (egf_expected_score p1 p2 egf_config_new) = Fin e /\ fst (egf_expected_score q1 q2 egf_config_new) = Fin e' /\ e < e'.
Proof.
  intros r1 r2 H0 H1 H2 p1 p2. unfold p1, p2. rewrite egf_eval0 by lra. rewrite (egf_exp0 r1 r2) by lra. cbn [points].
  pose proof (egf_E_range r1 r2) as R. assert (L : egf_E r1 r2 <= 1 / 2). { rewrite <- (egf_B_diff0 r1). destruct H1 as [H1| ->]; [|lra]. left. apply egf_E_opp; lra. } set (E := egf_E r1 r2) in *.
  pose proof (egf_bon_le r1 ltac:(lra)) as B1. pose proof (egf_bon_le r2 ltac:(lra)) as B2. pose proof (egf_C_le r1 ltac:(lra)) as [_ C1]. pose proof (egf_C_pos r1) as P1. pose proof (egf_C_pos r2) as P2. pose proof (egf_bon_pos r1) as Q1.
  assert (X1 : 0 < egf_C r1 * (1 - E) <= egf_C r1) by (split; nra). assert (X2 : egf_C r2 / 2 <= egf_C r2 * (1 - E)) by nra.
  assert (N1 : r1 < egf_upd r1 1 E < 3300). { unfold egf_upd. rewrite Rmax_right by lra. split; [lra|]. assert (((3300 - r1) / 200) ^ 2 <= 21 * ((3300 - r1) / 200)) by (simpl; nra). lra. }
  assert (N2 : egf_upd r2 (1 - 1) (1 - E) <= r2) by (unfold egf_upd; apply Rmax_lub; lra).
  rewrite egf_exp0 by lra. do 2 eexists. do 2 (split; [reflexivity|]). set (x := egf_upd r1 1 E) in *. set (y := egf_upd r2 (1 - 1) (1 - E)) in *. unfold E. rewrite !egf_E_inv. pose proof (egf_B_lt r1 x ltac:(lra) ltac:(lra)). assert (egf_B y <= egf_B r2) by (destruct N2 as [N2| ->]; [left; apply egf_B_lt; lra|lra]).
  apply Rinv_lt_contravar; [pose proof (exp_pos (egf_B r2 - egf_B r1)); pose proof (exp_pos (egf_B y - egf_B x)); apply Rmult_lt_0_compat; lra|]. apply Rplus_lt_compat_l, exp_increasing. lra.
Qed.
Lemma C131_egf_refuted_proof : forall r1, 2000 <= r1 <= 2700 ->
  let p1 := mkEgf (Fin r1) in let p2 := mkEgf (Fin (-900)) in let '(q1, q2) := egf p1 p2 WIN egf_config_new in
  exists e e', fst (egf_expected_score p1 p2 egf_config_new) = Fin e /\ fst (egf_expected_score q1 q2 egf_config_new) = Fin e' /\ e' < e.
Proof.
  intros r1 H p1 p2. unfold p1, p2. rewrite egf_eval0 by lra. rewrite (egf_exp0 r1 (-900)) by lra. cbn [points]. pose proof (egf_E_range r1 (-900)) as R. assert (S : 1 - egf_E r1 (-900) <= / 2187).
  { rewrite <- egf_E_swap, egf_E_inv. apply Rinv_le_contravar; [lra|]. unfold egf_B. replace (-7 * ln (3300 - r1) - -7 * ln (3300 - -900)) with (INR 7 * (ln 4200 - ln (3300 - r1))) by (replace (3300 - -900) with 4200 by lra; simpl; ring).
    assert (LD : ln 4200 - ln (3300 - r1) = ln (4200 / (3300 - r1))) by (unfold Rdiv; rewrite ln_mult, ln_Rinv; [ring|lra|lra|apply Rinv_0_lt_compat; lra]). rewrite LD. fold (Rpower (4200 / (3300 - r1)) (INR 7)). assert (Q : 3 <= 4200 / (3300 - r1)). { apply Rmult_le_reg_r with (3300 - r1); [lra|]. unfold Rdiv. rewrite Rmult_assoc, Rinv_l by lra. lra. }
    rewrite Rpower_pow by lra. assert (3 ^ 7 <= (4200 / (3300 - r1)) ^ 7) by (apply pow_incr; lra). lra. }
  set (E := egf_E r1 (-900)) in *. pose proof (egf_C_le r1 ltac:(lra)) as [c1 C1]. pose proof (egf_C_le (-900) ltac:(lra)) as [c2 C2]. pose proof (egf_bon_pos r1) as Q1.
  assert (C1' : egf_C r1 <= 169 / 4) by (eapply Rle_trans; [apply C1|]; replace (169 / 4) with ((13 / 2) ^ 2) by field; apply pow_incr; lra). assert (C2' : egf_C (-900) <= 441) by (eapply Rle_trans; [apply C2|]; right; field).
  assert (B2 : 8 <= egf_bon (-900)) by (unfold egf_bon; pose proof (ln1e ((2300 - -900) / 80) ltac:(lra)); lra). assert (B1 : egf_bon r1 <= 91 / 100). { eapply Rle_trans; [apply (egf_bon_dec 2000); lra|]. unfold egf_bon. pose proof (ln1e ((2300 - 2000) / 80) ltac:(lra)). lra. }
  assert (Y1 : 0 < egf_C r1 * (1 - E) <= 169 / 4 * / 2187). { split; [apply Rmult_lt_0_compat; lra|apply Rmult_le_compat; lra]. } assert (Y2 : 0 <= egf_C (-900) * (1 - E) <= 441 * / 2187). { split; [apply Rmult_le_pos; lra|apply Rmult_le_compat; lra]. }
  set (g1 := egf_C r1 * (1 - E) + egf_bon r1). set (g2 := egf_bon (-900) - egf_C (-900) * (1 - E)). assert (G1 : 0 < g1 < 1) by (unfold g1; lra). assert (G2 : 7 < g2) by (unfold g2; lra).
  assert (G3 : g2 <= 66 / 5). { unfold g2. unfold egf_bon. pose proof (ln1e ((2300 - -900) / 80) ltac:(lra)). lra. }
  assert (N1 : egf_upd r1 1 E = r1 + g1) by (unfold egf_upd, g1 in *; rewrite Rmax_right by lra; ring). assert (N2 : egf_upd (-900) (1 - 1) (1 - E) = -900 + g2) by (unfold egf_upd, g2 in *; rewrite Rmax_right by lra; ring).
  rewrite N1, N2, egf_exp0 by lra. do 2 eexists. do 2 (split; [reflexivity|]). unfold E. rewrite !egf_E_inv.
  apply Rinv_lt_contravar; [pose proof (exp_pos (egf_B (-900) - egf_B r1)); pose proof (exp_pos (egf_B (-900 + g2) - egf_B (r1 + g1))); apply Rmult_lt_0_compat; lra|]. apply Rplus_lt_compat_l, exp_increasing. unfold egf_B.
  assert (K : ln (4200 - g2) + ln (3300 - r1) < ln 4200 + ln (3300 - r1 - g1)). { rewrite <- !ln_mult by lra. apply ln_increasing; [apply Rmult_lt_0_compat; lra|]. assert (600 * 7 < (3300 - r1) * g2) by nra. nra. }
  replace (3300 - -900) with 4200 by lra. replace (3300 - (-900 + g2)) with (4200 - g2) by lra. replace (3300 - (r1 + g1)) with (3300 - r1 - g1) by lra. lra.
Qed.
