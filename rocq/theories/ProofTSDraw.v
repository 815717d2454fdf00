(** Proofs about drawn TrueSkill games: the variance correction is a proper
    fraction when the draw margin is at least c/30, and what follows for the
    uncertainties and for the factor graph. *)
From Coq Require Import ZArith NArith List Bool Lia Arith.PeanoNat Permutation Reals Lra.
From Verif Require Import Arith XR Tac ModelLib ModelWengLin ModelTS ModelTSGraph Spec SpecTS SpecInTS SpecNormal MathTS MathTSW MathTSInv MathTSStart MathTSAcc MathTSDraw ProofTS ProofTSAcc ProofTSGraph ProofTSSafe ProofTSTwo ProofTSTwoTop ProofTSUpset.
Import ListNotations.
Local Open Scope R_scope.

Lemma wdraw_unit t e : 1 / 30 <= e -> 0 <= wdraw t e <= 1.
Proof.
  intros He. destruct (Rle_lt_dec tiny (drawnorm t e)) as [H|H]; [pose proof (wdraw_range t e He H); lra|].
  unfold wdraw. destruct (Rlt_dec _ _); lra.
Qed.
(** The unit margin is at least 1.25 times the draw probability. *)
Lemma unit_margin_lin dp : 0.01 <= dp <= 1 -> 1.25 * dp <= unit_margin dp.
Proof.
  intros H. assert (S : 1.4142 < sqrt 2) by (rewrite <- (sqrt_square 1.4142) by lra; apply sqrt_lt_1_alt; lra). destruct (Req_dec dp 1) as [->|N].
  - rewrite unit_margin_1. lra.
  - rewrite unit_margin_eq by lra. pose proof (hinv_acc (1 - dp) ltac:(lra)) as A. pose proof (hinv_nonneg (1 - dp) ltac:(lra)) as B.
    pose proof (nr_tangent _ B) as T. pose proof ksp_close. set (h := hinv (1 - dp)) in *. assert (nr_pos h <= 1 - dp + 0.000001) by (revert A; unfold Rabs; destruct (Rcase_abs (nr_pos h - (1 - dp))); lra).
    nra.
Qed.
Lemma margin_30 dp beta n V : 0.01 <= dp <= 1 -> 0 < beta -> 0 < n -> 0 <= V <= n * (1400 * dp ^ 2 - 1) * beta ^ 2 ->
  1 / 30 <= unit_margin dp * sqrt n * beta / sqrt (n * beta ^ 2 + V).
Proof.
  intros Hd Hb Hn HV. pose proof (unit_margin_lin dp Hd) as U. assert (SN : 0 < sqrt n) by (apply sqrt_lt_R0; auto). assert (B2 : 0 < beta ^ 2) by (apply pow_lt; auto).
  assert (P : 0 < n * beta ^ 2 + V) by nra. assert (SC : 0 < sqrt (n * beta ^ 2 + V)) by (apply sqrt_lt_R0; auto).
  apply Rmult_le_reg_r with (sqrt (n * beta ^ 2 + V)); auto. unfold Rdiv at 2. rewrite (Rmult_assoc _ (/ _)), Rinv_l, Rmult_1_r by lra.
  assert (C : sqrt (n * beta ^ 2 + V) <= 37.5 * dp * (sqrt n * beta)).
  { rewrite <- (sqrt_square (37.5 * dp * (sqrt n * beta))) by (apply Rmult_le_pos; [lra|apply Rmult_le_pos; lra]). apply sqrt_le_1_alt.
    replace (37.5 * dp * (sqrt n * beta) * (37.5 * dp * (sqrt n * beta))) with (1406.25 * (dp ^ 2 * ((sqrt n * sqrt n) * beta ^ 2))) by lra. rewrite sqrt_sqrt by lra.
    assert (0 < n * beta ^ 2) by (apply Rmult_lt_0_compat; auto). assert (0 <= dp ^ 2 * (n * beta ^ 2)) by (apply Rmult_le_pos; [apply pow2_ge_0|lra]). nra. }
  assert (0 < sqrt n * beta) by (apply Rmult_lt_0_compat; auto). nra.
Qed.

(** ** C58 *)
Lemma C58_draw_proof : forall t1 t2 dp beta tau, wl_ok t1 -> wl_ok t2 -> 0.01 <= dp <= 1 -> 0 < beta ->
  let n := INR (length t1 + length t2) in
  side_var t1 + side_var t2 <= n * (1400 * dp ^ 2 - 1) * beta ^ 2 ->
  let C := n * beta ^ 2 + side_var t1 + side_var t2 in
  let good p r := snd p ^ 2 + tau ^ 2 <= C ->
    exists u, ts_uncertainty r = Fin u /\ 0 <= u <= sqrt (snd p ^ 2 + tau ^ 2) /\ (snd p ^ 2 + tau ^ 2 < C -> 0 < u) in
  let '(r1, r2) := trueskill_two_teams (tst_in t1) (tst_in t2) DRAW (ts_cfg dp beta tau) in
  Forall2 good t1 r1 /\ Forall2 good t2 r2.
Proof.
  intros t1 t2 dp beta tau O1 O2 Hd Hb n HV C good. destruct (C51_formula_proof t1 t2 DRAW dp beta tau O1 O2) as (e & E1 & E2). cbv zeta in E2. rewrite E2. fold n in E1 |- *. fold C.
  assert (Hn : 0 < n). { apply lt_0_INR. destruct O1 as [N _]. destruct t1; [congruence|cbn; lia]. }
  assert (SV : 0 < side_var t1 + side_var t2) by (pose proof (side_var_pos _ O1); pose proof (side_var_nonneg t2); lra).
  assert (HC : 0 < C). { unfold C. pose proof (pow2_ge_0 beta). nra. }
  assert (Hc : 0 < sqrt C) by now apply sqrt_lt_R0. assert (Hcc : sqrt C ^ 2 = C) by (rewrite <- Rsqr_pow2; apply Rsqr_sqrt; lra).
  rewrite draw_margin_eval in E1 by lra. injection E1 as <-.
  set (w := ts_w DRAW _ _). assert (Hw : 0 <= w <= 1). { apply wdraw_unit. unfold C. rewrite Rplus_assoc. apply margin_30; lra. }
  assert (G : forall v t, Forall (fun p : R * R => 0 < snd p) t -> Forall2 good t (map (ts_out tau (sqrt C) v w) t)).
  { intros v t P. induction P as [|p t Hp P IH]; constructor; auto. intros L. rewrite <- Hcc in L. pose proof (ts_out_real tau (sqrt C) v w p Hc Hw Hp L) as K. rewrite Hcc in K. exact K. }
  destruct O1 as [_ P1], O2 as [_ P2]. split; apply G; auto.
Qed.
Lemma C58_draw_player_proof : forall m1 s1 m2 s2 dp beta tau, 0 < s1 -> 0 < s2 -> 0.01 <= dp <= 1 -> 0 < beta ->
  s1 ^ 2 + s2 ^ 2 <= 2 * (1400 * dp ^ 2 - 1) * beta ^ 2 -> tau ^ 2 <= 2 * beta ^ 2 ->
  let '(n1, n2) := trueskill (ts_in (m1, s1)) (ts_in (m2, s2)) DRAW (ts_cfg dp beta tau) in
  exists u1 u2, ts_uncertainty n1 = Fin u1 /\ ts_uncertainty n2 = Fin u2 /\
    0 < u1 <= sqrt (s1 ^ 2 + tau ^ 2) /\ 0 < u2 <= sqrt (s2 ^ 2 + tau ^ 2).
Proof.
  intros m1 s1 m2 s2 dp beta tau H1 H2 Hd Hb HV Ht.
  pose proof (draw_margin_eval dp beta 2 ltac:(lra)) as He. rewrite (trueskill_eval _ _ _ _ _ _ _ _ _ H1 H2 He). cbv zeta.
  set (c := tsc 2 beta (s1 ^ 2) (s2 ^ 2)). assert (P1 : 0 < s1 ^ 2) by pos. assert (P2 : 0 < s2 ^ 2) by pos. pose proof (pow2_ge_0 beta).
  assert (Hc : 0 < c) by (apply tsc_pos; lra). assert (Hcc : c ^ 2 = 2 * beta ^ 2 + s1 ^ 2 + s2 ^ 2) by (unfold c, tsc; rewrite <- Rsqr_pow2; apply Rsqr_sqrt; lra).
  set (w := ts_w DRAW _ _). assert (Hw : 0 <= w <= 1). { apply wdraw_unit. unfold c, tsc. rewrite Rplus_assoc. apply margin_30; lra. }
  set (v := ts_v DRAW _ _).
  destruct (ts_out_real tau c v w (m1, s1) Hc Hw H1 ltac:(cbn [snd]; lra)) as (u1 & A1 & A2 & A3).
  destruct (ts_out_real tau c (- v) w (m2, s2) Hc Hw H2 ltac:(cbn [snd]; lra)) as (u2 & B1 & B2 & B3).
  cbn [snd] in *. exists u1, u2. split; [exact A1|]. split; [exact B1|]. specialize (A3 ltac:(lra)). specialize (B3 ltac:(lra)). lra.
Qed.

(** ** C53, C84: drawn games *)
Lemma rank_drawn k : rank_outcome k k = DRAW.
Proof. unfold rank_outcome. now rewrite N.compare_refl. Qed.
Lemma C53_draw_proof : forall (t1 t2 : list wpl) k dp beta tau,
  t1 <> [] -> t2 <> [] -> Forall (fun x : wpl => 0 < snd (fst x) /\ 0 < snd x) (t1 ++ t2) ->
  let c := sqrt (w_var beta tau (t1 ++ t2)) in let t := (w_mean t1 - w_mean t2) / c in
  exists e, ts_draw_margin (Fin dp) (Fin beta) (Fin (INR (length t1 + length t2))) = Fin e /\
  (1 / 30 <= e / c -> tiny <= drawnorm t (e / c) ->
   trueskill_multi_team [tsr_in (map fst t1, k); tsr_in (map fst t2, k)] (ts_cfg dp beta tau) (Some [map Fin (map snd t1); map Fin (map snd t2)]) =
   Ok [map (w_out tau c (vdraw t (e / c)) (wdraw t (e / c))) t1; map (w_out tau c (- vdraw t (e / c)) (wdraw t (e / c))) t2]).
Proof.
  intros t1 t2 k dp beta tau N1 N2 HP c t. destruct (C53_proof t1 t2 k k dp beta tau N1 N2 HP) as (e & E1 & E2). exists e. split; auto. intros He HT.
  rewrite rank_drawn in E2. fold c in E2. fold t in E2. apply E2. now apply wdraw_range.
Qed.
Lemma C84_draw_proof : forall (t1 t2 : list (R * R)) k dp beta,
  t1 <> [] -> t2 <> [] -> Forall (fun p => 0 < snd p) (t1 ++ t2) -> 0.01 <= dp <= 1 -> 0 < beta ->
  let n := INR (length t1 + length t2) in
  let c := sqrt (n * beta ^ 2 + side_var t1 + side_var t2) in let t := (side_mu t1 - side_mu t2) / c in
  side_var t1 + side_var t2 <= n * (1400 * dp ^ 2 - 1) * beta ^ 2 ->
  exists e, ts_draw_margin (Fin dp) (Fin beta) (Fin n) = Fin e /\
  (tiny <= drawnorm t (e / c) ->
   let '(r1, r2) := trueskill_two_teams (tst_in t1) (tst_in t2) DRAW (ts_cfg dp beta 0) in
   trueskill_multi_team [tsr_in (t1, k); tsr_in (t2, k)] (ts_cfg dp beta 0) None = Ok [r1; r2]).
Proof.
  intros t1 t2 k dp beta N1 N2 HP Hd Hb n c t HV. destruct (C84_agree_proof t1 t2 k k dp beta N1 N2 HP) as (e & E1 & E2). exists e. split; auto. intros HT.
  rewrite rank_drawn in E2. apply E2. fold n c t. apply wdraw_range; auto.
  assert (Hn : 0 < n). { apply lt_0_INR. destruct t1; [congruence|cbn; lia]. }
  fold n in E1. rewrite draw_margin_eval in E1 by lra. injection E1 as <-. unfold c. rewrite Rplus_assoc. apply margin_30; auto.
  split; auto. pose proof (side_var_nonneg t1). pose proof (side_var_nonneg t2). lra.
Qed.
