(** Proofs of C135: who pays for a result. *)
From Coq Require Import ZArith NArith List Bool Reals Lra Lia.
From Verif Require Import Arith XR Tac ModelLib ModelGlicko ModelGlicko2 ModelSticko
  Spec ProofGlicko ProofGlicko2 ProofSticko ProofTriangle ProofRematch ProofConvert ProofDraw ProofUncertain.
Import Spec ListNotations.
Local Open Scope R_scope.

Lemma pts_inv o : points (invert o) = 1 - points o.
Proof. destruct o; cbn [invert points]; lra. Qed.
Lemma C135_glicko_proof : forall r1 r2 RD c o, 0 < RD -> exists x1 x2 d,
  glicko (mkGlicko (Fin r1) (Fin RD)) (mkGlicko (Fin r2) (Fin RD)) o (mkGlickoConfig (Fin c)) = (mkGlicko (Fin x1) (Fin d), mkGlicko (Fin x2) (Fin d)) /\ x1 + x2 = r1 + r2.
Proof.
  intros r1 r2 RD c o H. rewrite C26_proof by auto. pose proof (gpre_pos RD c H) as P.
  destruct (glicko_one r1 (gpre RD c) r2 RD (points o) P) as (_ & E1 & D1). destruct (glicko_one r2 (gpre RD c) r1 RD (points (invert o)) P) as (_ & E2 & D2).
  assert (S : gE r2 r1 RD = 1 - gE r1 r2 RD) by (rewrite !gE_lg, <- lg_neg; f_equal; ring).
  exists (glicko_r r1 (gpre RD c) [(r2, RD, points o)]), (glicko_r r2 (gpre RD c) [(r1, RD, points (invert o))]), (glicko_rd r1 (gpre RD c) [(r2, RD, points o)]). split.
  - do 3 f_equal. assert (DD : gd2inv r2 [(r1, RD, points (invert o))] = gd2inv r1 [(r2, RD, points o)]) by (unfold gd2inv; cbn [map]; rewrite !Rsum_cons, S; cbn; ring). unfold glicko_rd. now rewrite DD.
  - rewrite E1, E2, S, pts_inv. replace (gg RD ^ 2 * (1 - gE r1 r2 RD) * (1 - (1 - gE r1 r2 RD))) with (gg RD ^ 2 * gE r1 r2 RD * (1 - gE r1 r2 RD)) by ring. ring.
Qed.
Lemma C135_sticko_proof : forall r1 r2 RD h beta lambda gamma c o, 0 < RD -> 0 <= h -> exists x1 d1 x2 d2,
  sticko (mkSticko (Fin r1) (Fin RD)) (mkSticko (Fin r2) (Fin RD)) o (mkStickoConfig (Fin h) (Fin beta) (Fin lambda) (Fin gamma) (Fin c)) = (mkSticko (Fin x1) d1, mkSticko (Fin x2) d2) /\
  (beta = 0 -> x1 + x2 = r1 + r2) /\ (0 < beta -> r1 + r2 < x1 + x2).
Proof.
  intros r1 r2 RD h beta lambda gamma c o H Hh. rewrite C33_game_proof by auto. do 4 eexists. split; [reflexivity|]. pose proof (gpre_pos RD c H) as P. pose proof gq_pos as Q. pose proof (gg_range RD) as G.
  unfold sticko_r, st_game, mean, Rsum. cbn [map length fold_right INR].
  destruct (glicko_one r1 (gpre RD c) (r2 - gamma) RD (points o + beta) P) as (_ & E1 & _). destruct (glicko_one r2 (gpre RD c) (r1 - - gamma) RD (points (invert o) + beta) P) as (_ & E2 & _).
  assert (S : gE r2 (r1 - - gamma) RD = 1 - gE r1 (r2 - gamma) RD) by (rewrite !gE_lg, <- lg_neg; f_equal; ring). pose proof (gE_range r1 (r2 - gamma) RD) as R0.
  rewrite E1, E2, S, pts_inv. set (L := gE r1 (r2 - gamma) RD) in *. replace (gg RD ^ 2 * (1 - L) * (1 - (1 - L))) with (gg RD ^ 2 * L * (1 - L)) by ring.
  assert (P' : 0 < / (/ gpre RD c ^ 2 + gq ^ 2 * (gg RD ^ 2 * L * (1 - L)))). { apply Rinv_0_lt_compat. apply Rplus_lt_0_compat; [apply Rinv_0_lt_compat, pow_lt; auto|]. apply Rmult_lt_0_compat; [now apply pow_lt|]. apply Rmult_lt_0_compat; [apply Rmult_lt_0_compat; [apply pow_lt; lra|lra]|lra]. }
  set (Q' := / (_ + _)) in *. assert (K : 0 < gq * Q' * gg RD) by (apply Rmult_lt_0_compat; [now apply Rmult_lt_0_compat|lra]).
  split; intros Hb.
  - rewrite Hb. field.
  - assert (0 < gq * Q' * gg RD * beta) by (now apply Rmult_lt_0_compat). apply Rminus_gt_0_lt, Rlt_gt. match goal with |- 0 < ?a => replace a with (2 * (gq * Q' * gg RD * beta)) by field end. lra.
Qed.
Lemma C135_glicko2_proof : forall fuel r1 r2 RD s t tol o p q, 0 < s -> 0 < t -> 0 <= tol ->
  glicko2 fuel (mkGlicko2 (Fin r1) (Fin RD) (Fin s)) (mkGlicko2 (Fin r2) (Fin RD) (Fin s)) o (mkGlicko2Config (Fin t) (Fin tol)) = Some (p, q) ->
  exists x1 x2 d v, p = mkGlicko2 (Fin x1) (Fin d) (Fin v) /\ q = mkGlicko2 (Fin x2) (Fin d) (Fin v) /\ x1 + x2 = r1 + r2.
Proof.
  intros fuel r1 r2 RD s t tol o p q Hs Ht Htol E. destruct (C39_proof _ _ _ _ _ _ _ _ _ _ _ _ Hs Hs Ht Htol E) as (u1 & u2 & Ep & Eq & _). rewrite g2_game_eval in E. cbv zeta in E.
  set (ga := [(g2mu r2, g2phi RD, points o)]) in *. set (gb := [(g2mu r1, g2phi RD, points (invert o))]) in *.
  assert (S : g2E (g2mu r2) (g2mu r1) (g2phi RD) = 1 - g2E (g2mu r1) (g2mu r2) (g2phi RD)) by (rewrite !g2E_lg, <- lg_neg; f_equal; ring).
  assert (V : g2v (g2mu r2) gb = g2v (g2mu r1) ga) by (unfold g2v, ga, gb, Rsum; cbn [map fold_right]; rewrite S; f_equal; ring).
  assert (M : g2M (g2mu r2) gb = - g2M (g2mu r1) ga) by (unfold g2M, ga, gb, Rsum; cbn [map fold_right]; rewrite S, pts_inv; ring).
  assert (VV : g2_vol fuel r2 RD s t tol gb = g2_vol fuel r1 RD s t tol ga) by (unfold g2_vol; cbv zeta; rewrite V, M; do 2 f_equal; ring).
  rewrite VV in E. destruct (g2_vol fuel r1 RD s t tol ga) as [x|]; [|discriminate].
  assert (U : u1 = u2). { assert (A : g2_volatility p = g2_volatility q) by (injection E as <- <-; reflexivity). rewrite Ep, Eq in A. cbn [g2_volatility] in A. now injection A. } subst u2.
  exists (g2_new_r r1 RD u1 ga), (g2_new_r r2 RD u1 gb), (g2_new_rd r1 RD u1 ga), u1. split; [exact Ep|]. split.
  - rewrite Eq. unfold g2_new_rd. now rewrite V.
  - unfold g2_new_r. cbv zeta. rewrite V, M. pose proof g2s_pos. unfold g2mu. field. lra.
Qed.
Lemma one_gain_P q P P' g s L : 0 < q -> 0 < P' < P -> 0 < g -> 0 < L < 1 -> L < s -> 0 < one_gain q P' g s L < one_gain q P g s L.
Proof.
  intros Hq HP Hg HL Hs. unfold one_gain. assert (N : 0 <= q ^ 2 * (g ^ 2 * L * (1 - L))) by (apply Rmult_le_pos; [apply pow2_ge_0|]; apply Rmult_le_pos; [apply Rmult_le_pos; [apply pow2_ge_0|lra]|lra]). set (n := q ^ 2 * _) in *.
  assert (I : 0 < / P < / P') by (split; [apply Rinv_0_lt_compat; lra|apply Rinv_lt_contravar; [apply Rmult_lt_0_compat; lra|lra]]).
  assert (J : 0 < / (/ P' + n) < / (/ P + n)) by (split; [apply Rinv_0_lt_compat; lra|apply Rinv_lt_contravar; [apply Rmult_lt_0_compat; lra|lra]]). assert (A : 0 < g * (s - L)) by (apply Rmult_lt_0_compat; lra).
  split; [apply Rmult_lt_0_compat; [apply Rmult_lt_0_compat; lra|auto]|apply Rmult_lt_compat_r; [auto|apply Rmult_lt_compat_l; lra]].
Qed.
Lemma gpre_lt RD RD' c : 0 < RD < RD' -> RD' ^ 2 + c ^ 2 <= 347 ^ 2 -> gpre RD c < gpre RD' c.
Proof.
  intros H B. assert (RD ^ 2 < RD' ^ 2) by nra. pose proof (pow2_ge_0 c). assert (L : sqrt (RD ^ 2 + c ^ 2) < sqrt (RD' ^ 2 + c ^ 2)) by (apply sqrt_lt_1_alt; pose proof (pow2_ge_0 RD); lra).
  assert (sqrt (RD' ^ 2 + c ^ 2) <= 347) by (rewrite <- (sqrt_pow2 347) by lra; now apply sqrt_le_1_alt). unfold gpre. rewrite !Rmin_left by lra. exact L.
Qed.
(** The player with the larger deviation moves further in an upset or a draw. *)
Lemma C135_glicko_more_proof : forall r1 RD1 r2 RD2 c o, 0 < RD2 < RD1 -> RD1 ^ 2 + c ^ 2 <= 347 ^ 2 -> exists x1 d1 x2 d2,
  glicko (mkGlicko (Fin r1) (Fin RD1)) (mkGlicko (Fin r2) (Fin RD2)) o (mkGlickoConfig (Fin c)) = (mkGlicko (Fin x1) d1, mkGlicko (Fin x2) d2) /\
  (r1 <= r2 -> o = WIN \/ (o = DRAW /\ r1 < r2) -> 0 < r2 - x2 < x1 - r1) /\ (r2 <= r1 -> o = LOSS \/ (o = DRAW /\ r2 < r1) -> 0 < x2 - r2 < r1 - x1).
Proof.
  intros r1 RD1 r2 RD2 c o H B. rewrite C26_proof by lra. do 4 eexists. split; [reflexivity|]. pose proof (gpre_lt RD2 RD1 c H B) as PL. pose proof (gpre_pos RD2 c ltac:(lra)) as P0. pose proof (gpre_347 RD1 c ltac:(lra) B) as P1.
  set (p := gpre RD2 c) in *. set (P := gpre RD1 c) in *. pose proof gq_pos as Q. pose proof (gg_range RD1) as G.
  assert (A : forall a s, 0 <= a -> s = 1 \/ (s = 1 / 2 /\ 0 < a) -> 0 < one_gain gq (p ^ 2) (gg RD1) s (lg (gq * gg RD1 * a)) < one_gain gq (P ^ 2) (gg RD2) s (lg (gq * gg RD2 * a))).
  { intros a s Ha Hs. pose proof (under_gain P a RD2 RD1 s ltac:(lra) ltac:(lra) Ha Hs) as U. pose proof (lg_range (gq * gg RD1 * a)).
    assert (X : 0 < one_gain gq (p ^ 2) (gg RD1) s (lg (gq * gg RD1 * a)) < one_gain gq (P ^ 2) (gg RD1) s (lg (gq * gg RD1 * a))).
    { apply one_gain_P; auto; [split; [now apply pow_lt|nra]|lra|]. destruct Hs as [->|[-> h]]; [lra|]. rewrite <- lg_0. apply lg_lt. apply Rmult_lt_0_compat; [apply Rmult_lt_0_compat; lra|auto]. }
    lra. }
  split; intros Hr Ho.
  - rewrite (glicko_gain r1), (glicko_loss r2), gE_lg by lra. pose proof (A (r2 - r1) (points o) ltac:(lra)) as U. rewrite pts_inv. replace (1 - (1 - points o)) with (points o) by ring. destruct U; [destruct Ho as [->|[-> h]]; cbn [points]; [left|right]; [auto|split; [auto|lra]]|lra].
  - rewrite (glicko_loss r1), (glicko_gain r2), gE_lg by lra. pose proof (A (r1 - r2) (1 - points o) ltac:(lra)) as U. rewrite pts_inv. destruct U; [destruct Ho as [->|[-> h]]; cbn [points]; [left|right]; [lra|split; [lra|lra]]|lra].
Qed.
(** Tails: with a large enough lead the smaller attenuation pays more. *)
Lemma tail_gain P P' g g' : 0 < P -> 0 < P' -> 0 < g' < g -> g <= 1 -> exists b, 0 < b /\ 0 < one_gain gq P g 1 (1 - lg (gq * g * b)) < one_gain gq P' g' 1 (1 - lg (gq * g' * b)).
Proof.
  intros P2 P2' GL G1. pose proof gq_pos as Q. assert (IP : 0 < / P) by (now apply Rinv_0_lt_compat). assert (IP' : 0 < / P') by (now apply Rinv_0_lt_compat). set (M := 2 * g * P * (/ P' + gq ^ 2) / g'). assert (Q2 : 0 < gq ^ 2) by (now apply pow_lt).
  assert (M0 : 0 < M) by (unfold M; apply Rdiv_lt_0_compat; [|lra]; apply Rmult_lt_0_compat; [apply Rmult_lt_0_compat; lra|lra]).
  set (b := M / (gq * (g - g'))). assert (GG : 0 < gq * (g - g')) by (apply Rmult_lt_0_compat; lra). assert (B0 : 0 < b) by (unfold b; apply Rdiv_lt_0_compat; auto).
  exists b. split; [auto|]. set (w := gq * g * b). set (w' := gq * g' * b). pose proof (lg_range w) as Lw. pose proof (lg_range w') as Lw'. unfold one_gain.
  replace (1 - (1 - lg w)) with (lg w) by ring. replace (1 - (1 - lg w')) with (lg w') by ring. set (L := lg w) in *. set (L' := lg w') in *.
  assert (B : forall g L, 0 < g <= 1 -> 0 < L < 1 -> 0 < g ^ 2 * (1 - L) * L <= 1).
  { intros x y Hx Hy. assert (0 < x ^ 2 <= 1) by (split; [apply pow_lt; lra|nra]). assert (0 < (1 - y) * y <= 1) by (split; nra). split; nra. }
  pose proof (B g L ltac:(lra) Lw) as B1. pose proof (B g' L' ltac:(lra) Lw') as B2. clear B. set (I1 := g ^ 2 * (1 - L) * L) in *. set (I2 := g' ^ 2 * (1 - L') * L') in *.
  assert (D1 : / P < / P + gq ^ 2 * I1) by nra. assert (D2 : / P' + gq ^ 2 * I2 <= / P' + gq ^ 2) by nra.
  assert (F1 : 0 < / (/ P + gq ^ 2 * I1) < P). { split; [apply Rinv_0_lt_compat; lra|]. rewrite <- (Rinv_inv P) at 2 by lra. apply Rinv_lt_contravar; [apply Rmult_lt_0_compat; lra|lra]. }
  assert (F2 : / (/ P' + gq ^ 2) <= / (/ P' + gq ^ 2 * I2)) by (apply Rinv_le_contravar; [nra|lra]).
  assert (T1 : L < exp (- w)). { unfold L, lg. rewrite exp_Ropp. pose proof (exp_pos w). apply Rinv_lt_contravar; [nra|lra]. }
  assert (T2 : exp (- w') / 2 <= L'). { unfold L', lg. rewrite exp_Ropp. assert (0 <= w') by (unfold w'; apply Rmult_le_pos; [apply Rmult_le_pos; lra|lra]). assert (1 <= exp w') by (pose proof (exp_ineq1_le w'); lra). replace (/ exp w' / 2) with (/ (2 * exp w')) by (field; lra). apply Rinv_le_contravar; lra. }
  assert (T3 : M * exp (- w) < exp (- w')). { assert (WW : - w' = M + - w) by (unfold w, w', b; field; split; lra). rewrite WW, exp_plus. apply Rmult_lt_compat_r; [apply exp_pos|]. pose proof (exp_ineq1 M ltac:(lra)). lra. }
  assert (S1 : 0 < gq * / (/ P + gq ^ 2 * I1) * (g * L) < gq * (P * (g * exp (- w)))).
  { split; [apply Rmult_lt_0_compat; [apply Rmult_lt_0_compat; lra|apply Rmult_lt_0_compat; lra]|]. rewrite Rmult_assoc. apply Rmult_lt_compat_l; [auto|]. apply Rmult_gt_0_lt_compat; [apply Rmult_lt_0_compat; lra|auto|lra|apply Rmult_lt_compat_l; lra]. }
  assert (S2 : gq * (/ (/ P' + gq ^ 2) * (g' * (exp (- w') / 2))) <= gq * / (/ P' + gq ^ 2 * I2) * (g' * L')).
  { rewrite Rmult_assoc. apply Rmult_le_compat_l; [lra|]. pose proof (exp_pos (- w')). apply Rmult_le_compat; [left; apply Rinv_0_lt_compat; lra|apply Rmult_le_pos; lra|auto|apply Rmult_le_compat_l; lra]. }
  assert (S3 : gq * (P * (g * exp (- w))) < gq * (/ (/ P' + gq ^ 2) * (g' * (exp (- w') / 2)))).
  { apply Rmult_lt_compat_l; [auto|]. replace (P * (g * exp (- w))) with (/ (/ P' + gq ^ 2) * (g' * (M * exp (- w) / 2))) by (unfold M; field; repeat split; try lra; nra).
    apply Rmult_lt_compat_l; [apply Rinv_0_lt_compat; lra|]. apply Rmult_lt_compat_l; lra. }
  lra.
Qed.
Lemma C135_glicko_refuted_proof : forall r1 RD1 RD2 c, 0 < RD2 < RD1 -> exists r2 x1 d1 x2 d2, r2 < r1 /\
  glicko (mkGlicko (Fin r1) (Fin RD1)) (mkGlicko (Fin r2) (Fin RD2)) WIN (mkGlickoConfig (Fin c)) = (mkGlicko (Fin x1) d1, mkGlicko (Fin x2) d2) /\ 0 < x1 - r1 < r2 - x2.
Proof.
  intros r1 RD1 RD2 c H. pose proof (gg_range RD2) as G. pose proof (gg_range RD1) as G'. pose proof (gg_lt RD2 RD1 ltac:(lra)) as GL.
  pose proof (gpre_pos RD1 c ltac:(lra)) as P1. pose proof (gpre_pos RD2 c ltac:(lra)) as P2.
  destruct (tail_gain (gpre RD1 c ^ 2) (gpre RD2 c ^ 2) (gg RD2) (gg RD1)) as (b & B & T); [now apply pow_lt|now apply pow_lt|lra|lra|].
  exists (r1 - b). rewrite C26_proof by lra. do 4 eexists. split; [lra|]. split; [reflexivity|]. cbn [points invert].
  rewrite (glicko_gain r1), (glicko_gain (r1 - b)), !gE_lg by auto. replace (r1 - b - r1) with (- b) by ring. replace (r1 - (r1 - b)) with b by ring.
  replace (gq * gg RD2 * - b) with (- (gq * gg RD2 * b)) by ring. rewrite lg_neg. unfold one_gain in *. set (L := lg (gq * gg RD2 * b)) in *. set (L' := lg (gq * gg RD1 * b)) in *.
  replace (gg RD1 ^ 2 * (1 - L') * (1 - (1 - L'))) with (gg RD1 ^ 2 * L' * (1 - L')) in T by ring. lra.
Qed.
