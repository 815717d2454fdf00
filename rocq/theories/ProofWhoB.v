(** Proofs of C134 and C135 for Glicko-Boost. *)
From Coq Require Import ZArith NArith List Bool Reals Lra Lia.
From Coquelicot Require Import Coquelicot.
From Verif Require Import Arith XR Tac ModelLib ModelGlicko ModelSticko ModelBoost Spec ProofGlicko ProofSticko ProofBoost ProofElo ProofRematch ProofUncertain ProofWho ProofOrderSt.
Import Spec ListNotations.
Local Open Scope R_scope.

Lemma gE_eta r1 r2 eta RD : gE r2 (r1 + eta) RD = 1 - gE r1 (r2 - eta) RD.
Proof. rewrite !gE_lg, <- lg_neg. f_equal. ring. Qed.
Lemma C135_boost_proof : forall r1 r2 RD o c, 0 < RD <= 350 -> 0 <= bc_k c -> 0 <= bc_b0 c -> 0 <= bc_b1 c -> exists x1 d1 x2 d2,
  let cfg := mkBoostConfig (Fin (bc_eta c)) (Fin (bc_k c)) (Fin (bc_b0 c)) (Fin (bc_b1 c)) (Fin (bc_a0 c)) (Fin (bc_a1 c)) (Fin (bc_a2 c)) (Fin (bc_a3 c)) (Fin (bc_a4 c)) in
  let E := gE r1 (r2 - bc_eta c) RD in
  glicko_boost (mkBoost (Fin r1) (Fin RD)) (mkBoost (Fin r2) (Fin RD)) o cfg = (mkBoost (Fin x1) d1, mkBoost (Fin x2) d2) /\
  (bc_k c = 0 \/ (points o <= E \/ / (1 + bc_k c ^ 2) <= E) /\ (E <= points o \/ E <= 1 - / (1 + bc_k c ^ 2)) -> x1 + x2 = r1 + r2) /\
  (0 < bc_k c -> o = WIN -> E < / (1 + bc_k c ^ 2) -> RD < / sqrt (/ RD ^ 2 + gq ^ 2 / 4) + bc_b1 c -> r1 + r2 < x1 + x2).
Proof.
  intros r1 r2 RD o c HR Hk H0 H1. do 4 eexists. cbv zeta. rewrite C35_game_proof by (auto; lra). split; [reflexivity|]. set (rj := r2 - bc_eta c). pose proof (gE_range r1 rj RD) as RE. set (E := gE r1 rj RD) in *. pose proof (gE_eta r1 r2 (bc_eta c) RD) as EE. fold rj in EE. fold E in EE.
  set (g1 := [(rj, RD, points o)]). set (g2 := [(r1 + bc_eta c, RD, points (invert o))]). pose proof (points_invert o) as PI. pose proof (points_range o) as PR. pose proof gq_pos as Q. pose proof (gg_range RD) as [G G1].
  assert (N1 : g1 <> []) by discriminate. assert (N2 : g2 <> []) by discriminate.
  assert (DD : gd2inv r2 g2 = gd2inv r1 g1) by (unfold g1, g2; rewrite !gd2inv_single; fold E; rewrite EE; ring). assert (MM : gM r2 g2 = - gM r1 g1) by (unfold g1, g2; rewrite !gM_single; fold E; rewrite EE, PI; ring). split.
  - intros H. rewrite !boost_r_plain; auto.
    + unfold glicko_r. rewrite DD, MM. ring.
    + destruct H as [H|[_ [H|H]]]; [now left|right; apply boost_Z_low; lra|right; apply boost_Z_high; [auto|lra|lra]].
    + destruct H as [H|[[H|H] _]]; [now left|right; apply boost_Z_low; fold E; lra|right; apply boost_Z_high; fold E; lra].
  - intros K0 -> HE HC. cbn [points invert] in *. assert (P2 : boost_r c r2 RD g2 = r2 + - (gq * glicko_rd r1 RD g1 ^ 2 * gM r1 g1)).
    { rewrite boost_r_plain; auto; [|right; apply boost_Z_low; lra]. unfold glicko_r, glicko_rd. rewrite DD, MM. assert (0 < gd2inv r1 g1) by (now apply gd2inv_pos). assert (0 < / RD ^ 2) by (apply Rinv_0_lt_compat, pow_lt; lra). rewrite pow2_sqrt by (left; apply Rinv_0_lt_compat; lra). unfold Rdiv. ring. }
    rewrite P2. unfold boost_r at 1. assert (M0 : 0 < gM r1 g1) by (unfold g1; rewrite gM_single; fold E; apply Rmult_lt_0_compat; lra).
    assert (GP : 0 < gd2inv r1 g1) by (now apply gd2inv_pos). assert (IR : 0 < / RD ^ 2) by (apply Rinv_0_lt_compat, pow_lt; lra). set (rd := glicko_rd r1 RD g1).
    assert (GD : gd2inv r1 g1 <= gq ^ 2 / 4). { unfold g1. rewrite gd2inv_single. fold E. pose proof (pow_lt _ 2 Q). assert (gg RD ^ 2 <= 1) by (clear - G G1; nra). assert (0 < E * (1 - E) <= 1 / 4) by (split; [apply Rmult_lt_0_compat; lra|pose proof (pow2_ge_0 (E - 1 / 2)); lra]). assert (L : gg RD ^ 2 * (E * (1 - E)) <= 1 * (E * (1 - E))) by (apply Rmult_le_compat_r; lra). rewrite (Rmult_assoc (gg RD ^ 2)). unfold Rdiv. apply Rmult_le_compat_l; lra. }
    assert (RL : / sqrt (/ RD ^ 2 + gq ^ 2 / 4) <= rd). { unfold rd, glicko_rd. rewrite sqrt_inv. apply Rinv_le_contravar; [apply sqrt_lt_R0; lra|apply sqrt_le_1_alt; lra]. }
    assert (rd0 : 0 < rd) by (unfold rd, glicko_rd; apply sqrt_lt_R0, Rinv_0_lt_compat; lra).
    assert (RR : rd < RD). { unfold rd, glicko_rd. apply Rlt_le_trans with (sqrt (RD ^ 2)); [|rewrite sqrt_pow2; lra]. apply sqrt_lt_1_alt. split; [left; apply Rinv_0_lt_compat; lra|]. apply Rlt_le_trans with (/ (/ RD ^ 2)); [apply Rinv_lt_contravar; [apply Rmult_lt_0_compat; lra|lra]|rewrite Rinv_inv; lra]. }
    assert (ZR : bc_k c < boost_Z r1 g1). { destruct (boost_Z_one r1 rj RD) as [Z0 Z2]. fold g1 in Z0, Z2. fold E in Z2. assert (Y : bc_k c ^ 2 < (1 - E) / E). { apply Rmult_lt_reg_r with E; [lra|]. replace ((1 - E) / E * E) with (1 - E) by (field; lra). assert (K1 : 0 < 1 + bc_k c ^ 2) by (pose proof (pow2_ge_0 (bc_k c)); lra). assert (E * (1 + bc_k c ^ 2) < 1) by (apply Rmult_lt_reg_r with (/ (1 + bc_k c ^ 2)); [now apply Rinv_0_lt_compat|rewrite Rmult_assoc, Rinv_r by lra; lra]). lra. } rewrite <- Z2 in Y. nra. }
    assert (BR : rd < boost_rd c r1 RD g1). { unfold boost_rd. destruct (Rlt_dec (bc_k c) (boost_Z r1 g1)); [|contradiction]. destruct (Req_EM_T (bc_k c) 0); [lra|]. fold rd. set (D := (1 + _) * rd + _). assert (RD < D) by (unfold D; assert (0 <= (boost_Z r1 g1 - bc_k c) * bc_b0 c) by (apply Rmult_le_pos; lra); nra).
      apply Rmin_glb_lt; [|lra]. unfold rd, glicko_rd. assert (ID : / D ^ 2 < / RD ^ 2) by (apply Rinv_lt_contravar; [apply Rmult_lt_0_compat; apply pow_lt; lra|]; nra). assert (0 < / D ^ 2) by (apply Rinv_0_lt_compat, pow_lt; lra). apply sqrt_lt_1_alt. split; [left; apply Rinv_0_lt_compat; lra|]. apply Rinv_lt_contravar; [apply Rmult_lt_0_compat; lra|lra]. }
    set (b := boost_rd c r1 RD g1) in *. assert (rd ^ 2 < b ^ 2) by nra. assert (gq * rd ^ 2 * gM r1 g1 < gq * b ^ 2 * gM r1 g1) by (apply Rmult_lt_compat_r; [auto|apply Rmult_lt_compat_l; auto]). lra.
Qed.
(** C134: a less certain opponent. *)
Lemma gE_under r rj RD RD' : 0 <= RD < RD' -> r <= rj -> gE r rj RD <= gE r rj RD' <= 1 / 2.
Proof.
  intros H [L| ->]; [|rewrite !gE_self; lra]. pose proof (gE_dev rj r RD RD' H L) as D. pose proof (gE_compl r rj RD). pose proof (gE_compl r rj RD'). lra.
Qed.
Lemma C134_boost_proof : forall r RD r2 RD2 RD2' o c, 0 < RD <= 347 -> 0 < RD2 < RD2' -> 0 <= bc_k c -> 0 <= bc_b0 c -> 0 <= bc_b1 c -> exists x x',
  let cfg := mkBoostConfig (Fin (bc_eta c)) (Fin (bc_k c)) (Fin (bc_b0 c)) (Fin (bc_b1 c)) (Fin (bc_a0 c)) (Fin (bc_a1 c)) (Fin (bc_a2 c)) (Fin (bc_a3 c)) (Fin (bc_a4 c)) in
  let rj := r2 - bc_eta c in
  gb_rating (fst (glicko_boost (mkBoost (Fin r) (Fin RD)) (mkBoost (Fin r2) (Fin RD2)) o cfg)) = Fin x /\
  gb_rating (fst (glicko_boost (mkBoost (Fin r) (Fin RD)) (mkBoost (Fin r2) (Fin RD2')) o cfg)) = Fin x' /\
  (r <= rj -> bc_k c = 0 \/ / (1 + bc_k c ^ 2) <= gE r rj RD2 -> o = WIN \/ (o = DRAW /\ r < rj) -> r < x' < x) /\
  (rj <= r -> o = LOSS \/ (o = DRAW /\ rj < r) -> x < x' < r).
Proof.
  intros r RD r2 RD2 RD2' o c HR H2 Hk H0 H1. do 2 eexists. cbv zeta. rewrite !C35_game_proof by (auto; lra). cbn [fst gb_rating]. split; [reflexivity|split; [reflexivity|]]. set (rj := r2 - bc_eta c).
  destruct (glicko_less r RD rj RD2 RD2' o HR ltac:(lra)) as [A B]. split.
  - intros L K W. pose proof (gE_under r rj RD2 RD2' ltac:(lra) L) as U. pose proof (points_range o) as PR. rewrite !boost_r_plain; try (lra || discriminate); [now apply A| |]; (destruct K as [K|K]; [now left|right; apply boost_Z_high; lra]).
  - intros L W. assert (P : forall D, 0 <= D -> points o <= gE r rj D). { intros D HD. pose proof (gE_range r rj D) as RE. destruct W as [-> |[-> W]]; cbn [points]; [lra|]. pose proof (gE_lt rj r rj D W) as Q. rewrite gE_self in Q. lra. }
    rewrite !boost_r_plain; try (lra || discriminate); [now apply B| |]; right; apply boost_Z_low; auto; apply P; lra.
Qed.
(** C135: Sticko with different deviations; the pulls of lambda cancel in the sum. *)
Lemma C135_sticko_more_proof : forall r1 RD1 r2 RD2 h lambda c o, 0 < RD2 < RD1 -> RD1 ^ 2 + c ^ 2 <= 347 ^ 2 -> 0 <= h -> exists x1 d1 x2 d2,
  sticko (mkSticko (Fin r1) (Fin RD1)) (mkSticko (Fin r2) (Fin RD2)) o (mkStickoConfig (Fin h) (Fin 0) (Fin lambda) (Fin 0) (Fin c)) = (mkSticko (Fin x1) d1, mkSticko (Fin x2) d2) /\
  (r1 <= r2 -> o = WIN \/ (o = DRAW /\ r1 < r2) -> r1 + r2 < x1 + x2) /\ (r2 <= r1 -> o = LOSS \/ (o = DRAW /\ r2 < r1) -> x1 + x2 < r1 + r2).
Proof.
  intros r1 RD1 r2 RD2 h lambda c o H B Hh. destruct (C135_glicko_more_proof r1 RD1 r2 RD2 c o H B) as (x1 & d1 & x2 & d2 & E & U & V). rewrite C26_proof in E by lra. injection E as E1 _ E2 _. rewrite C33_game_proof by lra. do 4 eexists. split; [reflexivity|].
  rewrite !sticko_r_one. replace (r2 - 0) with r2 by ring. replace (r1 - - 0) with r1 by ring. rewrite E1, E2. split; intros X Y; [specialize (U X Y)|specialize (V X Y)]; lra.
Qed.
