(** Glicko-Boost: what the boost does to the rating (C94, C96). *)
From Coq Require Import ZArith NArith List Bool Reals Lra Lia.
From Verif Require Import Arith XR Tac ModelLib ModelGlicko ModelBoost Spec MathIval ProofElo ProofGlicko ProofBoost ProofOrder.
Import ListNotations.
Local Open Scope R_scope.

(** The default configuration, and the same with the boost switched off. *)
Definition bdef (k : R) : boost_cfg := {| bc_eta := 30; bc_k := k; bc_b0 := 20139/100000; bc_b1 := 175/10;
  bc_a0 := 583733/100000; bc_a1 := -175374/1000000000; bc_a2 := -7080124/100000000000; bc_a3 := 1733792/1000000000; bc_a4 := 26706/100000000 |}.
Lemma bdef_new : bcfg (bdef (196/100)) = boost_config_new.
Proof. unfold bcfg, bdef, boost_config_new. cbn [bc_eta bc_k bc_b0 bc_b1 bc_a0 bc_a1 bc_a2 bc_a3 bc_a4]. cbn. f_equal; f_equal; try lra. Qed.
Definition bE (r r2 RD2 : R) : R := gE r (r2 - 30) RD2.

Lemma boost_Z_single r rj RDj s : boost_Z r [(rj, RDj, s)] = (s - gE r rj RDj) / sqrt (gE r rj RDj * (1 - gE r rj RDj)).
Proof.
  unfold boost_Z. rewrite gM_single, gd2inv_single. pose proof (gg_pos RDj). pose proof (gE_range r rj RDj) as E. pose proof gq_pos.
  assert (P : 0 < gE r rj RDj * (1 - gE r rj RDj)) by (apply Rmult_lt_0_compat; lra).
  replace (gq ^ 2 * (gg RDj ^ 2 * gE r rj RDj * (1 - gE r rj RDj)) / gq ^ 2) with (gg RDj ^ 2 * (gE r rj RDj * (1 - gE r rj RDj))) by (field; lra).
  rewrite sqrt_mult by (try apply pow2_ge_0; lra). rewrite sqrt_pow2 by lra. pose proof (sqrt_lt_R0 _ P). field. lra.
Qed.
Lemma Z_win_iff E k : 0 < E < 1 -> 0 < k -> (k < (1 - E) / sqrt (E * (1 - E)) <-> E < / (1 + k ^ 2)).
Proof.
  intros HE Hk. assert (P : 0 < E * (1 - E)) by (apply Rmult_lt_0_compat; lra). pose proof (sqrt_lt_R0 _ P) as S0. pose proof (sqrt_sqrt (E * (1 - E)) ltac:(lra)) as SS. set (s := sqrt (E * (1 - E))) in *.
  assert (K : 0 < 1 + k ^ 2) by nra.
  assert (Q : k < (1 - E) / s <-> k * s < 1 - E).
  { split; intros H.
    - apply Rmult_lt_compat_r with (r := s) in H; auto. unfold Rdiv in H. rewrite Rmult_assoc, Rinv_l, Rmult_1_r in H by lra. exact H.
    - apply Rmult_lt_reg_r with s; auto. unfold Rdiv. rewrite Rmult_assoc, Rinv_l, Rmult_1_r by lra. exact H. }
  rewrite Q. assert (Q2 : E < / (1 + k ^ 2) <-> E * (1 + k ^ 2) < 1).
  { split; intros H.
    - apply Rmult_lt_compat_r with (r := 1 + k ^ 2) in H; auto. rewrite Rinv_l in H by lra. exact H.
    - apply Rmult_lt_reg_r with (1 + k ^ 2); auto. rewrite Rinv_l by lra. exact H. }
  rewrite Q2. assert (KS : k * s * (k * s) = k ^ 2 * E * (1 - E)) by (replace (k * s * (k * s)) with (k ^ 2 * (s * s)) by ring; rewrite SS; ring).
  assert (0 < k * s) by (apply Rmult_lt_0_compat; lra). split; intros H'.
  - assert (k * s * (k * s) < (1 - E) * (1 - E)) by nra. rewrite KS in H0. assert (k ^ 2 * E < 1 - E); [|lra]. apply Rmult_lt_reg_r with (1 - E); lra.
  - apply Rnot_le_lt. intros C. assert ((1 - E) * (1 - E) <= k * s * (k * s)) by nra. rewrite KS in *. assert (k ^ 2 * E * (1 - E) < (1 - E) * (1 - E)); [apply Rmult_lt_compat_r; lra|lra].
Qed.
Lemma glicko_rd_mono r A B games : 0 < A -> A <= B -> glicko_rd r A games <= glicko_rd r B games.
Proof.
  intros HA H. unfold glicko_rd. apply sqrt_le_1_alt, Rinv_le_contravar; [apply gprec_pos; lra|]. apply Rplus_le_compat_r, Rinv_le_contravar; [apply pow_lt; auto|apply pow_incr; lra].
Qed.
Lemma glicko_rd_slt r A B games : 0 < A -> A < B -> glicko_rd r A games < glicko_rd r B games.
Proof.
  intros HA H. pose proof (gprec_pos r A games HA). pose proof (gprec_pos r B games ltac:(lra)). unfold glicko_rd. apply sqrt_lt_1_alt. split; [apply Rlt_le, Rinv_0_lt_compat; lra|].
  apply Rinv_lt_contravar; [apply Rmult_lt_0_compat; lra|]. apply Rplus_lt_compat_r, Rinv_lt_contravar; [apply Rmult_lt_0_compat; apply pow_lt; lra|nra].
Qed.
Lemma gq_hi : gq <= 0.0058.
Proof. unfold gq. assert (ln 10 <= 2.32); [|lra]. rewrite <- (ln_exp 2.32). apply Rlt_le, ln_increasing; [lra|]. pose proof exp_232 as E. replace (232 / 100) with 2.32 in E by lra. lra. Qed.
(** A single game never removes more than 17.5 points of a deviation of at most 160. *)
Lemma rd_drop r RD rj RDj s : 0 < RD <= 160 -> RD <= glicko_rd r RD [(rj, RDj, s)] + 175 / 10.
Proof.
  intros HR. unfold glicko_rd. rewrite gd2inv_single. pose proof (gE_range r rj RDj) as E. pose proof (gg_range RDj) as G. pose proof gq_hi. pose proof gq_pos.
  set (d := gq ^ 2 * _). assert (D : 0 <= d <= 0.00000841).
  { unfold d. pose proof (pow2_ge_0 (gE r rj RDj - 1 / 2)). assert (0 <= gE r rj RDj * (1 - gE r rj RDj) <= 1 / 4) by (split; nra). assert (0 <= gq ^ 2 <= 0.00003364) by (split; nra). assert (0 <= gg RDj ^ 2 <= 1) by (split; nra).
    assert (0 <= gg RDj ^ 2 * gE r rj RDj * (1 - gE r rj RDj) <= 1 / 4) by (rewrite Rmult_assoc; split; nra). split; nra. }
  assert (X : 0 < / RD ^ 2 + d) by (assert (0 < / RD ^ 2) by (apply Rinv_0_lt_compat, pow_lt; lra); lra).
  apply Rle_trans with (RD * (1 - RD ^ 2 * d / 2) + 175 / 10).
  - assert (RD ^ 2 * RD <= 160 ^ 2 * 160) by (apply Rmult_le_compat; try nra). nra.
  - apply Rplus_le_compat_r. apply Rle_trans with (sqrt ((RD * (1 - RD ^ 2 * d / 2)) ^ 2)).
    + destruct (Rle_dec 0 (RD * (1 - RD ^ 2 * d / 2))); [rewrite sqrt_pow2; lra|]. apply Rle_trans with 0; [lra|apply sqrt_pos].
    + apply sqrt_le_1_alt. apply Rmult_le_reg_r with (/ RD ^ 2 + d); auto. rewrite Rinv_l by lra. set (y := RD ^ 2 * d).
      replace ((RD * (1 - y / 2)) ^ 2 * (/ RD ^ 2 + d)) with ((1 - y / 2) ^ 2 * (1 + y)) by (unfold y; field; lra).
      assert (0 <= y <= 1). { unfold y. assert (0 <= RD ^ 2 <= 160 ^ 2) by (split; nra). split; nra. }
      replace ((1 - y / 2) ^ 2 * (1 + y)) with (1 - y ^ 2 * (3 - y) / 4) by field. assert (0 <= y ^ 2 * (3 - y)) by (apply Rmult_le_pos; nra). lra.
Qed.

Lemma boost_eval r RD r2 RD2 o k : 0 < RD -> 0 < RD2 ->
  gb_rating (fst (glicko_boost (mkBoost (Fin r) (Fin RD)) (mkBoost (Fin r2) (Fin RD2)) o (bcfg (bdef k)))) = Fin (boost_r (bdef k) r RD [(r2 - 30, RD2, points o)]).
Proof. intros H1 H2. unfold bcfg. rewrite C35_game_proof by (auto; cbn; lra). reflexivity. Qed.
Lemma boost_rd_0 r RD games : boost_rd (bdef 0) r RD games = Rmin (glicko_rd r RD games) 350.
Proof. unfold boost_rd. cbv zeta. cbn [bc_k bdef]. destruct (Rlt_dec 0 _); auto. destruct (Req_EM_T 0 0); auto. lra. Qed.
Lemma boost_rd_default r RD games : boost_rd (bdef (196 / 100)) r RD games =
  Rmin (glicko_rd r (if Rlt_dec (196 / 100) (boost_Z r games) then (1 + (boost_Z r games - 196 / 100) * (20139 / 100000)) * glicko_rd r RD games + 175 / 10 else RD) games) 350.
Proof. unfold boost_rd. cbv zeta. cbn [bc_k bc_b0 bc_b1 bdef]. destruct (Rlt_dec _ _); auto. destruct (Req_EM_T _ _); auto. lra. Qed.

(** C96: the boost never hurts a player whose deviation is at most 160. *)
Lemma C96_helps_proof : forall r RD r2 RD2 o c0, 0 < RD <= 160 -> 0 < RD2 ->
  c0 = mkBoostConfig (gb_eta boost_config_new) (Fin 0) (gb_b0 boost_config_new) (gb_b1 boost_config_new) (gb_alpha0 boost_config_new) (gb_alpha1 boost_config_new) (gb_alpha2 boost_config_new) (gb_alpha3 boost_config_new) (gb_alpha4 boost_config_new) ->
  exists a b,
  gb_rating (fst (glicko_boost (mkBoost (Fin r) (Fin RD)) (mkBoost (Fin r2) (Fin RD2)) o c0)) = Fin a /\
  gb_rating (fst (glicko_boost (mkBoost (Fin r) (Fin RD)) (mkBoost (Fin r2) (Fin RD2)) o boost_config_new)) = Fin b /\ a <= b.
Proof.
  intros r RD r2 RD2 o c0 HR H2 ->. rewrite <- bdef_new.
  change (mkBoostConfig _ _ _ _ _ _ _ _ _) with (bcfg (bdef 0)). rewrite !boost_eval by lra. do 2 eexists. split; [reflexivity|split; [reflexivity|]].
  unfold boost_r. apply Rplus_le_compat_l. set (gs := [_]). rewrite boost_rd_0, boost_rd_default.
  destruct (Rlt_dec (196 / 100) (boost_Z r gs)) as [HZ|_]; [|lra]. pose proof (rd_drop r RD (r2 - 30) RD2 (points o) HR) as D. fold gs in D.
  assert (GP : 0 < glicko_rd r RD gs) by (apply glicko_rd_range; lra).
  assert (M : 0 <= gM r gs).
  { unfold boost_Z in HZ. assert (V : 0 < sqrt (gd2inv r gs / gq ^ 2)). { apply sqrt_lt_R0, Rdiv_lt_0_compat; [apply gd2inv_pos; discriminate|apply pow_lt, gq_pos]. }
    apply Rnot_lt_le. intros C. assert (gM r gs / sqrt (gd2inv r gs / gq ^ 2) < 0) by (unfold Rdiv; apply Ropp_lt_cancel; rewrite Ropp_0, Ropp_mult_distr_l; apply Rmult_lt_0_compat; [lra|now apply Rinv_0_lt_compat]). lra. }
  apply Rmult_le_compat_r; [exact M|]. apply Rmult_le_compat_l; [apply Rlt_le, gq_pos|]. apply pow_incr. split.
  - apply Rmin_glb; lra.
  - apply Rle_min_compat_r. apply glicko_rd_mono; [lra|]. assert (0 <= (boost_Z r gs - 196 / 100) * (20139 / 100000) * glicko_rd r RD gs) by (apply Rmult_le_pos; [apply Rmult_le_pos; lra|lra]). lra.
Qed.
Lemma exp_230 : 0 < 10 - exp (230 / 100).
Proof. pose (x := 230 / 100). change (0 < 10 - exp x). ival_pos x 0%nat 230%Z 100%Z 230%Z 100%Z. unfold x; lra. Qed.
Lemma exp_2303 : 0 < exp (2303 / 1000) - 10.
Proof. pose (x := 2303 / 1000). change (0 < exp x - 10). ival_pos x 0%nat 2303%Z 1000%Z 2303%Z 1000%Z. unfold x; lra. Qed.
Lemma ln10_close : 2.3 <= ln 10 <= 2.303.
Proof.
  pose proof exp_230. pose proof exp_2303. split.
  - rewrite <- (ln_exp 2.3). apply Rlt_le, ln_increasing; [apply exp_pos|]. replace (230 / 100) with 2.3 in * by lra. lra.
  - rewrite <- (ln_exp 2.303). apply Rlt_le, ln_increasing; [lra|]. replace (2303 / 1000) with 2.303 in * by lra. lra.
Qed.
Lemma gq_close : 0.00575 <= gq <= 0.00575751.
Proof. unfold gq. pose proof ln10_close. lra. Qed.
Lemma gg_sq RD : gg RD ^ 2 = / (1 + 3 * gq ^ 2 * RD ^ 2 / PI ^ 2).
Proof. unfold gg. rewrite pow_inv, pow2_sqrt; [reflexivity|]. pose proof (gg_arg_ge1 RD). lra. Qed.
Lemma gg_sq_lo RD y : 0 < y -> 3 * 0.0000332 * RD ^ 2 <= (/ y - 1) * 9.86 -> y <= gg RD ^ 2.
Proof.
  intros Hy H. rewrite gg_sq. rewrite <- (Rinv_inv y) at 1. pose proof (gg_arg_ge1 RD). apply Rinv_le_contravar; [lra|].
  assert (P : 9.86 <= PI ^ 2) by (pose proof PI_close; nra). pose proof gq_close. pose proof (pow2_ge_0 RD). assert (Q : gq ^ 2 <= 0.0000332) by nra.
  assert (3 * gq ^ 2 * RD ^ 2 / PI ^ 2 <= / y - 1); [|lra]. apply Rmult_le_reg_r with (PI ^ 2); [lra|]. unfold Rdiv. rewrite Rmult_assoc, Rinv_l, Rmult_1_r by lra.
  apply Rle_trans with (3 * 0.0000332 * RD ^ 2); [nra|]. assert (0 <= / y - 1) by nra. nra.
Qed.
(** The deviation after one game, bounded through its square. *)
Lemma glicko_rd_hi r RD rj RDj s d B : 0 < B -> 0 < RD -> d <= gg RDj ^ 2 * (gE r rj RDj * (1 - gE r rj RDj)) -> 0 <= d -> 1 <= B ^ 2 * (/ RD ^ 2 + 0.000033 * d) ->
  glicko_rd r RD [(rj, RDj, s)] <= B.
Proof.
  intros HB HR Hd Hd0 H. unfold glicko_rd. rewrite <- (sqrt_pow2 B) by lra. apply sqrt_le_1_alt. pose proof (gprec_pos r RD [(rj, RDj, s)] HR) as P. rewrite gd2inv_single in *. rewrite Rmult_assoc in *.
  set (v := gg RDj ^ 2 * (gE r rj RDj * (1 - gE r rj RDj))) in *. pose proof gq_close. assert (Q : 0.000033 <= gq ^ 2) by nra.
  apply Rmult_le_reg_r with (/ RD ^ 2 + gq ^ 2 * v); auto. rewrite Rinv_l by lra. eapply Rle_trans; [exact H|]. apply Rmult_le_compat_l; [apply pow2_ge_0|]. apply Rplus_le_compat_l. nra.
Qed.
Lemma inv_196 : / (1 + (196 / 100) ^ 2) = 10000 / 48416.
Proof. field. Qed.

(** C96 refuted: a fresh player who wins when the algorithm expected a score in
    [0.18, 0.2065] is boosted, and ends below where the same configuration without
    boost puts them. *)
Lemma C96_refuted_proof : forall r r2 RD2 c0, 0 < RD2 <= 350 ->
  c0 = mkBoostConfig (gb_eta boost_config_new) (Fin 0) (gb_b0 boost_config_new) (gb_b1 boost_config_new) (gb_alpha0 boost_config_new) (gb_alpha1 boost_config_new) (gb_alpha2 boost_config_new) (gb_alpha3 boost_config_new) (gb_alpha4 boost_config_new) ->
  18 / 100 <= gE r (r2 - 30) RD2 < / (1 + (196 / 100) ^ 2) ->
  exists a b,
  gb_rating (fst (glicko_boost (mkBoost (Fin r) (Fin 350)) (mkBoost (Fin r2) (Fin RD2)) WIN c0)) = Fin a /\
  gb_rating (fst (glicko_boost (mkBoost (Fin r) (Fin 350)) (mkBoost (Fin r2) (Fin RD2)) WIN boost_config_new)) = Fin b /\ b < a.
Proof.
  intros r r2 RD2 c0 H2 -> HE. rewrite <- bdef_new in *.
  change (mkBoostConfig _ _ _ _ _ _ _ _ _) with (bcfg (bdef 0)). rewrite !boost_eval by lra. do 2 eexists. split; [reflexivity|split; [reflexivity|]].
  rewrite inv_196 in HE. unfold boost_r. apply Rplus_lt_compat_l. set (gs := [_]). rewrite boost_rd_0, boost_rd_default.
  assert (HZ : 196 / 100 < boost_Z r gs <= 214 / 100).
  { unfold gs. rewrite boost_Z_single. cbn [points]. split.
    - apply Z_win_iff; [lra|lra|]. rewrite inv_196. lra.
    - apply Rnot_lt_le. intros C. apply Z_win_iff in C; lra. }
  destruct (Rlt_dec (196 / 100) (boost_Z r gs)) as [_|C]; [|lra].
  assert (G : 44 / 100 <= gg RD2 ^ 2) by (apply gg_sq_lo; [lra|]; assert (RD2 ^ 2 <= 350 ^ 2) by (apply pow_incr; lra); lra).
  assert (A : 0 < glicko_rd r 350 gs <= 315).
  { split; [apply glicko_rd_range; lra|]. apply glicko_rd_hi with (44 / 100 * (147 / 1000)); try lra. apply Rmult_le_compat; try lra. nra. }
  assert (M : 0 < gM r gs) by (unfold gs; rewrite gM_single; cbn [points]; apply Rmult_lt_0_compat; [apply gg_pos|lra]).
  apply Rmult_lt_compat_r; [exact M|]. apply Rmult_lt_compat_l; [apply gq_pos|].
  set (RD' := (1 + _) * _ + _). assert (R' : 0 < RD' < 350).
  { unfold RD'. set (z := boost_Z r gs) in *. set (w := glicko_rd r 350 gs) in *. assert (0 <= (z - 196 / 100) * (20139 / 100000) <= 37 / 1000) by lra. set (y := (z - 196 / 100) * (20139 / 100000)) in *. split; nra. }
  pose proof (glicko_rd_slt r RD' 350 gs ltac:(lra) ltac:(lra)). assert (0 < glicko_rd r RD' gs) by (apply glicko_rd_range; lra). rewrite !Rmin_left by lra. nra.
Qed.

(** C94 refuted for Glicko-Boost: beating the player rated 1770 is worth less than
    beating the player rated 1762. *)
Lemma exp_1 : 0 < 38416 / 10000 - exp (1336 / 1000).
Proof. pose (x := 1336 / 1000). change (0 < 38416 / 10000 - exp x). ival_pos x 0%nat 1336%Z 1000%Z 1336%Z 1000%Z. unfold x; lra. Qed.
Lemma exp_2 : 0 < exp (132 / 100) - 36 / 10.
Proof. pose (x := 132 / 100). change (0 < exp x - 36 / 10). ival_pos x 0%nat 132%Z 100%Z 132%Z 100%Z. unfold x; lra. Qed.
Lemma exp_3 : 0 < exp (1366 / 1000) - 38417 / 10000.
Proof. pose (x := 1366 / 1000). change (0 < exp x - 38417 / 10000). ival_pos x 0%nat 1366%Z 1000%Z 1366%Z 1000%Z. unfold x; lra. Qed.
Lemma exp_4 : 0 < 4 - exp (1382 / 1000).
Proof. pose (x := 1382 / 1000). change (0 < 4 - exp x). ival_pos x 0%nat 1382%Z 1000%Z 1382%Z 1000%Z. unfold x; lra. Qed.
Lemma gE_bounds r rj RDj lo hi a b : 0 < lo -> 99 / 100 <= gg RDj -> r <= rj -> lo <= 99 / 100 * (rj - r) * 2.3 / 400 -> (rj - r) * 2.303 / 400 <= hi ->
  a <= exp lo -> exp hi <= b -> 0 < a -> / (1 + b) <= gE r rj RDj <= / (1 + a).
Proof.
  intros Hlo Hg Hr H1 H2 Ha Hb Ha0. unfold gE, Rpower. pose proof (gg_range RDj) as G. pose proof ln10_close as L. set (t := _ * ln 10).
  assert (T : t = gg RDj * ((rj - r) * ln 10 / 400)) by (unfold t; field). assert (U : (rj - r) * 2.3 / 400 <= (rj - r) * ln 10 / 400 <= (rj - r) * 2.303 / 400) by (split; nra).
  set (u := (rj - r) * ln 10 / 400) in *. assert (V : lo <= t <= hi) by (rewrite T; split; nra).
  assert (exp lo <= exp t <= exp hi) by (split; destruct V as [V1 V2]; [destruct V1 as [V1| <-]|destruct V2 as [V2| ->]]; try lra; apply Rlt_le, exp_increasing; auto).
  split; apply Rinv_le_contravar; lra.
Qed.
Lemma C94_boost_refuted_proof : exists r RD r2 r2' RD2 a b, r2 < r2' /\
  gb_rating (fst (glicko_boost (mkBoost (Fin r) (Fin RD)) (mkBoost (Fin r2) (Fin RD2)) WIN boost_config_new)) = Fin a /\
  gb_rating (fst (glicko_boost (mkBoost (Fin r) (Fin RD)) (mkBoost (Fin r2') (Fin RD2)) WIN boost_config_new)) = Fin b /\ b < a.
Proof.
  exists 1500, 350, 1762, 1770, 30. rewrite <- bdef_new. rewrite !boost_eval by lra. do 2 eexists. split; [lra|]. split; [reflexivity|split; [reflexivity|]].
  unfold boost_r. apply Rplus_lt_compat_l. set (g1 := [(1762 - 30, 30, _)]). set (g2 := [(1770 - 30, 30, _)]). rewrite !boost_rd_default.
  pose proof (gg_range 30) as G. assert (GS : 99 / 100 <= gg 30 ^ 2) by (apply gg_sq_lo; lra). assert (G1 : 99 / 100 <= gg 30) by nra.
  pose proof exp_1. pose proof exp_2. pose proof exp_3. pose proof exp_4.
  pose proof (gE_bounds 1500 (1770 - 30) 30 (1366 / 1000) (1382 / 1000) (38417 / 10000) 4 ltac:(lra) G1 ltac:(lra) ltac:(lra) ltac:(lra) ltac:(lra) ltac:(lra) ltac:(lra)) as E1.
  pose proof (gE_bounds 1500 (1762 - 30) 30 (132 / 100) (1336 / 1000) (36 / 10) (38416 / 10000) ltac:(lra) G1 ltac:(lra) ltac:(lra) ltac:(lra) ltac:(lra) ltac:(lra) ltac:(lra)) as E2.
  pose proof inv_196 as I. replace (1 + (196 / 100) ^ 2) with (1 + 38416 / 10000) in I by field. rewrite I in E2. replace (/ (1 + 36 / 10)) with (10 / 46) in E2 by field.
  replace (/ (1 + 4)) with (2 / 10) in E1 by field. replace (/ (1 + 38417 / 10000)) with (10000 / 48417) in E1 by field.
  assert (Z1 : boost_Z 1500 g1 <= 196 / 100).
  { unfold g1. rewrite boost_Z_single. cbn [points]. apply Rnot_lt_le. intros C. apply Z_win_iff in C; lra. }
  assert (Z2 : 196 / 100 < boost_Z 1500 g2 <= 2).
  { unfold g2. rewrite boost_Z_single. cbn [points]. split.
    - apply Z_win_iff; [lra|lra|]. rewrite inv_196. lra.
    - apply Rnot_lt_le. intros C. apply Z_win_iff in C; lra. }
  destruct (Rlt_dec (196 / 100) (boost_Z 1500 g1)) as [C|_]; [lra|]. destruct (Rlt_dec (196 / 100) (boost_Z 1500 g2)) as [_|C]; [|lra].
  assert (A : 0 < glicko_rd 1500 350 g2 <= 275).
  { split; [apply glicko_rd_range; lra|]. unfold g2. apply glicko_rd_hi with (99 / 100 * (16 / 100)); try lra. apply Rmult_le_compat; try lra. nra. }
  set (RD' := (1 + _) * _ + _). assert (R' : 0 < RD' <= 295).
  { unfold RD'. set (z := boost_Z 1500 g2) in *. set (w := glicko_rd 1500 350 g2) in *. assert (0 <= (z - 196 / 100) * (20139 / 100000) <= 9 / 1000) by lra. set (y := (z - 196 / 100) * (20139 / 100000)) in *. split; nra. }
  assert (B : 0 < glicko_rd 1500 RD' g2 <= 245).
  { split; [apply glicko_rd_range; lra|]. eapply Rle_trans; [apply (glicko_rd_mono _ _ 295); lra|]. unfold g2. apply glicko_rd_hi with (99 / 100 * (16 / 100)); try lra. apply Rmult_le_compat; try lra. nra. }
  assert (C : 265 <= glicko_rd 1500 350 g1 <= 350).
  { split; [|apply glicko_rd_range; lra]. unfold glicko_rd. rewrite <- (sqrt_pow2 265) by lra. apply sqrt_le_1_alt. rewrite <- (Rinv_inv (265 ^ 2)). apply Rinv_le_contravar; [apply gprec_pos; lra|].
    unfold g1. rewrite gd2inv_single. pose proof gq_close. assert (0 <= gq ^ 2 <= 0.0000332) by (split; nra). set (E := gE 1500 (1762 - 30) 30) in *.
    assert (0 <= gg 30 ^ 2 * E * (1 - E) <= 18 / 100). { rewrite Rmult_assoc. assert (0 <= E * (1 - E) <= 18 / 100) by (split; nra). assert (gg 30 ^ 2 <= 1) by nra. split; nra. }
    assert (gq ^ 2 * (gg 30 ^ 2 * E * (1 - E)) <= 0.0000332 * (18 / 100)) by (apply Rmult_le_compat; lra). lra. }
  rewrite !Rmin_left by lra. rewrite (gM_single 1500 (1770 - 30) 30 (points WIN) : gM 1500 g2 = _), (gM_single 1500 (1762 - 30) 30 (points WIN) : gM 1500 g1 = _). cbn [points]. set (X := glicko_rd 1500 350 g1) in *. set (Y := glicko_rd 1500 RD' g2) in *. pose proof gq_pos.
  set (e1 := gE 1500 (1770 - 30) 30) in *. set (e2 := gE 1500 (1762 - 30) 30) in *. rewrite !Rmult_assoc. apply Rmult_lt_compat_l; [lra|].
  rewrite <- !Rmult_assoc, !(Rmult_comm _ (gg 30)), !Rmult_assoc. apply Rmult_lt_compat_l; [lra|].
  assert (Y ^ 2 <= 245 ^ 2) by (apply pow_incr; lra). assert (265 ^ 2 <= X ^ 2) by (apply pow_incr; lra). pose proof (pow2_ge_0 Y). nra.
Qed.
