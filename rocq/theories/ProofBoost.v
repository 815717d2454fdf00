From Coq Require Import ZArith NArith List Bool Reals Lra Lia Permutation.
From Verif Require Import Arith XR Tac ModelLib ModelGlicko ModelBoost Spec ProofElo ProofGlicko ProofSticko.
Import ListNotations.
Local Open Scope R_scope.

(** The configuration as the library's record. *)
Definition bcfg (c : boost_cfg) : GlickoBoostConfig XR :=
  mkBoostConfig (Fin (bc_eta c)) (Fin (bc_k c)) (Fin (bc_b0 c)) (Fin (bc_b1 c))
    (Fin (bc_a0 c)) (Fin (bc_a1 c)) (Fin (bc_a2 c)) (Fin (bc_a3 c)) (Fin (bc_a4 c)).

Lemma gb_e_eval r rj RDj eta w :
  gb_e_value (Fin (gg RDj)) (Fin r) (Fin rj) (Fin eta) (gb_colour w) =
  Fin (gE r (rj - (if w then eta else - eta)) RDj).
Proof.
  unfold gb_e_value, gE, gb_colour. destruct w; rewrite xr_ofZ; xr; do 4 f_equal; field.
Qed.
Lemma boost_rd_base_pos r RD games : 0 < RD -> 0 < glicko_rd r RD games.
Proof. intros. now apply glicko_rd_range. Qed.

Lemma gb_raw_dev r RD games : 0 < RD -> games <> [] ->
  fsqrt (frecip (frecip (fpowi (Fin RD) 2) + frecip (Fin (/ gd2inv r games)))%flt) = Fin (glicko_rd r RD games).
Proof.
  intros H Hne. pose proof (gd2inv_pos r games Hne). unfold glicko_rd.
  replace (RD ^ 2) with (RD * RD) by ring. set (d := gd2inv r games) in *. xr. rewrite Rinv_inv. xr. reflexivity.
Qed.

Lemma gb_new_deviation_eval c r RD games : 0 < RD -> games <> [] -> 0 <= bc_b0 c -> 0 <= bc_b1 c ->
  gb_new_deviation (Fin RD) (Fin (/ gd2inv r games)) (Fin (boost_Z r games)) (bcfg c) = Fin (boost_rd c r RD games).
Proof.
  intros H Hne Hb0 Hb1. unfold gb_new_deviation, boost_rd, bcfg, gb_boost_rd. cbn [gb_k gb_b0 gb_b1]. cbv zeta.
  pose proof (glicko_rd_range r RD games H) as HR.
  rewrite (gb_raw_dev r RD games) by auto.
  rewrite xr_ofZ, xr_ltb, xr_eqb. unfold Rltb, Reqb.
  destruct (Rlt_dec (bc_k c) (boost_Z r games)) as [h|h]; cbn [andb].
  - destruct (Req_EM_T (bc_k c) 0); cbn [negb].
    + xr. reflexivity.
    + rewrite xr_sub, xr_ofZ, !xr_fma.
      replace ((boost_Z r games - bc_k c) * bc_b0 c + 1) with (1 + (boost_Z r games - bc_k c) * bc_b0 c) by ring.
      rewrite gb_raw_dev; auto.
      * xr. reflexivity.
      * assert (0 <= (boost_Z r games - bc_k c) * bc_b0 c) by (apply Rmult_le_pos; lra). nra.
  - xr. reflexivity.
Qed.
Lemma gd_over_q r games : 0 <= gd2inv r games / gq ^ 2.
Proof. pose proof (gd2inv_nonneg r games). pose proof gq_pos. pos. Qed.
Lemma gb_z_eval r rj RDj s :
  gb_z_value (Fin (gg RDj)) (Fin (gE r rj RDj)) (Fin s) = Fin (boost_Z r [(rj, RDj, s)]).
Proof.
  unfold gb_z_value, boost_Z. rewrite gM_single, gd2inv_single. pose proof gq_pos. pose proof (gvar_pos r rj RDj).
  replace (gq ^ 2 * (gg RDj ^ 2 * gE r rj RDj * (1 - gE r rj RDj)) / gq ^ 2)
    with (gg RDj ^ 2 * gE r rj RDj * (1 - gE r rj RDj)) by (field; lra).
  replace (gg RDj ^ 2) with (gg RDj * gg RDj) in * by ring. xr. reflexivity.
Qed.
Lemma gb_new_rating_eval r RD rj RDj s :
  gb_new_rating (Fin r) (Fin RD) (Fin s) (Fin gq) (Fin (gg RDj)) (Fin (gE r rj RDj)) =
  Fin (r + gq * RD ^ 2 * gM r [(rj, RDj, s)]).
Proof. unfold gb_new_rating. rewrite gM_single. xr. f_equal. ring. Qed.
Lemma gb_end_eval c r RD : gb_end_deviation (Fin r) (Fin RD) (bcfg c) = Fin (boost_end c r RD).
Proof.
  unfold gb_end_deviation, boost_end, bcfg. cbn [gb_alpha0 gb_alpha1 gb_alpha2 gb_alpha3 gb_alpha4].
  xr. do 2 f_equal. f_equal. f_equal; [ring|]. f_equal. ring.
Qed.

(** A game with advantage [eta]. *)
Lemma C35_game_proof : forall r1 RD1 r2 RD2 o c, 0 < RD1 -> 0 < RD2 -> 0 <= bc_b0 c -> 0 <= bc_b1 c ->
  let cfg := mkBoostConfig (Fin (bc_eta c)) (Fin (bc_k c)) (Fin (bc_b0 c)) (Fin (bc_b1 c))
    (Fin (bc_a0 c)) (Fin (bc_a1 c)) (Fin (bc_a2 c)) (Fin (bc_a3 c)) (Fin (bc_a4 c)) in
  let g1 := [(r2 - bc_eta c, RD2, points o)] in
  let g2 := [(r1 + bc_eta c, RD1, points (invert o))] in
  glicko_boost (mkBoost (Fin r1) (Fin RD1)) (mkBoost (Fin r2) (Fin RD2)) o cfg =
  (mkBoost (Fin (boost_r c r1 RD1 g1)) (Fin (boost_end c (boost_r c r1 RD1 g1) (boost_rd c r1 RD1 g1))),
   mkBoost (Fin (boost_r c r2 RD2 g2)) (Fin (boost_end c (boost_r c r2 RD2 g2) (boost_rd c r2 RD2 g2)))).
Proof.
  intros r1 RD1 r2 RD2 o c H1 H2 Hb0 Hb1 cfg g1 g2. unfold cfg. fold (bcfg c). unfold glicko_boost. cbv zeta.
  cbn [gb_rating gb_deviation]. change (gb_eta (bcfg c)) with (Fin (bc_eta c)).
  change gb_q with gl_q. rewrite gl_q_eval, points_eval.
  change (@gb_g_value XR XRA) with (@gl_g_value XR XRA). change (@gb_d_value XR XRA) with (@gl_d_value XR XRA).
  rewrite !gl_g_eval.
  pose proof (gb_e_eval r1 r2 RD2 (bc_eta c) true) as E1. pose proof (gb_e_eval r2 r1 RD1 (bc_eta c) false) as E2.
  unfold gb_colour in E1, E2. rewrite E1, E2. cbv iota.
  change (#1 - Fin (points o))%flt with (Fin (1 - points o)). rewrite <- points_invert.
  replace (r1 - - bc_eta c) with (r1 + bc_eta c) by ring.
  rewrite (gl_d_eval r1 (r2 - bc_eta c) RD2 (points o)), (gl_d_eval r2 (r1 + bc_eta c) RD1 (points (invert o))).
  rewrite !gb_z_eval. rewrite !gb_new_deviation_eval by (auto; discriminate).
  rewrite (gb_new_rating_eval r1 _ (r2 - bc_eta c)), (gb_new_rating_eval r2 _ (r1 + bc_eta c)).
  fold g1 g2. fold (boost_r c r1 RD1 g1) (boost_r c r2 RD2 g2). rewrite !gb_end_eval. reflexivity.
Qed.

Definition b_game (eta : R) (g : R * R * Outcomes * bool) : R * R * R :=
  let '(rj, RDj, o, white) := g in (rj - (if white then eta else - eta), RDj, points o).
Lemma b_game_st eta : forall g, b_game eta g = st_game eta 0 g.
Proof. intros [[[rj RDj] o] w]. unfold b_game, st_game. now rewrite Rplus_0_r. Qed.
Definition b_games (rs : list (R * R * Outcomes * bool)) : list (GlickoBoostRating XR * Outcomes * bool) :=
  map (fun '(r, d, o, w) => (mkBoost (Fin r) (Fin d), o, w)) rs.

Lemma C35_period_proof : forall r RD c rs, 0 < RD -> 0 <= bc_b0 c -> 0 <= bc_b1 c -> rs <> [] ->
  let cfg := mkBoostConfig (Fin (bc_eta c)) (Fin (bc_k c)) (Fin (bc_b0 c)) (Fin (bc_b1 c))
    (Fin (bc_a0 c)) (Fin (bc_a1 c)) (Fin (bc_a2 c)) (Fin (bc_a3 c)) (Fin (bc_a4 c)) in
  let g := map (fun '(rj, RDj, o, white) =>
             (rj - (if white : bool then bc_eta c else - bc_eta c), RDj, points o)) rs in
  glicko_boost_rating_period (mkBoost (Fin r) (Fin RD))
    (map (fun '(rj, RDj, o, white) => (mkBoost (Fin rj) (Fin RDj), o, white)) rs) cfg =
  mkBoost (Fin (boost_r c r RD g)) (Fin (boost_end c (boost_r c r RD g) (boost_rd c r RD g))).
Proof.
  intros r RD c rs H1 Hb0 Hb1 Hne cfg g. unfold cfg. fold (bcfg c). fold (b_games rs). fold (b_game (bc_eta c)) in g.
  assert (Hg : g <> []) by (unfold g; destruct rs; [congruence|discriminate]).
  unfold glicko_boost_rating_period. cbn [gb_rating gb_deviation]. change (gb_eta (bcfg c)) with (Fin (bc_eta c)).
  destruct (b_games rs) as [|x xs] eqn:E; [destruct rs; [congruence|discriminate]|]. rewrite <- E in *. clear E x xs.
  change gb_q with gl_q. rewrite gl_q_eval. change (@gb_g_value XR XRA) with (@gl_g_value XR XRA).
  assert (D : fsum (map (fun r0 : GlickoBoostRating XR * Outcomes * bool =>
       let '(opp, _, white) := r0 in
       let g := gl_g_value (Fin gq) (gb_deviation opp) in
       let e := gb_e_value g (Fin r) (gb_rating opp) (Fin (bc_eta c)) (gb_colour white) in
       (fpowi g 2 * e * (#1 - e))%flt) (b_games rs)) = Fin (gd2inv r g / gq ^ 2)).
  { pose proof gq_pos. unfold g, b_games, gd2inv. rewrite !map_map.
    rewrite (xr_sum_map _ (fun x : R * R * Outcomes * bool => let '(rj, RDj, s) := b_game (bc_eta c) x in
       gg RDj ^ 2 * gE r rj RDj * (1 - gE r rj RDj))).
    - f_equal. field. lra.
    - intros [[[rj RDj] o] w] _. cbn [fst snd gb_deviation gb_rating b_game]. cbv zeta.
      rewrite gl_g_eval, gb_e_eval. xr. f_equal. ring. }
  assert (M : fsum (map (fun r0 : GlickoBoostRating XR * Outcomes * bool =>
       let '(opp, res, white) := r0 in
       let g := gl_g_value (Fin gq) (gb_deviation opp) in
       let e := gb_e_value g (Fin r) (gb_rating opp) (Fin (bc_eta c)) (gb_colour white) in
       let s := to_chess_points res in (g * (s - e))%flt) (b_games rs)) = Fin (gM r g)).
  { unfold g, b_games, gM. rewrite !map_map. apply xr_sum_map.
    intros [[[rj RDj] o] w] _. cbn [fst snd gb_deviation gb_rating b_game]. cbv zeta.
    rewrite gl_g_eval, gb_e_eval, points_eval. xr. reflexivity. }
  cbv zeta in *. rewrite D, M. clear D M.
  pose proof (gd2inv_pos r g Hg) as Hd. pose proof gq_pos as Hq.
  assert (0 < gd2inv r g / gq ^ 2) by pos.
  rewrite xr_powi2, xr_mul. replace (gq * gq * (gd2inv r g / gq ^ 2)) with (gd2inv r g) by (field; lra).
  rewrite xr_recip, xr_sqrt, xr_div by (try pos; apply Rgt_not_eq, sqrt_lt_R0; auto).
  fold (boost_Z r g). rewrite gb_new_deviation_eval by auto. rewrite xr_powi2, xr_mul, xr_fma.
  replace (boost_rd c r RD g * boost_rd c r RD g * gq * gM r g + r) with (boost_r c r RD g) by (unfold boost_r; ring).
  rewrite gb_end_eval. reflexivity.
Qed.

Lemma boost_rd_pos c r RD games : 0 < RD -> 0 <= bc_b0 c -> 0 <= bc_b1 c -> 0 < boost_rd c r RD games <= 350.
Proof.
  intros. unfold boost_rd. cbv zeta. split; [|apply Rmin_r]. apply Rmin_pos; [|lra].
  pose proof (glicko_rd_range r RD games H).
  destruct (Rlt_dec _ _); [destruct (Req_EM_T _ _)|]; try (apply glicko_rd_range; auto).
  assert (0 <= (boost_Z r games - bc_k c) * bc_b0 c) by (apply Rmult_le_pos; lra). nra.
Qed.
Lemma boost_end_range c r RD : 0 < RD -> 0 < boost_end c r RD <= 350 /\ Rmin RD 350 <= boost_end c r RD.
Proof.
  intros. unfold boost_end. set (e := exp _). assert (0 < e) by apply exp_pos. split; [split; [|apply Rmin_r]|].
  - apply Rmin_pos; [|lra]. apply sqrt_lt_R0. nra.
  - apply Rle_min_compat_r. rewrite <- (sqrt_pow2 RD) at 1 by lra. apply sqrt_le_1_alt. lra.
Qed.
Lemma boost_r_dir c r RD rj RDj s : 0 < RD -> 0 <= bc_b0 c -> 0 <= bc_b1 c ->
  (gE r rj RDj < s -> r < boost_r c r RD [(rj, RDj, s)]) /\ (s < gE r rj RDj -> boost_r c r RD [(rj, RDj, s)] < r).
Proof.
  intros. unfold boost_r. rewrite gM_single.
  pose proof (boost_rd_pos c r RD [(rj, RDj, s)] H H0 H1). set (b := boost_rd _ _ _ _) in *.
  pose proof gq_pos. pose proof (gg_pos RDj). assert (0 < gq * b ^ 2 * gg RDj) by pos.
  rewrite <- !Rmult_assoc. split; intros; nra.
Qed.

Lemma C35_range_proof : forall r1 RD1 r2 RD2 o c, 0 < RD1 -> 0 < RD2 -> 0 <= bc_b0 c -> 0 <= bc_b1 c ->
  let cfg := mkBoostConfig (Fin (bc_eta c)) (Fin (bc_k c)) (Fin (bc_b0 c)) (Fin (bc_b1 c))
    (Fin (bc_a0 c)) (Fin (bc_a1 c)) (Fin (bc_a2 c)) (Fin (bc_a3 c)) (Fin (bc_a4 c)) in
  exists r1' d1' r2' d2',
  glicko_boost (mkBoost (Fin r1) (Fin RD1)) (mkBoost (Fin r2) (Fin RD2)) o cfg =
    (mkBoost (Fin r1') (Fin d1'), mkBoost (Fin r2') (Fin d2')) /\
  0 < d1' <= 350 /\ 0 < d2' <= 350 /\
  (o = WIN -> r1 < r1' /\ r2' < r2) /\ (o = LOSS -> r1' < r1 /\ r2 < r2').
Proof.
  intros. unfold cfg. rewrite C35_game_proof by auto. do 4 eexists. split; [reflexivity|].
  split; [apply boost_end_range, boost_rd_pos; auto|]. split; [apply boost_end_range, boost_rd_pos; auto|].
  pose proof (gE_range r1 (r2 - bc_eta c) RD2). pose proof (gE_range r2 (r1 + bc_eta c) RD1).
  split; intros ->; cbn [points invert]; split; apply boost_r_dir; auto; lra.
Qed.

Lemma C35_period_range_proof : forall r RD c rs, 0 < RD -> 0 <= bc_b0 c -> 0 <= bc_b1 c ->
  let cfg := mkBoostConfig (Fin (bc_eta c)) (Fin (bc_k c)) (Fin (bc_b0 c)) (Fin (bc_b1 c))
    (Fin (bc_a0 c)) (Fin (bc_a1 c)) (Fin (bc_a2 c)) (Fin (bc_a3 c)) (Fin (bc_a4 c)) in
  exists r' d',
  glicko_boost_rating_period (mkBoost (Fin r) (Fin RD))
    (map (fun '(rj, RDj, o, white) => (mkBoost (Fin rj) (Fin RDj), o, white)) rs) cfg = mkBoost (Fin r') (Fin d') /\
  0 < d' <= 350 /\ (rs = [] -> r' = r /\ Rmin RD 350 <= d').
Proof.
  intros. unfold cfg. destruct rs as [|x xs].
  - cbn [map]. unfold glicko_boost_rating_period, boost_decay_deviation. cbn [gb_rating gb_deviation].
    fold (bcfg c). rewrite gb_end_eval. do 2 eexists. split; [reflexivity|]. split; [now apply boost_end_range|].
    intros _. split; auto. now apply boost_end_range.
  - rewrite C35_period_proof by (auto; discriminate). do 2 eexists. split; [reflexivity|].
    split; [apply boost_end_range, boost_rd_pos; auto|]. discriminate.
Qed.
Lemma boost_Z_perm r g g' : Permutation g g' -> boost_Z r g = boost_Z r g'.
Proof. intros. unfold boost_Z. now rewrite (gM_perm r g g'), (gd2inv_perm r g g'). Qed.
Lemma C35_order_proof : forall r RD c rs rs', 0 < RD -> 0 <= bc_b0 c -> 0 <= bc_b1 c -> Permutation rs rs' ->
  let cfg := mkBoostConfig (Fin (bc_eta c)) (Fin (bc_k c)) (Fin (bc_b0 c)) (Fin (bc_b1 c))
    (Fin (bc_a0 c)) (Fin (bc_a1 c)) (Fin (bc_a2 c)) (Fin (bc_a3 c)) (Fin (bc_a4 c)) in
  glicko_boost_rating_period (mkBoost (Fin r) (Fin RD))
    (map (fun '(rj, RDj, o, white) => (mkBoost (Fin rj) (Fin RDj), o, white)) rs) cfg =
  glicko_boost_rating_period (mkBoost (Fin r) (Fin RD))
    (map (fun '(rj, RDj, o, white) => (mkBoost (Fin rj) (Fin RDj), o, white)) rs') cfg.
Proof.
  intros * H1 Hb0 Hb1 HP cfg. unfold cfg. destruct rs as [|x xs].
  - apply Permutation_nil in HP as ->. reflexivity.
  - assert (rs' <> []) by (intros ->; apply Permutation_sym, Permutation_nil in HP; discriminate).
    rewrite !C35_period_proof by (auto; discriminate).
    set (g := map _ (x :: xs)). set (g' := map _ rs').
    assert (HG : Permutation g g') by (apply Permutation_map; auto).
    assert (ER : boost_rd c r RD g = boost_rd c r RD g').
    { unfold boost_rd, glicko_rd. now rewrite (boost_Z_perm r g g' HG), (gd2inv_perm r g g' HG). }
    unfold boost_r. now rewrite ER, (gM_perm r g g' HG).
Qed.

(** C34 *)
Lemma boost_rd_k0 c r RD games : 0 < RD <= 350 -> bc_k c = 0 -> boost_rd c r RD games = glicko_rd r RD games.
Proof.
  intros H Hk. unfold boost_rd. cbv zeta. rewrite Hk. pose proof (glicko_rd_range r RD games).
  destruct (Rlt_dec _ _), (Req_EM_T 0 0); try lra; apply Rmin_left; lra.
Qed.
Lemma boost_r_k0 c r RD games : 0 < RD <= 350 -> bc_k c = 0 -> boost_r c r RD games = glicko_r r RD games.
Proof.
  intros H Hk. unfold boost_r. rewrite boost_rd_k0 by auto. unfold glicko_r, glicko_rd.
  pose proof (gprec_pos r RD games ltac:(lra)). rewrite pow2_sqrt by pos. set (X := / RD ^ 2 + _) in *. field. lra.
Qed.
Lemma gpre_350 c : gpre 350 c = 350.
Proof.
  unfold gpre. apply Rmin_right. rewrite <- (sqrt_pow2 350) at 1 by lra. apply sqrt_le_1_alt. pose proof (pow2_ge_0 c). lra.
Qed.
Lemma gpre_c0 RD : 0 < RD <= 350 -> gpre RD 0 = RD.
Proof. intros. unfold gpre. replace (RD ^ 2 + 0 ^ 2) with (RD ^ 2) by ring. rewrite sqrt_pow2, Rmin_left; lra. Qed.
Lemma boost_end_gt c r d : 0 < d < 350 -> d < boost_end c r d.
Proof.
  intros. unfold boost_end. set (e := exp _). assert (0 < e) by apply exp_pos. apply Rmin_glb_lt; [|lra].
  rewrite <- (sqrt_pow2 d) at 1 by lra. apply sqrt_lt_1_alt. split; [apply pow2_ge_0|lra].
Qed.

Lemma C34_refuted_proof : forall r1 r2 o c (bc : boost_cfg),
  bc_eta bc = 0 -> bc_k bc = 0 -> bc_b0 bc = 0 -> bc_b1 bc = 0 ->
  let cfg := mkBoostConfig (Fin (bc_eta bc)) (Fin (bc_k bc)) (Fin (bc_b0 bc)) (Fin (bc_b1 bc))
    (Fin (bc_a0 bc)) (Fin (bc_a1 bc)) (Fin (bc_a2 bc)) (Fin (bc_a3 bc)) (Fin (bc_a4 bc)) in
  exists d d',
  gl_deviation (fst (glicko (mkGlicko (Fin r1) (Fin 350)) (mkGlicko (Fin r2) (Fin 350)) o (mkGlickoConfig (Fin c)))) = Fin d /\
  gb_deviation (fst (glicko_boost (mkBoost (Fin r1) (Fin 350)) (mkBoost (Fin r2) (Fin 350)) o cfg)) = Fin d' /\
  d < d'.
Proof.
  intros * He Hk H0 H1 cfg. unfold cfg. rewrite C26_proof, C35_game_proof by lra. cbn [fst gl_deviation gb_deviation].
  rewrite gpre_350, boost_rd_k0 by (auto; lra). do 2 eexists. split; [reflexivity|]. split; [reflexivity|].
  rewrite He, Rminus_0_r. apply boost_end_gt. split; [apply glicko_rd_range; lra|]. apply glicko_rd_lt; [lra|discriminate].
Qed.

Lemma C34_partial_proof : forall r1 RD1 r2 RD2 o (bc : boost_cfg), 0 < RD1 <= 350 -> 0 < RD2 <= 350 ->
  bc_eta bc = 0 -> bc_k bc = 0 -> bc_b0 bc = 0 -> bc_b1 bc = 0 ->
  let cfg := mkBoostConfig (Fin (bc_eta bc)) (Fin (bc_k bc)) (Fin (bc_b0 bc)) (Fin (bc_b1 bc))
    (Fin (bc_a0 bc)) (Fin (bc_a1 bc)) (Fin (bc_a2 bc)) (Fin (bc_a3 bc)) (Fin (bc_a4 bc)) in
  let '(p, q) := glicko (mkGlicko (Fin r1) (Fin RD1)) (mkGlicko (Fin r2) (Fin RD2)) o (mkGlickoConfig (Fin 0)) in
  let '(p', q') := glicko_boost (mkBoost (Fin r1) (Fin RD1)) (mkBoost (Fin r2) (Fin RD2)) o cfg in
  gb_rating p' = gl_rating p /\ gb_rating q' = gl_rating q /\
  boost_decay_deviation (mkBoost (gl_rating p) (gl_deviation p)) cfg = p' /\
  boost_decay_deviation (mkBoost (gl_rating q) (gl_deviation q)) cfg = q'.
Proof.
  intros * H1 H2 He Hk H0 H3 cfg. unfold cfg. rewrite C26_proof, C35_game_proof by lra.
  cbn [fst gl_deviation gb_deviation gl_rating gb_rating]. unfold boost_decay_deviation. cbn [gb_rating gb_deviation].
  fold (bcfg bc). rewrite !gpre_c0, !boost_rd_k0, !boost_r_k0, !gb_end_eval, !He by auto.
  rewrite Rminus_0_r, Rplus_0_r. auto.
Qed.

(** C36 *)
Lemma boost_expected_eval c r1 RD1 r2 RD2 :
  boost_expected_score (mkBoost (Fin r1) (Fin RD1)) (mkBoost (Fin r2) (Fin RD2)) (bcfg c) =
  (Fin (gE (r1 + bc_eta c) r2 (sqrt (RD1 ^ 2 + RD2 ^ 2))), Fin (gE r2 (r1 + bc_eta c) (sqrt (RD1 ^ 2 + RD2 ^ 2)))).
Proof.
  unfold boost_expected_score, bcfg. cbn [gb_rating gb_deviation gb_eta]. rewrite xr_add.
  exact (glicko_expected_eval (r1 + bc_eta c) RD1 r2 RD2).
Qed.
Lemma C36_refuted_proof : forall r RD rj RDj (bc : boost_cfg), bc_eta bc <> 0 ->
  let cfg := mkBoostConfig (Fin (bc_eta bc)) (Fin (bc_k bc)) (Fin (bc_b0 bc)) (Fin (bc_b1 bc))
    (Fin (bc_a0 bc)) (Fin (bc_a1 bc)) (Fin (bc_a2 bc)) (Fin (bc_a3 bc)) (Fin (bc_a4 bc)) in
  let p := mkBoost (Fin r) (Fin RD) in let q := mkBoost (Fin rj) (Fin RDj) in
  boost_expected_score_rating_period p [(q, false)] cfg = [fst (boost_expected_score p q cfg)] /\
  boost_expected_score_rating_period p [(q, false)] cfg <> [snd (boost_expected_score q p cfg)].
Proof.
  intros r RD rj RDj bc He cfg p q. unfold cfg, p, q.
  assert (E : forall c, boost_expected_score_rating_period (mkBoost (Fin r) (Fin RD)) [(mkBoost (Fin rj) (Fin RDj), false)] c =
    [fst (boost_expected_score (mkBoost (Fin r) (Fin RD)) (mkBoost (Fin rj) (Fin RDj)) c)]) by reflexivity.
  split; [apply E|]. rewrite E. fold (bcfg bc). rewrite !boost_expected_eval. cbn [fst snd].
  intros [= X]. revert X. rewrite (Rplus_comm (RDj ^ 2)). set (S := sqrt _).
  replace (gE r (rj + bc_eta bc) S) with (gE (r - bc_eta bc) rj S) by (unfold gE; do 4 f_equal; ring).
  intros X. destruct (Rtotal_order (bc_eta bc) 0) as [h|[h|h]]; [|contradiction|].
  - pose proof (gE_lt (r + bc_eta bc) (r - bc_eta bc) rj S ltac:(lra)). lra.
  - pose proof (gE_lt (r - bc_eta bc) (r + bc_eta bc) rj S ltac:(lra)). lra.
Qed.
Lemma C36_partial_proof : forall (F : Type) (A : Arith F) (p : GlickoBoostRating F) os c,
  boost_expected_score_rating_period p (map (fun o => (o, true)) os) c =
  map (fun o => fst (boost_expected_score p o c)) os.
Proof. intros. unfold boost_expected_score_rating_period. rewrite map_map. reflexivity. Qed.

Lemma C31_boost_proof : forall r RD,
  boost_confidence_interval (mkBoost (Fin r) (Fin RD)) = (Fin (r - 196 / 100 * RD), Fin (r + 196 / 100 * RD)).
Proof. intros. unfold boost_confidence_interval. cbn [gb_rating gb_deviation]. xr. f_equal; f_equal; lra. Qed.

Lemma C75_boost_proof : forall r1 RD1 r2 RD2 (bc : boost_cfg),
  let cfg := mkBoostConfig (Fin (bc_eta bc)) (Fin (bc_k bc)) (Fin (bc_b0 bc)) (Fin (bc_b1 bc))
    (Fin (bc_a0 bc)) (Fin (bc_a1 bc)) (Fin (bc_a2 bc)) (Fin (bc_a3 bc)) (Fin (bc_a4 bc)) in
  boost_expected_score (mkBoost (Fin r1) (Fin RD1)) (mkBoost (Fin r2) (Fin RD2)) cfg =
  glicko_expected_score (mkGlicko (Fin (r1 + bc_eta bc)) (Fin RD1)) (mkGlicko (Fin r2) (Fin RD2)).
Proof. intros. unfold cfg. fold (bcfg bc). rewrite boost_expected_eval, glicko_expected_eval. reflexivity. Qed.
