From Coq Require Import ZArith NArith List Bool Reals Lra Lia Permutation.
From Verif Require Import Arith XR Tac ModelLib ModelGlicko ModelSticko Spec ProofElo ProofGlicko.
Import ListNotations.
Local Open Scope R_scope.

Definition stcfg h b l g c : StickoConfig XR := mkStickoConfig (Fin h) (Fin b) (Fin l) (Fin g) (Fin c).
Definition stp r d : StickoRating XR := mkSticko (Fin r) (Fin d).

Lemma st_e_eval r rj RDj gamma w :
  st_e_value (Fin (gg RDj)) (Fin r) (Fin rj) (Fin gamma) (st_colour w) =
  Fin (gE r (rj - (if w then gamma else - gamma)) RDj).
Proof.
  unfold st_e_value, gE, st_colour. destruct w; rewrite xr_ofZ; xr; do 4 f_equal; field.
Qed.
Lemma st_new_deviation_eval r RD g gm be h : 0 < RD -> 0 <= h ->
  st_new_deviation (Fin RD) (Fin (/ gd2inv r [st_game gm be g])) (Fin h) = Fin (sticko_rd r RD be gm h [g]).
Proof.
  intros. pose proof (gd2inv_pos r [st_game gm be g] ltac:(discriminate)) as Hd.
  unfold st_new_deviation, sticko_rd. cbn [map length INR]. replace (RD ^ 2 + h * 1) with (RD * RD + h) by ring.
  set (d := gd2inv _ _) in *. assert (0 < RD * RD + h) by nra. xr. rewrite Rinv_inv. xr. reflexivity.
Qed.
Lemma st_new_rating_eval r RD rj RDj o w gm be la : 0 < RD ->
  st_new_rating (Fin r) (Fin RD) (Fin gq) (Fin (/ gd2inv r [st_game gm be (rj, RDj, o, w)])) (Fin (gg RDj))
    (Fin (points o)) (Fin (gE r (rj - (if w then gm else - gm)) RDj)) (Fin be) (Fin (la / 100 * (rj - r))) =
  Fin (sticko_r r RD be gm la [(rj, RDj, o, w)]).
Proof.
  intros. pose proof (gd2inv_pos r [st_game gm be (rj, RDj, o, w)] ltac:(discriminate)) as Hd.
  unfold st_new_rating, sticko_r, glicko_r, mean. cbn [map length INR]. rewrite Rsum_cons, Rsum_nil.
  replace (RD ^ 2) with (RD * RD) by ring. unfold st_game in *. rewrite gM_single.
  set (d := gd2inv _ _) in *. xr. rewrite Rinv_inv. xr. f_equal. field. split; [lra|].
  assert (0 < RD * RD) by nra. nra.
Qed.

Lemma C33_game_proof : forall r1 RD1 r2 RD2 o h beta lambda gamma c, 0 < RD1 -> 0 < RD2 -> 0 <= h ->
  sticko (mkSticko (Fin r1) (Fin RD1)) (mkSticko (Fin r2) (Fin RD2)) o
    (mkStickoConfig (Fin h) (Fin beta) (Fin lambda) (Fin gamma) (Fin c)) =
  (mkSticko (Fin (sticko_r r1 (gpre RD1 c) beta gamma lambda [(r2, RD2, o, true)]))
            (Fin (sticko_rd r1 (gpre RD1 c) beta gamma h [(r2, RD2, o, true)])),
   mkSticko (Fin (sticko_r r2 (gpre RD2 c) beta gamma lambda [(r1, RD1, invert o, false)]))
            (Fin (sticko_rd r2 (gpre RD2 c) beta gamma h [(r1, RD1, invert o, false)]))).
Proof.
  intros r1 RD1 r2 RD2 o h be la gm c H1 H2 Hh. unfold sticko. cbv zeta.
  cbn [st_rating st_deviation st_c st_h st_beta st_lambda st_gamma].
  change st_q with gl_q. rewrite gl_q_eval, points_eval.
  change (@st_g_value XR XRA) with (@gl_g_value XR XRA). change (@st_d_value XR XRA) with (@gl_d_value XR XRA).
  change (@st_pre_deviation XR XRA) with (@gl_pre_deviation XR XRA).
  rewrite !gl_g_eval, !gl_pre_eval.
  pose proof (st_e_eval r1 r2 RD2 gm true) as E1. pose proof (st_e_eval r2 r1 RD1 gm false) as E2.
  unfold st_colour in E1, E2. rewrite E1, E2. cbv iota.
  change (#1 - Fin (points o))%flt with (Fin (1 - points o)). rewrite <- points_invert.
  rewrite (gl_d_eval r1 (r2 - gm) RD2 (points o + be)), (gl_d_eval r2 (r1 - - gm) RD1 (points (invert o) + be)).
  replace (Fin la / #100 * (Fin r2 - Fin r1))%flt with (Fin (la / 100 * (r2 - r1))) by (xr; reflexivity).
  replace (Fin la / #100 * (Fin r1 - Fin r2))%flt with (Fin (la / 100 * (r1 - r2))) by (xr; reflexivity).
  pose proof (gpre_pos RD1 c H1) as P1. pose proof (gpre_pos RD2 c H2) as P2.
  pose proof (st_new_rating_eval r1 _ r2 RD2 o true gm be la P1) as N1.
  pose proof (st_new_rating_eval r2 _ r1 RD1 (invert o) false gm be la P2) as N2.
  pose proof (st_new_deviation_eval r1 _ (r2, RD2, o, true) gm be h P1 Hh) as D1.
  pose proof (st_new_deviation_eval r2 _ (r1, RD1, invert o, false) gm be h P2 Hh) as D2.
  unfold st_game in N1, N2, D1, D2. rewrite N1, N2, D1, D2. reflexivity.
Qed.

Definition st_games (rs : list (R * R * Outcomes * bool)) : list (StickoRating XR * Outcomes * bool) :=
  map (fun '(r, d, o, w) => (mkSticko (Fin r) (Fin d), o, w)) rs.

Lemma C33_period_proof : forall r RD h beta lambda gamma c rs, 0 < RD -> 0 <= h -> rs <> [] ->
  sticko_rating_period (mkSticko (Fin r) (Fin RD))
    (map (fun '(rj, RDj, o, white) => (mkSticko (Fin rj) (Fin RDj), o, white)) rs)
    (mkStickoConfig (Fin h) (Fin beta) (Fin lambda) (Fin gamma) (Fin c)) =
  mkSticko (Fin (sticko_r r (gpre RD c) beta gamma lambda rs)) (Fin (sticko_rd r (gpre RD c) beta gamma h rs)).
Proof.
  intros r RD h be la gm c rs H1 Hh Hne. fold (st_games rs).
  assert (HL : length (st_games rs) = length rs) by apply map_length.
  unfold sticko_rating_period. cbn [st_rating st_deviation st_c st_h st_beta st_lambda st_gamma].
  destruct (st_games rs) as [|x xs] eqn:E; [destruct rs; [congruence|discriminate]|]. rewrite <- E in *. clear E x xs.
  cbv zeta. unfold flen. rewrite HL, (xr_ofZ (Z.of_nat (length rs))), <- INR_IZR_INZ.
  assert (HI : 0 < INR (length rs)) by (apply lt_0_INR; destruct rs; [congruence|cbn; lia]).
  change st_q with gl_q. rewrite gl_q_eval.
  change (@st_g_value XR XRA) with (@gl_g_value XR XRA).
  change (@st_pre_deviation XR XRA) with (@gl_pre_deviation XR XRA). rewrite gl_pre_eval.
  pose proof (gpre_pos RD c H1). set (p := gpre RD c) in *.
  assert (D : (fpowi (Fin gq) 2 * fsum (map (fun r0 : StickoRating XR * Outcomes * bool =>
       let '(opp, _, white) := r0 in
       let g := gl_g_value (Fin gq) (st_deviation opp) in
       let e := st_e_value g (Fin r) (st_rating opp) (Fin gm) (st_colour white) in
       fpowi g 2 * e * (#1 - e)) (st_games rs)))%flt = Fin (gd2inv r (map (st_game gm be) rs))).
  { unfold st_games, gd2inv. rewrite !map_map.
    rewrite (xr_sum_map _ (fun x : R * R * Outcomes * bool => let '(rj, RDj, s) := st_game gm be x in
       gg RDj ^ 2 * gE r rj RDj * (1 - gE r rj RDj))).
    - xr. f_equal. f_equal. ring.
    - intros [[[rj RDj] o] w] _. cbn [fst snd st_deviation st_rating st_game]. cbv zeta.
      rewrite gl_g_eval, st_e_eval. xr. f_equal. ring. }
  assert (M : fsum (map (fun r0 : StickoRating XR * Outcomes * bool =>
       let '(opp, res, white) := r0 in
       let g := gl_g_value (Fin gq) (st_deviation opp) in
       let e := st_e_value g (Fin r) (st_rating opp) (Fin gm) (st_colour white) in
       let s := to_chess_points res in (g * (s - e + Fin be))%flt) (st_games rs)) = Fin (gM r (map (st_game gm be) rs))).
  { unfold st_games, gM. rewrite !map_map. apply xr_sum_map.
    intros [[[rj RDj] o] w] _. cbn [fst snd st_deviation st_rating st_game]. cbv zeta.
    rewrite gl_g_eval, st_e_eval, points_eval. xr. f_equal. ring. }
  assert (L : fsum (map (fun r0 : StickoRating XR * Outcomes * bool => st_rating (fst (fst r0))) (st_games rs)) =
              Fin (Rsum (map (fun '(rj, _, _, _) => rj) rs))).
  { unfold st_games. rewrite map_map. apply xr_sum_map. intros [[[rj RDj] o] w] _. reflexivity. }
  cbv zeta in D, M. rewrite D, M, L. clear D M L.
  assert (Hd : 0 < gd2inv r (map (st_game gm be) rs)) by (apply gd2inv_pos; destruct rs; [congruence|discriminate]).
  unfold sticko_r, sticko_rd, glicko_r, mean. rewrite map_length.
  set (d := gd2inv _ _) in *. set (M := gM _ _). set (L := Rsum _). set (n := INR _) in *.
  assert (0 < p * p + h * n) by (assert (0 <= h * n) by pos; nra).
  xr. rewrite !Rinv_inv. xr. f_equal; f_equal.
  - replace (p ^ 2) with (p * p) by ring. ring.
  - replace (p ^ 2) with (p * p) by ring. reflexivity.
Qed.

Lemma sticko_rd_range r RD be gm h gs : 0 < RD -> 0 <= h -> 0 < sticko_rd r RD be gm h gs <= 350.
Proof.
  intros. unfold sticko_rd. split; [|apply Rmin_r]. apply Rmin_pos; [|lra].
  pose proof (gd2inv_nonneg r (map (st_game gm be) gs)). pose proof (pos_INR (length gs)).
  assert (0 <= h * INR (length gs)) by pos. assert (0 < RD ^ 2) by pos.
  assert (0 < / (RD ^ 2 + h * INR (length gs))) by (apply Rinv_0_lt_compat; lra). pos.
Qed.

Lemma C33_range_proof : forall r1 RD1 r2 RD2 h beta lambda gamma c rs, 0 < RD1 -> 0 < RD2 -> 0 <= h -> rs <> [] ->
  let cfg := mkStickoConfig (Fin h) (Fin beta) (Fin lambda) (Fin gamma) (Fin c) in
  (forall o, exists d1 d2,
     st_deviation (fst (sticko (mkSticko (Fin r1) (Fin RD1)) (mkSticko (Fin r2) (Fin RD2)) o cfg)) = Fin d1 /\
     st_deviation (snd (sticko (mkSticko (Fin r1) (Fin RD1)) (mkSticko (Fin r2) (Fin RD2)) o cfg)) = Fin d2 /\
     0 < d1 <= 350 /\ 0 < d2 <= 350) /\
  exists d, st_deviation (sticko_rating_period (mkSticko (Fin r1) (Fin RD1))
    (map (fun '(rj, RDj, o, white) => (mkSticko (Fin rj) (Fin RDj), o, white)) rs) cfg) = Fin d /\ 0 < d <= 350.
Proof.
  intros * H1 H2 Hh Hne cfg. unfold cfg. pose proof (gpre_pos RD1 c H1). pose proof (gpre_pos RD2 c H2). split.
  - intros o. rewrite C33_game_proof by auto. cbn [fst snd st_deviation]. do 2 eexists.
    split; [reflexivity|]. split; [reflexivity|]. split; apply sticko_rd_range; auto.
  - rewrite C33_period_proof by auto. eexists. split; [reflexivity|]. apply sticko_rd_range; auto.
Qed.

Lemma C33_direction_proof : forall r1 RD1 r2 RD2 h beta lambda gamma c, 0 < RD1 -> 0 < RD2 -> 0 <= h ->
  exists w d l w' d' l',
    (forall o, exists p q, sticko (mkSticko (Fin r1) (Fin RD1)) (mkSticko (Fin r2) (Fin RD2)) o
         (mkStickoConfig (Fin h) (Fin beta) (Fin lambda) (Fin gamma) (Fin c)) = (p, q) /\
       st_rating p = Fin (match o with WIN => w | DRAW => d | LOSS => l end) /\
       st_rating q = Fin (match o with WIN => l' | DRAW => d' | LOSS => w' end)) /\
    l < d < w /\ l' < d' < w'.
Proof.
  intros r1 RD1 r2 RD2 h be la gm c H1 H2 Hh.
  exists (sticko_r r1 (gpre RD1 c) be gm la [(r2, RD2, WIN, true)]), (sticko_r r1 (gpre RD1 c) be gm la [(r2, RD2, DRAW, true)]),
         (sticko_r r1 (gpre RD1 c) be gm la [(r2, RD2, LOSS, true)]),
         (sticko_r r2 (gpre RD2 c) be gm la [(r1, RD1, WIN, false)]), (sticko_r r2 (gpre RD2 c) be gm la [(r1, RD1, DRAW, false)]),
         (sticko_r r2 (gpre RD2 c) be gm la [(r1, RD1, LOSS, false)]).
  pose proof (gpre_pos RD1 c H1). pose proof (gpre_pos RD2 c H2). split.
  - intros o. rewrite C33_game_proof by auto. do 2 eexists. split; [reflexivity|]. destruct o; split; reflexivity.
  - unfold sticko_r. cbn [map st_game points].
    repeat split; apply Rplus_lt_compat_r, glicko_r_mono; lra.
Qed.

Lemma C33_order_proof : forall r RD h beta lambda gamma c rs rs', 0 < RD -> 0 <= h -> Permutation rs rs' ->
  let cfg := mkStickoConfig (Fin h) (Fin beta) (Fin lambda) (Fin gamma) (Fin c) in
  sticko_rating_period (mkSticko (Fin r) (Fin RD))
    (map (fun '(rj, RDj, o, white) => (mkSticko (Fin rj) (Fin RDj), o, white)) rs) cfg =
  sticko_rating_period (mkSticko (Fin r) (Fin RD))
    (map (fun '(rj, RDj, o, white) => (mkSticko (Fin rj) (Fin RDj), o, white)) rs') cfg.
Proof.
  intros * H1 Hh HP cfg. unfold cfg. destruct rs as [|x xs].
  - apply Permutation_nil in HP as ->. reflexivity.
  - assert (rs' <> []) by (intros ->; apply Permutation_sym, Permutation_nil in HP; discriminate).
    rewrite !C33_period_proof by (auto; discriminate).
    unfold sticko_r, sticko_rd, glicko_r, mean. rewrite !map_length, (Permutation_length HP).
    rewrite (gd2inv_perm r _ _ (Permutation_map _ HP)), (gM_perm r _ _ (Permutation_map _ HP)).
    rewrite (Rsum_perm _ _ (Permutation_map (fun '(rj, _, _, _) => rj) HP)). reflexivity.
Qed.

(** Sticko without its extensions is Glicko. *)
Definition gs (s : StickoRating XR) : GlickoRating XR := mkGlicko (st_rating s) (st_deviation s).

Lemma sticko_r_glicko r RD (l : list (R * R * Outcomes * bool)) :
  sticko_r r RD 0 0 0 l = glicko_r r RD (map (fun '(rj, RDj, o, _) => (rj, RDj, points o)) l).
Proof.
  unfold sticko_r. unfold Rdiv; rewrite !Rmult_0_l, Rplus_0_r. f_equal. apply map_ext.
  intros [[[rj RDj] o] w]. unfold st_game. f_equal; [f_equal|ring]. destruct w; ring.
Qed.
Lemma sticko_rd_glicko r RD (l : list (R * R * Outcomes * bool)) : 0 < RD <= 350 ->
  sticko_rd r RD 0 0 0 l = glicko_rd r RD (map (fun '(rj, RDj, o, _) => (rj, RDj, points o)) l).
Proof.
  intros. unfold sticko_rd. rewrite Rmult_0_l, Rplus_0_r.
  replace (map (st_game 0 0) l) with (map (fun '(rj, RDj, o, _) => (rj, RDj, points o)) l : list (R * R * R)).
  - fold (glicko_rd r RD (map (fun '(rj, RDj, o, _) => (rj, RDj, points o)) l : list (R * R * R))).
    apply Rmin_left. pose proof (glicko_rd_range r RD (map (fun '(rj, RDj, o, _) => (rj, RDj, points o)) l)). lra.
  - apply map_ext. intros [[[rj RDj] o] w]. unfold st_game. f_equal; [f_equal|ring]. destruct w; ring.
Qed.

Lemma C32_game_proof : forall r1 RD1 r2 RD2 o c, 0 < RD1 -> 0 < RD2 ->
  let '(p, q) := sticko (mkSticko (Fin r1) (Fin RD1)) (mkSticko (Fin r2) (Fin RD2)) o
                   (mkStickoConfig (Fin 0) (Fin 0) (Fin 0) (Fin 0) (Fin c)) in
  let '(p', q') := glicko (mkGlicko (Fin r1) (Fin RD1)) (mkGlicko (Fin r2) (Fin RD2)) o (mkGlickoConfig (Fin c)) in
  st_rating p = gl_rating p' /\ st_deviation p = gl_deviation p' /\
  st_rating q = gl_rating q' /\ st_deviation q = gl_deviation q'.
Proof.
  intros. rewrite C33_game_proof, C26_proof by (auto; lra). cbn [st_rating st_deviation gl_rating gl_deviation].
  rewrite !sticko_r_glicko, !sticko_rd_glicko by (apply gpre_range; lra). auto.
Qed.

Lemma C32_period_proof : forall r RD c rs, 0 < RD ->
  let s := sticko_rating_period (mkSticko (Fin r) (Fin RD))
             (map (fun '(rj, RDj, o, white) => (mkSticko (Fin rj) (Fin RDj), o, white)) rs)
             (mkStickoConfig (Fin 0) (Fin 0) (Fin 0) (Fin 0) (Fin c)) in
  let g := glicko_rating_period (mkGlicko (Fin r) (Fin RD))
             (map (fun '(rj, RDj, o, _) => (mkGlicko (Fin rj) (Fin RDj), o)) rs) (mkGlickoConfig (Fin c)) in
  st_rating s = gl_rating g /\ st_deviation s = gl_deviation g.
Proof.
  intros r RD c rs H. cbv zeta. destruct rs as [|x xs]; [split; reflexivity|].
  rewrite C33_period_proof by (auto; try lra; discriminate).
  set (rs := x :: xs).
  replace (map (fun '(rj, RDj, o, _) => (mkGlicko (Fin rj) (Fin RDj), o)) rs) with
    (map (fun '(rj, RDj, o) => (mkGlicko (Fin rj) (Fin RDj), o)) (map (fun '(rj, RDj, o, _) => (rj, RDj, o)) rs)).
  - rewrite C29_formula_proof by (auto; discriminate). cbv zeta. cbn [st_rating st_deviation gl_rating gl_deviation].
    rewrite sticko_r_glicko, sticko_rd_glicko by (apply gpre_range; lra). rewrite map_map.
    split; do 2 f_equal; apply map_ext; now intros [[[? ?] ?] ?].
  - rewrite map_map. apply map_ext; now intros [[[? ?] ?] ?].
Qed.

Lemma sticko_expected_eval r1 RD1 r2 RD2 h b l g c :
  sticko_expected_score (stp r1 RD1) (stp r2 RD2) (stcfg h b l g c) =
  (Fin (gE (r1 + g) r2 (sqrt (RD1 ^ 2 + RD2 ^ 2))), Fin (gE r2 (r1 + g) (sqrt (RD1 ^ 2 + RD2 ^ 2)))).
Proof.
  unfold sticko_expected_score, stp, stcfg. cbn [st_rating st_deviation st_gamma]. rewrite xr_add.
  exact (glicko_expected_eval (r1 + g) RD1 r2 RD2).
Qed.
Lemma sticko_expected_period_eval r RD h b l g c os :
  sticko_expected_score_rating_period (stp r RD) (map (fun '(rj, RDj, w) => (stp rj RDj, w)) os) (stcfg h b l g c) =
  map (fun '(rj, RDj, w) => Fin (gE (r + (if w : bool then g else - g)) rj (sqrt (RD ^ 2 + RDj ^ 2)))) os.
Proof.
  unfold sticko_expected_score_rating_period. rewrite map_map. apply map_ext. intros [[rj RDj] w].
  unfold stp, stcfg. cbn [fst snd st_rating st_deviation st_gamma]. cbv zeta.
  replace (if w then Fin g else (- Fin g)%flt) with (Fin (if w then g else - g)) by now destruct w.
  rewrite xr_add. pose proof (glicko_expected_eval (r + (if w then g else - g)) RD rj RDj) as E.
  injection E as E _. exact E.
Qed.

Lemma C32_expected_proof : forall r1 RD1 r2 RD2 c os,
  let cfg := mkStickoConfig (Fin 0) (Fin 0) (Fin 0) (Fin 0) (Fin c) in
  sticko_expected_score (mkSticko (Fin r1) (Fin RD1)) (mkSticko (Fin r2) (Fin RD2)) cfg =
    glicko_expected_score (mkGlicko (Fin r1) (Fin RD1)) (mkGlicko (Fin r2) (Fin RD2)) /\
  sticko_expected_score_rating_period (mkSticko (Fin r1) (Fin RD1))
    (map (fun '(rj, RDj, white) => (mkSticko (Fin rj) (Fin RDj), white)) os) cfg =
  glicko_expected_score_rating_period (mkGlicko (Fin r1) (Fin RD1))
    (map (fun '(rj, RDj, _) => mkGlicko (Fin rj) (Fin RDj)) os) /\
  forall p, sticko_decay_deviation p cfg =
    let g := glicko_decay_deviation (mkGlicko (st_rating p) (st_deviation p)) (mkGlickoConfig (Fin c)) in
    mkSticko (gl_rating g) (gl_deviation g).
Proof.
  intros. split; [|split; [|reflexivity]].
  - fold (stp r1 RD1) (stp r2 RD2) (stcfg 0 0 0 0 c) in *. unfold cfg.
    fold (stcfg 0 0 0 0 c). rewrite sticko_expected_eval, glicko_expected_eval, Rplus_0_r. reflexivity.
  - unfold cfg. pose proof (sticko_expected_period_eval r1 RD1 0 0 0 0 c os) as E. unfold stp, stcfg in E. rewrite E.
    unfold glicko_expected_score_rating_period. rewrite map_map. apply map_ext. intros [[rj RDj] w].
    pose proof (glicko_expected_eval r1 RD1 rj RDj) as E'. injection E' as E' _.
    replace (r1 + (if w then 0 else - 0)) with r1 by (destruct w; ring). symmetry. exact E'.
Qed.

(** Colours in expectations. *)
Lemma C76_proof : forall r RD h beta lambda gamma c os,
  let cfg := mkStickoConfig (Fin h) (Fin beta) (Fin lambda) (Fin gamma) (Fin c) in
  let p := mkSticko (Fin r) (Fin RD) in
  sticko_expected_score_rating_period p (map (fun '(rj, RDj, white) => (mkSticko (Fin rj) (Fin RDj), white)) os) cfg =
  map (fun '(rj, RDj, white) =>
         let q := mkSticko (Fin rj) (Fin RDj) in
         if white : bool then fst (sticko_expected_score p q cfg) else snd (sticko_expected_score q p cfg)) os.
Proof.
  intros. unfold cfg, p. pose proof (sticko_expected_period_eval r RD h beta lambda gamma c os) as E. unfold stp, stcfg in E.
  rewrite E. apply map_ext. intros [[rj RDj] w]. cbv zeta.
  pose proof (sticko_expected_eval r RD rj RDj h beta lambda gamma c) as E1.
  pose proof (sticko_expected_eval rj RDj r RD h beta lambda gamma c) as E2. unfold stp, stcfg in E1, E2. rewrite E1, E2.
  destruct w; cbn [fst snd]; f_equal.
  rewrite (Rplus_comm (RDj ^ 2)). unfold gE. do 4 f_equal. ring.
Qed.

Lemma C31_sticko_proof : forall r RD,
  sticko_confidence_interval (mkSticko (Fin r) (Fin RD)) = (Fin (r - 196 / 100 * RD), Fin (r + 196 / 100 * RD)).
Proof. intros. unfold sticko_confidence_interval. cbn [st_rating st_deviation]. xr. f_equal; f_equal; lra. Qed.

Lemma C75_sticko_proof : forall r1 RD1 r2 RD2 h beta lambda gamma c,
  sticko_expected_score (mkSticko (Fin r1) (Fin RD1)) (mkSticko (Fin r2) (Fin RD2))
    (mkStickoConfig (Fin h) (Fin beta) (Fin lambda) (Fin gamma) (Fin c)) =
  glicko_expected_score (mkGlicko (Fin (r1 + gamma)) (Fin RD1)) (mkGlicko (Fin r2) (Fin RD2)).
Proof.
  intros. fold (stp r1 RD1) (stp r2 RD2) (stcfg h beta lambda gamma c).
  rewrite sticko_expected_eval, glicko_expected_eval. reflexivity.
Qed.
