(** Proofs of C133: what a drawn game does to the ratings. *)
From Coq Require Import ZArith NArith List Bool Reals Lra Lia.
From Verif Require Import Arith XR Tac ModelLib ModelElo ModelFifa ModelDwz ModelIngo ModelUscf ModelEgf ModelGlicko ModelGlicko2 ModelSticko ModelBoost ModelWengLin
  Spec SpecIn SpecDraw ProofElo ProofFifa ProofDwz ProofIngo ProofUscf ProofEgf ProofEgf2 ProofGlicko ProofSticko ProofBoost ProofGlicko2 ProofWengLin ProofDrift ProofOrder2 ProofRematch ProofRematch2 ProofConvert.
Import Spec ListNotations.
Local Open Scope R_scope.

Lemma tw_lg k m d x x' : 0 < k -> 0 < m -> x' = x + k * (1 / 2 - lg (m * d)) -> towards d x x'.
Proof.
  intros Hk Hm ->. unfold towards. repeat split; intros H.
  - assert (lg (m * d) < 1 / 2) by (rewrite <- lg_0; apply lg_lt; nra). nra.
  - assert (1 / 2 < lg (m * d)) by (rewrite <- lg_0; apply lg_lt; nra). nra.
  - rewrite H, Rmult_0_r, lg_0. ring.
Qed.
Lemma tw_add d x x' y : towards d x x' -> towards d 0 y -> towards d x (x' + y).
Proof. intros (A & B & C) (A' & B' & C'). unfold towards. repeat split; intros H; [specialize (A H); specialize (A' H)|specialize (B H); specialize (B' H)|specialize (C H); specialize (C' H)]; lra. Qed.
Lemma tw_scale d k x x' : 0 < k -> towards (k * d) x x' -> towards d x x'.
Proof. intros Hk (A & B & C). unfold towards. repeat split; intros H; [apply A|apply B|apply C]; nra. Qed.
Lemma elo_E_lg a b : elo_E a b = lg (ln 10 / 400 * (b - a)).
Proof. rewrite elo_E_sg, lg_sg. f_equal. field. Qed.
Lemma fifa_We_lg a b : fifa_We a b = lg (ln 10 / 600 * (b - a)).
Proof. rewrite fifa_We_sg, lg_sg. f_equal. field. Qed.
Lemma ln10_pos : 0 < ln 10.
Proof. pose proof ln10_tight. lra. Qed.
Lemma gE_tw r d r2 h k : 0 < k -> d = r2 - r -> towards d r (r + k * (gg h * (1 / 2 - gE r r2 h))).
Proof. intros Hk ->. pose proof (gg_range h) as [G _]. pose proof gq_pos. apply (tw_lg (k * gg h) (gq * gg h)); [pos|pos|]. rewrite gE_lg. ring. Qed.

Lemma C133_elo_proof : forall r1 r2 k, 0 < k -> exists x1 x2,
  elo (mkElo (Fin r1)) (mkElo (Fin r2)) DRAW (mkEloConfig (Fin k)) = (mkElo (Fin x1), mkElo (Fin x2)) /\ towards (r2 - r1) r1 x1 /\ towards (r1 - r2) r2 x2.
Proof.
  intros r1 r2 k Hk. rewrite elo_eval. do 2 eexists. split; [reflexivity|]. cbn [points invert]. pose proof ln10_pos.
  split; (apply (tw_lg k (ln 10 / 400)); [auto|lra|]); unfold elo_upd; rewrite elo_E_lg; reflexivity.
Qed.
Lemma C133_fifa_proof : forall r1 r2 k, 0 < k -> exists x1 x2,
  fifa (mkFifa (Fin r1)) (mkFifa (Fin r2)) DRAW (mkFifaConfig (Fin k) false false) = (mkFifa (Fin x1), mkFifa (Fin x2)) /\ towards (r2 - r1) r1 x1 /\ towards (r1 - r2) r2 x2.
Proof.
  intros r1 r2 k Hk. destruct (C06_proof r1 r2 k DRAW) as (-> & _). do 2 eexists. split; [reflexivity|]. cbn [points invert]. pose proof ln10_pos.
  split; (apply (tw_lg k (ln 10 / 600)); [auto|lra|]); unfold fifa_upd; rewrite fifa_We_lg; reflexivity.
Qed.
Lemma C133_dwz_proof : forall r1 i1 a1 r2 i2 a2, (1 <= i1)%N -> (1 <= i2)%N -> exists x1 j1 x2 j2,
  dwz (mkDwz (Fin r1) i1 a1) (mkDwz (Fin r2) i2 a2) DRAW = (mkDwz (Fin x1) j1 a1, mkDwz (Fin x2) j2 a2) /\ towards (r2 - r1) r1 x1 /\ towards (r1 - r2) r2 x2.
Proof.
  intros r1 i1 a1 r2 i2 a2 H1 H2. rewrite dwz_eval by auto. do 4 eexists. split; [reflexivity|]. cbn [points invert]. pose proof ln10_pos.
  pose proof (dwz_E_ge5 r1 a1 (1 / 2) (elo_E r1 r2) (NR i1)) as D1. pose proof (dwz_E_ge5 r2 a2 (1 / 2) (elo_E r2 r1) (NR i2)) as D2. set (d1 := dwz_E r1 _ _ _ _) in *. set (d2 := dwz_E r2 _ _ _ _) in *.
  split; [apply (tw_lg (800 / (d1 + 1)) (ln 10 / 400))|apply (tw_lg (800 / (d2 + 1)) (ln 10 / 400))]; try lra; try (apply Rdiv_lt_0_compat; lra); unfold dwz_upd; rewrite elo_E_lg; reflexivity.
Qed.
Lemma tw_floor f d x x' : towards d x x' -> f <= x -> (d < 0 -> f < x) -> towards d x (Rmax f x').
Proof.
  intros (A & B & C) F F'. unfold towards. repeat split; intros H; [specialize (A H)|specialize (B H); specialize (F' H)|specialize (C H)].
  - apply Rlt_le_trans with x'; [auto|apply Rmax_r].
  - now apply Rmax_lub_lt.
  - rewrite Rmax_right; lra.
Qed.
Lemma C133_uscf_proof : forall r1 n1 r2 n2 t, 100 <= r1 -> 100 <= r2 -> exists x1 m1 x2 m2,
  uscf (mkUscf (Fin r1) n1) (mkUscf (Fin r2) n2) DRAW (mkUscfConfig (Fin t)) = (mkUscf (Fin x1) m1, mkUscf (Fin x2) m2) /\ towards (r2 - r1) r1 x1 /\ towards (r1 - r2) r2 x2.
Proof.
  intros r1 n1 r2 n2 t H1 H2. rewrite C10_proof. do 4 eexists. split; [reflexivity|]. cbn [points]. pose proof ln10_pos.
  assert (A : forall a n b, 100 <= a -> 100 <= b -> towards (b - a) a (Rmax 100 (if (n <=? 8)%N then uscf_prov (IZR (Z.of_N n)) a 1 b 0 0 else uscf_upd a (IZR (Z.of_N n)) 1 (1 / 2) (elo_E a b) t))).
  { intros a n b Ha Hb. apply tw_floor; [|auto|lra]. assert (N : 0 <= IZR (Z.of_N n)) by (apply IZR_le; lia). destruct (n <=? 8)%N.
    - unfold uscf_prov. set (k := IZR (Z.of_N n)) in *. assert (E : (k * a + 1 * b + 400 * (0 - 0)) / (k + 1) = a + (b - a) / (k + 1)) by (field; lra). rewrite E.
      assert (I : 0 < / (k + 1)) by (apply Rinv_0_lt_compat; lra). unfold towards, Rdiv. repeat split; intros; nra.
    - unfold uscf_upd, uscf_bonus. cbn [Nat.ltb Nat.leb INR]. pose proof (uscf_K_pos a n 1 ltac:(lra)) as K. unfold NR in K. apply (tw_lg (uscf_K a (IZR (Z.of_N n)) 1) (ln 10 / 400)); [auto|lra|]. rewrite elo_E_lg. ring. }
  replace (1 - 1 / 2) with (1 / 2) by lra. split; apply A; auto.
Qed.
Lemma C133_ingo_proof : forall r1 a1 r2 a2, exists x1 x2,
  ingo (mkIngo (Fin r1) a1) (mkIngo (Fin r2) a2) DRAW = (mkIngo (Fin x1) a1, mkIngo (Fin x2) a2) /\ towards (r2 - r1) r1 x1 /\ towards (r1 - r2) r2 x2.
Proof.
  intros r1 a1 r2 a2. destruct (C23_proof r1 a1 r2 a2 DRAW) as (-> & _). do 2 eexists. split; [reflexivity|]. cbn [points invert].
  assert (A : forall a D b, 0 < D -> towards (b - a) a (ingo_upd 1 a D b (1 / 2))).
  { intros a D b HD. unfold ingo_upd, ingo_perf. assert (E : (1 * (b - (100 * (1 / 2) - 50)) + a * D) / (1 + D) = a + (b - a) / (1 + D)) by (field; lra). rewrite E.
    assert (I : 0 < / (1 + D)) by (apply Rinv_0_lt_compat; lra). unfold towards, Rdiv. repeat split; intros; nra. }
  assert (P : forall n, 0 < ingo_D n) by (intros n; unfold ingo_D; destruct (n <=? 20)%N, (n <=? 25)%N; lra). split; apply A, P.
Qed.
(** EGF: the bonus goes to both players. *)
Lemma C133_egf_proof : forall r1 r2, -900 <= r1 -> r1 <= r2 -> r2 < 3300 -> exists x1 x2,
  egf (mkEgf (Fin r1)) (mkEgf (Fin r2)) DRAW egf_config_new = (mkEgf (Fin x1), mkEgf (Fin x2)) /\ r1 < x1 /\ x2 <= Rmax (-900) (r2 + egf_bon r2).
Proof.
  intros r1 r2 H0 H1 H2. rewrite egf_eval0 by lra. do 2 eexists. split; [reflexivity|]. cbn [points].
  assert (L : egf_E r1 r2 <= 1 / 2). { rewrite <- (egf_B_diff0 r1). destruct H1 as [H1| ->]; [|lra]. left. apply egf_E_opp; lra. }
  pose proof (egf_bon_pos r1). pose proof (egf_C_pos r1). pose proof (egf_C_pos r2). unfold egf_upd. split; [apply Rlt_le_trans with (2 := Rmax_r _ _); nra|]. apply Rle_max_compat_l. nra.
Qed.
Lemma C133_egf_refuted_proof : forall r, -900 <= r < 3300 -> exists x,
  egf (mkEgf (Fin r)) (mkEgf (Fin r)) DRAW egf_config_new = (mkEgf (Fin x), mkEgf (Fin x)) /\ r < x.
Proof.
  intros r H. rewrite egf_eval0 by lra. cbn [points]. rewrite egf_B_diff0. replace (1 - 1 / 2) with (1 / 2) by lra. eexists. split; [reflexivity|]. pose proof (egf_bon_pos r). unfold egf_upd. apply Rlt_le_trans with (2 := Rmax_r _ _). lra.
Qed.
Lemma glicko_tw r RD r2 RD2 : 0 < RD -> towards (r2 - r) r (glicko_r r RD [(r2, RD2, 1 / 2)]).
Proof.
  intros H. destruct (glicko_one r RD r2 RD2 (1 / 2) H) as ([P _] & E & _). rewrite E. apply gE_tw; [pose proof gq_pos; pos|reflexivity].
Qed.
Lemma C133_glicko_proof : forall r1 RD1 r2 RD2 c, 0 < RD1 -> 0 < RD2 -> exists x1 d1 x2 d2,
  glicko (mkGlicko (Fin r1) (Fin RD1)) (mkGlicko (Fin r2) (Fin RD2)) DRAW (mkGlickoConfig (Fin c)) = (mkGlicko (Fin x1) d1, mkGlicko (Fin x2) d2) /\ towards (r2 - r1) r1 x1 /\ towards (r1 - r2) r2 x2.
Proof.
  intros r1 RD1 r2 RD2 c H1 H2. rewrite C26_proof by auto. do 4 eexists. split; [reflexivity|]. cbn [points invert]. split; apply glicko_tw, gpre_pos; auto.
Qed.
(** Sticko without the colour advantage gamma and the bonus beta per game. *)
Lemma C133_sticko_proof : forall r1 RD1 r2 RD2 h lambda c, 0 < RD1 -> 0 < RD2 -> 0 <= h -> 0 <= lambda -> exists x1 d1 x2 d2,
  sticko (mkSticko (Fin r1) (Fin RD1)) (mkSticko (Fin r2) (Fin RD2)) DRAW (mkStickoConfig (Fin h) (Fin 0) (Fin lambda) (Fin 0) (Fin c)) = (mkSticko (Fin x1) d1, mkSticko (Fin x2) d2) /\
  towards (r2 - r1) r1 x1 /\ towards (r1 - r2) r2 x2.
Proof.
  intros r1 RD1 r2 RD2 h lambda c H1 H2 Hh Hl. rewrite C33_game_proof by auto. do 4 eexists. split; [reflexivity|].
  assert (A : forall a RD b RDb w, 0 < RD -> towards (b - a) a (sticko_r a RD 0 0 lambda [(b, RDb, DRAW, w)])).
  { intros a RD b RDb w H. unfold sticko_r, st_game. cbn [map points]. unfold mean. cbn [map length INR]. rewrite Rsum_cons, Rsum_nil.
    replace (b - (if w then 0 else - 0)) with b by (destruct w; ring). replace (1 / 2 + 0) with (1 / 2) by ring. replace ((b + 0) / 1) with b by field.
    pose proof (glicko_tw a RD b RDb H) as (X & Y & Z). unfold towards. repeat split; intros D; [specialize (X D)|specialize (Y D)|specialize (Z D)]; nra. }
  split; apply A, gpre_pos; auto.
Qed.
(** A bonus per game makes both gain. *)
Lemma C133_sticko_refuted_proof : forall r RD h beta lambda c, 0 < RD -> 0 <= h -> 0 < beta -> exists x1 d1 x2 d2,
  sticko (mkSticko (Fin r) (Fin RD)) (mkSticko (Fin r) (Fin RD)) DRAW (mkStickoConfig (Fin h) (Fin beta) (Fin lambda) (Fin 0) (Fin c)) = (mkSticko (Fin x1) d1, mkSticko (Fin x2) d2) /\ r < x1 /\ r < x2.
Proof.
  intros r RD h beta lambda c H Hh Hb. rewrite C33_game_proof by auto. do 4 eexists. split; [reflexivity|].
  assert (A : forall w, r < sticko_r r (gpre RD c) beta 0 lambda [(r, RD, DRAW, w)]).
  { intros w. unfold sticko_r, st_game. cbn [map points]. unfold mean. cbn [map length INR]. rewrite Rsum_cons, Rsum_nil.
    replace (r - (if w then 0 else - 0)) with r by (destruct w; ring). replace ((r + 0) / 1) with r by field.
    destruct (glicko_one r (gpre RD c) r RD (1 / 2 + beta) (gpre_pos RD c H)) as ([P _] & E & _). rewrite E. pose proof (gg_range RD) as [G _]. pose proof gq_pos.
    assert (EE : gE r r RD = 1 / 2) by (rewrite gE_lg, Rminus_diag_eq, Rmult_0_r by reflexivity; apply lg_0). rewrite EE in *. match goal with |- _ < _ + ?k * _ + _ => assert (0 < k) by pos end.
    assert (0 < gg RD * (1 / 2 + beta - 1 / 2)) by (apply Rmult_lt_0_compat; lra). nra. }
  split; apply A.
Qed.
(** Glicko-Boost: as if the first player were eta points stronger. *)
Lemma C133_boost_proof : forall r1 RD1 r2 RD2 c, 0 < RD1 -> 0 < RD2 -> 0 <= bc_b0 c -> 0 <= bc_b1 c ->
  let cfg := mkBoostConfig (Fin (bc_eta c)) (Fin (bc_k c)) (Fin (bc_b0 c)) (Fin (bc_b1 c)) (Fin (bc_a0 c)) (Fin (bc_a1 c)) (Fin (bc_a2 c)) (Fin (bc_a3 c)) (Fin (bc_a4 c)) in exists x1 d1 x2 d2,
  glicko_boost (mkBoost (Fin r1) (Fin RD1)) (mkBoost (Fin r2) (Fin RD2)) DRAW cfg = (mkBoost (Fin x1) d1, mkBoost (Fin x2) d2) /\
  towards (r2 - (r1 + bc_eta c)) r1 x1 /\ towards (r1 + bc_eta c - r2) r2 x2.
Proof.
  intros r1 RD1 r2 RD2 c H1 H2 B0 B1 cfg. unfold cfg. rewrite C35_game_proof by auto. do 4 eexists. split; [reflexivity|]. cbn [points invert].
  assert (A : forall a RD b RDb d, 0 < RD -> d = b - a -> towards d a (boost_r c a RD [(b, RDb, 1 / 2)])).
  { intros a RD b RDb d H E. unfold boost_r, gM at 1. cbn [map]. rewrite Rsum_cons, Rsum_nil, Rplus_0_r. pose proof (boost_rd_pos c a RD [(b, RDb, 1 / 2)] H B0 B1) as [P _]. apply gE_tw; [|exact E]. pose proof gq_pos. pos. }
  split; apply A; auto; ring.
Qed.
Lemma C133_glicko2_proof : forall fuel r1 RD1 s1 r2 RD2 s2 t tol q1 q2, 0 < s1 -> 0 < s2 -> 0 < t -> 0 <= tol ->
  glicko2 fuel (mkGlicko2 (Fin r1) (Fin RD1) (Fin s1)) (mkGlicko2 (Fin r2) (Fin RD2) (Fin s2)) DRAW (mkGlicko2Config (Fin t) (Fin tol)) = Some (q1, q2) ->
  exists x1 x2, g2_rating q1 = Fin x1 /\ g2_rating q2 = Fin x2 /\ towards (r2 - r1) r1 x1 /\ towards (r1 - r2) r2 x2.
Proof.
  intros fuel r1 RD1 s1 r2 RD2 s2 t tol q1 q2 H1 H2 Ht Htol E. destruct (C39_proof _ _ _ _ _ _ _ _ _ _ _ _ H1 H2 Ht Htol E) as (u1 & u2 & -> & -> & [U1 _] & [U2 _] & _). cbn [g2_rating points invert].
  do 2 eexists. do 2 (split; [reflexivity|]). pose proof g2s_pos as S0.
  assert (A : forall a RD u b RDb, 0 < u -> towards (b - a) a (g2_new_r a RD u [(g2mu b, g2phi RDb, 1 / 2)])).
  { intros a RD u b RDb U. destruct (g2_one a RD u (g2mu b) (g2phi RDb) (1 / 2) U) as (X & _). set (x := g2_new_r a RD u _) in *. pose proof (g2g_range (g2phi RDb)) as [G _]. pose proof (g2E_range (g2mu a) (g2mu b) (g2phi RDb)) as R.
    set (P' := / (/ (g2phi RD ^ 2 + u ^ 2) + _)) in *. assert (0 < P'). { unfold P'. apply Rinv_0_lt_compat. assert (0 < / (g2phi RD ^ 2 + u ^ 2)) by (apply Rinv_0_lt_compat; pose proof (pow2_ge_0 (g2phi RD)); pose proof (pow_lt u 2 U); lra).
      assert (0 < g2g (g2phi RDb) ^ 2 * g2E (g2mu a) (g2mu b) (g2phi RDb) * (1 - g2E (g2mu a) (g2mu b) (g2phi RDb))) by (apply Rmult_lt_0_compat; [apply Rmult_lt_0_compat; [apply pow_lt; lra|lra]|lra]). lra. }
    assert (XE : x = a + g2s * (g2mu x - g2mu a)) by (unfold g2mu; field; lra). rewrite X in XE.
    apply (tw_lg (g2s * P' * g2g (g2phi RDb)) (g2g (g2phi RDb) / g2s)); [pos|apply Rdiv_lt_0_compat; lra|]. rewrite XE at 1. rewrite g2E_lg. replace (1 * g2g (g2phi RDb) * (g2mu b - g2mu a)) with (g2g (g2phi RDb) / g2s * (b - a)) by (rewrite g2mu_diff; field; lra). ring. }
  split; apply A; auto.
Qed.
Lemma C133_wl_proof : forall m1 s1 m2 s2 beta kappa, 0 < s1 -> 0 < s2 -> 0 < kappa <= 1 -> exists x1 d1 x2 d2,
  weng_lin (mkWL (Fin m1) (Fin s1)) (mkWL (Fin m2) (Fin s2)) DRAW (mkWLConfig (Fin beta) (Fin kappa)) = (mkWL (Fin x1) d1, mkWL (Fin x2) d2) /\ towards (m2 - m1) m1 x1 /\ towards (m1 - m2) m2 x2.
Proof.
  intros m1 s1 m2 s2 beta kappa H1 H2 Hk. destruct (C42_proof m1 s1 m2 s2 DRAW beta kappa H1 H2 Hk) as (n1 & t1 & n2 & t2 & -> & E1 & E2 & _). do 4 eexists. split; [reflexivity|]. cbn [points invert] in *.
  set (c := sqrt (s1 ^ 2 + s2 ^ 2 + 2 * beta ^ 2)) in *. assert (C0 : 0 < c) by (apply sqrt_lt_R0; pose proof (pow_lt s1 2 H1); pose proof (pow2_ge_0 s2); pose proof (pow2_ge_0 beta); lra).
  pose proof (pow_lt s1 2 H1). pose proof (pow_lt s2 2 H2). pose proof (Rinv_0_lt_compat c C0).
  split; [apply (tw_lg (s1 ^ 2 / c) (/ c)); [apply Rdiv_lt_0_compat; auto|auto|]; rewrite E1|apply (tw_lg (s2 ^ 2 / c) (/ c)); [apply Rdiv_lt_0_compat; auto|auto|]; rewrite E2]; unfold lg; [replace ((m2 - m1) / c) with (/ c * (m2 - m1)) by (unfold Rdiv; ring)|replace ((m1 - m2) / c) with (/ c * (m1 - m2)) by (unfold Rdiv; ring)]; reflexivity.
Qed.
Lemma wlp_lg' a b c : 0 < c -> wlp a b c = lg (/ c * (b - a)).
Proof. intros H. unfold wlp, lg. do 3 f_equal. unfold Rdiv. ring. Qed.
Lemma C133_wl_teams_proof : forall t1 t2 beta kappa, wl_ok t1 -> wl_ok t2 -> 0 <= kappa ->
  let d := Rsum (map fst t2) - Rsum (map fst t1) in exists t1' t2',
  weng_lin_two_teams (wlt_in t1) (wlt_in t2) DRAW (mkWLConfig (Fin beta) (Fin kappa)) = (wlt_in t1', wlt_in t2') /\
  Forall2 (fun p p' => towards d (fst p) (fst p')) t1 t1' /\ Forall2 (fun p p' => towards (- d) (fst p) (fst p')) t2 t2'.
Proof.
  intros t1 t2 beta kappa O1 O2 Hk d. rewrite wl_two_teams_eval by auto. do 2 eexists. split; [reflexivity|]. cbn [points invert].
  assert (A : forall t t' d, wl_ok t -> wl_ok t' -> d = wl_theta t' - wl_theta t -> Forall2 (fun p p' => towards d (fst p) (fst p')) t (wl_side beta kappa t t' (1 / 2))).
  { intros t t' e O O' ->. pose proof (wl_s2_pos t O) as P. pose proof (wl_s2_pos t' O') as P'. assert (C : 0 < wlc beta (wl_s2 t) (wl_s2 t')) by (apply wlc_pos; lra). pose proof (Rinv_0_lt_compat _ C) as I0. unfold wl_side.
    set (De := wls_eta _ _ _ _ _). set (Om := wls_delta _ _ _ _ _ _). destruct O as [_ F]. assert (G : forall l, Forall (fun p : R * R => 0 < snd p) l -> Forall2 (fun p p' => towards (wl_theta t' - wl_theta t) (fst p) (fst p')) l (map (wl_player kappa (wl_s2 t) Om De) l)); [|apply G, F].
    induction 1 as [|p l Hp _ IH]; [constructor|]. cbn [map]. constructor; [|exact IH]. unfold wl_player. cbn [fst]. unfold Om, wls_delta. cbv zeta. set (c := wlc beta (wl_s2 t) (wl_s2 t')) in *.
    apply (tw_lg (snd p ^ 2 / c) (/ c)); [apply Rdiv_lt_0_compat; [apply pow_lt|]; lra|auto|]. rewrite wlp_lg' by auto. field. split; lra. }
  split; apply A; auto; unfold d, wl_theta; ring.
Qed.
(** A tie of any number of teams: the strongest team loses, the weakest gains. *)
Lemma Rsum_nonpos_lt (l : list R) : Forall (fun x => x <= 0) l -> (exists x, In x l /\ x < 0) -> Rsum l < 0.
Proof.
  assert (N : forall l, Forall (fun x => x <= 0) l -> Rsum l <= 0) by (induction 1 as [|x m Hx _ IH]; rewrite ?Rsum_nil, ?Rsum_cons; lra).
  induction l as [|a l IH]; intros F (x & I1 & I2); [contradiction|]. apply Forall_cons_iff in F as [F1 F2]. rewrite Rsum_cons. pose proof (N l F2). destruct I1 as [->|I1]; [lra|]. pose proof (IH F2 (ex_intro _ x (conj I1 I2))). lra.
Qed.
Lemma Rsum_opp (l : list R) : Rsum (map Ropp l) = - Rsum l.
Proof. induction l as [|a l IH]; cbn [map]; rewrite ?Rsum_nil, ?Rsum_cons; [ring|rewrite IH; ring]. Qed.
Lemma C133_wl_multi_proof : forall xs beta kappa, 0 <= kappa -> Forall (fun x => wl_ok (fst x)) xs -> (forall x y, In x xs -> In y xs -> snd x = snd y) ->
  let sum (x : list (R * R) * N) := Rsum (map fst (fst x)) in exists ys,
  weng_lin_multi_team (map wlr_in xs) (mkWLConfig (Fin beta) (Fin kappa)) = map wlt_in ys /\
  Forall2 (fun x y =>
    ((forall z, In z xs -> sum z <= sum x) -> (exists z, In z xs /\ sum z < sum x) -> Forall2 (fun p p' => fst p' < fst p) (fst x) y) /\
    ((forall z, In z xs -> sum x <= sum z) -> (exists z, In z xs /\ sum x < sum z) -> Forall2 (fun p p' => fst p < fst p') (fst x) y) /\
    ((forall z, In z xs -> sum z = sum x) -> Forall2 (fun p p' => fst p' = fst p) (fst x) y)) xs ys.
Proof.
  intros xs beta kappa Hk HF HR sum. rewrite wl_multi_eval by auto. exists (map (wl_outx beta kappa xs) xs). split; [now rewrite map_map|].
  rewrite Forall_forall in HF.
  assert (G : forall l, incl l xs -> Forall2 (fun x y =>
    ((forall z, In z xs -> sum z <= sum x) -> (exists z, In z xs /\ sum z < sum x) -> Forall2 (fun p p' => fst p' < fst p) (fst x) y) /\
    ((forall z, In z xs -> sum x <= sum z) -> (exists z, In z xs /\ sum x < sum z) -> Forall2 (fun p p' => fst p < fst p') (fst x) y) /\
    ((forall z, In z xs -> sum z = sum x) -> Forall2 (fun p p' => fst p' = fst p) (fst x) y)) l (map (wl_outx beta kappa xs) l)); [|apply G, incl_refl].
  induction l as [|x l IH]; intros HI; [constructor|]. cbn [map]. constructor; [|apply IH; intros z Hz; apply HI; now right].
  assert (Hx : In x xs) by (apply HI; now left). pose proof (HF x Hx) as Ox. pose proof (wl_s2_pos _ Ox) as U. destruct Ox as [_ OF].
  assert (D : forall z, In z xs -> towards (sum z - sum x) 0 (xdelta beta x z)).
  { intros z Hz. pose proof (wl_s2_pos _ (HF z Hz)) as V. assert (C : 0 < wlc beta (wl_s2 (fst x)) (wl_s2 (fst z))) by (apply wlc_pos; lra). pose proof (Rinv_0_lt_compat _ C) as I0.
    unfold xdelta, wls_delta. cbv zeta. set (c := wlc beta (wl_s2 (fst x)) (wl_s2 (fst z))) in *. rewrite (HR x z Hx Hz). unfold rank_score. rewrite N.compare_refl.
    apply (tw_lg (wl_s2 (fst x) / c) (/ c)); [apply Rdiv_lt_0_compat; auto|auto|]. rewrite wlp_lg' by auto. unfold wl_theta, sum. ring. }
  assert (Dx : xdelta beta x x = 0) by (apply (D x Hx); unfold sum; ring).
  assert (P : forall (Q : R -> R -> Prop) Om, (forall p, In p (fst x) -> Q (fst p) (fst p + snd p ^ 2 / wl_s2 (fst x) * Om)) -> forall De,
    Forall2 (fun p p' : R * R => Q (fst p) (fst p')) (fst x) (map (wl_player kappa (wl_s2 (fst x)) Om De) (fst x))).
  { intros Q Om H De. assert (GG : forall m, incl m (fst x) -> Forall2 (fun p p' : R * R => Q (fst p) (fst p')) m (map (wl_player kappa (wl_s2 (fst x)) Om De) m)); [|apply GG, incl_refl].
    induction m as [|p m IHm]; intros Hm; [constructor|]. cbn [map]. constructor; [|apply IHm; intros q Hq; apply Hm; now right]. unfold wl_player. cbn [fst]. apply H, Hm. now left. }
  rewrite Forall_forall in OF. assert (K : forall p, In p (fst x) -> 0 < snd p ^ 2 / wl_s2 (fst x)) by (intros p Hp; apply Rdiv_lt_0_compat; [apply pow_lt, OF, Hp|auto]).
  unfold wl_outx. rewrite Dx, Rminus_0_r. set (S := Rsum (map (xdelta beta x) xs)).
  repeat split.
  - intros A (z & Z1 & Z2). assert (N : S < 0).
    { apply Rsum_nonpos_lt; [|exists (xdelta beta x z); split; [now apply in_map|apply (D z Z1); lra]]. apply Forall_map, Forall_forall. intros y Hy. destruct (D y Hy) as (_ & D2 & D3). destruct (A y Hy) as [B|B]; [apply Rlt_le, D2; lra|rewrite D3; lra]. }
    apply (P (fun a b => b < a)). intros p Hp. pose proof (K p Hp). nra.
  - intros A (z & Z1 & Z2). assert (N : 0 < S).
    { assert (M : Rsum (map Ropp (map (xdelta beta x) xs)) < 0); [|rewrite Rsum_opp in M; unfold S; lra]. rewrite map_map.
      apply Rsum_nonpos_lt; [|exists (- xdelta beta x z); split; [now apply (in_map (fun y => - xdelta beta x y))|destruct (D z Z1) as (D1 & _); specialize (D1 ltac:(lra)); lra]]. apply Forall_map, Forall_forall. intros y Hy. destruct (D y Hy) as (D1 & _ & D3). destruct (A y Hy) as [B|B]; [specialize (D1 ltac:(lra)); lra|rewrite D3; lra]. }
    apply (P (fun a b => a < b)). intros p Hp. pose proof (K p Hp). nra.
  - intros A. assert (N : S = 0).
    { unfold S. rewrite (map_ext_in _ (fun _ => 0)) by (intros y Hy; apply (D y Hy); rewrite (A y Hy); ring). clear. induction xs as [|a l IH]; cbn [map]; rewrite ?Rsum_nil, ?Rsum_cons; [reflexivity|rewrite IH; ring]. }
    apply (P (fun a b => b = a)). intros p Hp. rewrite N. ring.
Qed.
