(** Proofs of C129: how far one game or one rating period can move a rating. *)
From Coq Require Import ZArith NArith List Bool Reals Lra Lia.
From Flocq Require Import Core.
From Verif Require Import Arith XR Tac ModelLib ModelElo ModelFifa ModelIngo ModelUscf ModelEgf ModelDwz ModelGlicko ModelSticko ModelBoost ModelGlicko2 ModelWengLin ModelTS
  Spec SpecTS SpecTSN SpecInTS ProofElo ProofFifa ProofIngo ProofUscf ProofEgf ProofEgf2 ProofDwz ProofGlicko ProofSticko ProofBoost ProofGlicko2 ProofG2Vol ProofWengLin ProofInfo ProofOrder ProofTS MathTSNorm MathTSNorm2 MathIval MathTS.
Import Spec ListNotations.
Local Open Scope R_scope.

(** A sum of scores minus expectations. *)
Lemma Rsum_diff {X} (f g : X -> R) l : (forall x, In x l -> -1 < f x - g x < 1) -> l <> [] ->
  Rabs (Rsum (map f l) - Rsum (map g l)) < INR (length l).
Proof.
  intros H Hne. apply Rabs_def1.
  - induction l as [|x l IH]; [congruence|]. cbn [map length]. rewrite !Rsum_cons, S_INR. specialize (H x (or_introl eq_refl)) as Hx.
    destruct l as [|y l]; [cbn; lra|]. specialize (IH (fun z h => H z (or_intror h)) ltac:(discriminate)). lra.
  - induction l as [|x l IH]; [congruence|]. cbn [map length]. rewrite !Rsum_cons, S_INR. specialize (H x (or_introl eq_refl)) as Hx.
    destruct l as [|y l]; [cbn; lra|]. specialize (IH (fun z h => H z (or_intror h)) ltac:(discriminate)). lra.
Qed.
Lemma points_E o e : 0 < e < 1 -> -1 < points o - e < 1.
Proof. destruct o; cbn [points]; lra. Qed.
Lemma gM_bound r games b : 0 <= b -> games <> [] -> List.Forall (fun '(_, _, s) => - b <= s <= 1 + b) games -> Rabs (gM r games) < (1 + b) * INR (length games).
Proof.
  intros Hb Hne H. assert (Q : Rabs (gM r games) < (1 + b) * INR (length games) /\ True); [|tauto]. split; auto.
  induction H as [|[[m p] s] l H Hl IH]; [congruence|]. change (length ((m, p, s) :: l)) with (S (length l)). rewrite S_INR.
  change (gM r ((m, p, s) :: l)) with (gg p * (s - gE r m p) + gM r l).
  eapply Rle_lt_trans; [apply Rabs_triang|]. assert (Rabs (gg p * (s - gE r m p)) < 1 + b).
  { pose proof (gg_range p). pose proof (gE_range r m p). apply Rabs_def1; nra. }
  destruct l as [|y l]; [unfold gM at 1; cbn; rewrite Rabs_R0; lra|]. specialize (IH ltac:(discriminate)). lra.
Qed.
Lemma glicko_r_bound r RD games b : 0 < RD -> 0 <= b -> games <> [] -> List.Forall (fun '(_, _, s) => - b <= s <= 1 + b) games ->
  Rabs (glicko_r r RD games - r) < gq * RD ^ 2 * (1 + b) * INR (length games).
Proof.
  intros H Hb Hne Hs. pose proof (gM_bound r games b Hb Hne Hs) as B. unfold glicko_r. replace (r + gq / (/ RD ^ 2 + gd2inv r games) * gM r games - r) with (gq / (/ RD ^ 2 + gd2inv r games) * gM r games) by ring.
  pose proof gq_pos. pose proof (gd2inv_nonneg r games). assert (P : 0 < RD ^ 2) by (apply pow_lt; auto). assert (I := Rinv_0_lt_compat _ P).
  assert (K : 0 < gq / (/ RD ^ 2 + gd2inv r games) <= gq * RD ^ 2).
  { split; [pos|]. unfold Rdiv. apply Rmult_le_compat_l; [lra|]. rewrite <- (Rinv_inv (RD ^ 2)) at 2. apply Rinv_le_contravar; lra. }
  rewrite Rabs_mult, (Rabs_right (gq / _)) by lra. pose proof (Rabs_pos (gM r games)). set (k := gq / (/ RD ^ 2 + gd2inv r games)) in *.
  rewrite Rmult_assoc. apply Rle_lt_trans with (gq * RD ^ 2 * Rabs (gM r games)); [apply Rmult_le_compat_r; lra|]. apply Rmult_lt_compat_l; [nra|auto].
Qed.
Lemma gpre_sq RD c : gpre RD c ^ 2 = Rmin (RD ^ 2 + c ^ 2) (350 ^ 2).
Proof.
  unfold gpre. pose proof (pow2_ge_0 RD). pose proof (pow2_ge_0 c). pose proof (sqrt_pos (RD ^ 2 + c ^ 2)). assert (Q : sqrt (RD ^ 2 + c ^ 2) ^ 2 = RD ^ 2 + c ^ 2) by (apply pow2_sqrt; lra).
  destruct (Rle_lt_dec (sqrt (RD ^ 2 + c ^ 2)) 350).
  - rewrite (Rmin_left _ 350), Q by auto. rewrite Rmin_left; auto. rewrite <- Q. apply pow_incr; auto.
  - rewrite (Rmin_right _ 350) by lra. rewrite Rmin_right; auto. rewrite <- Q. apply pow_incr; lra.
Qed.
Lemma C129_glicko_proof : forall r RD c rs, 0 < RD -> rs <> [] ->
  exists r' d', glicko_rating_period (mkGlicko (Fin r) (Fin RD))
    (map (fun '(rj, RDj, o) => (mkGlicko (Fin rj) (Fin RDj), o)) rs) (mkGlickoConfig (Fin c)) = mkGlicko (Fin r') (Fin d') /\
  Rabs (r' - r) < gq * Rmin (RD ^ 2 + c ^ 2) (350 ^ 2) * INR (length rs).
Proof.
  intros r RD c rs H Hne. rewrite C29_formula_proof by auto. cbv zeta. do 2 eexists. split; [reflexivity|].
  set (g := map _ rs). rewrite <- gpre_sq. replace (length rs) with (length g) by apply map_length.
  replace (gq * gpre RD c ^ 2 * INR (length g)) with (gq * gpre RD c ^ 2 * (1 + 0) * INR (length g)) by ring. apply glicko_r_bound; try lra.
  - apply gpre_pos; auto.
  - unfold g. destruct rs; [congruence|discriminate].
  - unfold g. clear. induction rs as [|[[a b] o] rs IH]; constructor; auto. destruct o; cbn [points]; lra.
Qed.
Lemma C129_boost_proof : forall r RD c rs, 0 < RD -> 0 <= bc_b0 c -> 0 <= bc_b1 c -> rs <> [] ->
  let cfg := mkBoostConfig (Fin (bc_eta c)) (Fin (bc_k c)) (Fin (bc_b0 c)) (Fin (bc_b1 c))
    (Fin (bc_a0 c)) (Fin (bc_a1 c)) (Fin (bc_a2 c)) (Fin (bc_a3 c)) (Fin (bc_a4 c)) in
  exists r' d', glicko_boost_rating_period (mkBoost (Fin r) (Fin RD))
    (map (fun '(rj, RDj, o, white) => (mkBoost (Fin rj) (Fin RDj), o, white)) rs) cfg = mkBoost (Fin r') (Fin d') /\
  Rabs (r' - r) < gq * 350 ^ 2 * INR (length rs).
Proof.
  intros r RD c rs H Hb0 Hb1 Hne cfg. unfold cfg. rewrite C35_period_proof by auto. do 2 eexists. split; [reflexivity|].
  set (g := map _ rs). replace (length rs) with (length g) by apply map_length.
  assert (G : g <> []) by (unfold g; destruct rs; [congruence|discriminate]).
  assert (B : Rabs (gM r g) < (1 + 0) * INR (length g)).
  { apply gM_bound; [lra|auto|]. unfold g. clear. induction rs as [|[[[a b] o] w] rs IH]; constructor; auto. destruct o; cbn [points]; lra. }
  unfold boost_r. pose proof (boost_rd_pos c r RD g H Hb0 Hb1) as P. set (d := boost_rd c r RD g) in *. pose proof gq_pos.
  replace (r + gq * d ^ 2 * gM r g - r) with (gq * d ^ 2 * gM r g) by ring. assert (D : 0 < d ^ 2 <= 350 ^ 2) by (split; [apply pow_lt; lra|apply pow_incr; lra]).
  rewrite Rabs_mult, (Rabs_right (gq * d ^ 2)) by (apply Rle_ge, Rlt_le, Rmult_lt_0_compat; lra). pose proof (Rabs_pos (gM r g)).
  apply Rle_lt_trans with (gq * 350 ^ 2 * Rabs (gM r g)); [apply Rmult_le_compat_r; [lra|]; apply Rmult_le_compat_l; lra|]. apply Rmult_lt_compat_l; [nra|lra].
Qed.
(** Sticko without the pull towards the opponents. *)
Lemma C129_sticko_proof : forall r RD h beta gamma c rs, 0 < RD -> 0 <= h -> rs <> [] ->
  exists r' d', sticko_rating_period (mkSticko (Fin r) (Fin RD))
    (map (fun '(rj, RDj, o, white) => (mkSticko (Fin rj) (Fin RDj), o, white)) rs)
    (mkStickoConfig (Fin h) (Fin beta) (Fin 0) (Fin gamma) (Fin c)) = mkSticko (Fin r') (Fin d') /\
  Rabs (r' - r) < gq * Rmin (RD ^ 2 + c ^ 2) (350 ^ 2) * (1 + Rabs beta) * INR (length rs).
Proof.
  intros r RD h beta gamma c rs H Hh Hne. rewrite C33_period_proof by auto. do 2 eexists. split; [reflexivity|].
  unfold sticko_r. replace (0 / 100) with 0 by field. rewrite Rmult_0_l, Rplus_0_r. set (g := map _ rs). rewrite <- gpre_sq. replace (length rs) with (length g) by apply map_length.
  apply glicko_r_bound.
  - apply gpre_pos; auto.
  - apply Rabs_pos.
  - unfold g. destruct rs; [congruence|discriminate].
  - unfold g. clear. assert (A : - Rabs beta <= beta <= Rabs beta) by (split; [|apply Rle_abs]; pose proof (Rle_abs (- beta)); rewrite Rabs_Ropp in *; lra).
    induction rs as [|[[[a b] o] w] rs IH]; constructor; auto. destruct o; cbn [st_game points]; lra.
Qed.
(** With the pull (2 in the default configuration) no bound holds: even losing gains any number of points. *)
Lemma C129_sticko_refuted_proof : forall r RD RD2 h beta lambda gamma c B, 0 < RD -> 0 < RD2 -> 0 <= h -> 0 < lambda ->
  exists r2 r' d', fst (sticko (mkSticko (Fin r) (Fin RD)) (mkSticko (Fin r2) (Fin RD2)) LOSS
    (mkStickoConfig (Fin h) (Fin beta) (Fin lambda) (Fin gamma) (Fin c))) = mkSticko (Fin r') (Fin d') /\ r + B < r'.
Proof.
  intros r RD RD2 h beta lambda gamma c B H H2 Hh Hl. set (k := gq * gpre RD c ^ 2 * (1 + Rabs beta) * 1).
  exists (r + (Rabs B + k + 1) * 100 / lambda). rewrite C33_game_proof by auto. cbn [fst]. do 2 eexists. split; [reflexivity|]. unfold sticko_r, mean. cbn [map length].
  set (r2 := r + (Rabs B + k + 1) * 100 / lambda). change (Rsum [r2]) with (r2 + 0). rewrite Rplus_0_r. change (INR 1) with 1. unfold Rdiv at 2. rewrite Rinv_1, Rmult_1_r.
  pose proof (glicko_r_bound r (gpre RD c) [st_game gamma beta (r2, RD2, LOSS, true)] (Rabs beta) (gpre_pos RD c H) (Rabs_pos beta) ltac:(discriminate)) as L.
  assert (F : List.Forall (fun '(_, _, s) => - Rabs beta <= s <= 1 + Rabs beta) [st_game gamma beta (r2, RD2, LOSS, true)]).
  { constructor; auto. cbn [st_game points]. pose proof (Rle_abs beta). pose proof (Rle_abs (- beta)). rewrite Rabs_Ropp in *. lra. }
  specialize (L F). change (INR (length [st_game gamma beta (r2, RD2, LOSS, true)])) with 1 in L. fold k in L. apply Rabs_def2 in L.
  replace (lambda / 100 * (r2 - r)) with (Rabs B + k + 1) by (unfold r2; field; lra). pose proof (Rle_abs B). lra.
Qed.
Lemma C129_glicko2_proof : forall fuel r RD s t tol rs p, 0 < s -> 0 < t -> 0 <= tol -> rs <> [] ->
  glicko2_rating_period fuel (mkGlicko2 (Fin r) (Fin RD) (Fin s))
    (map (fun '(rj, RDj, sj, o) => (mkGlicko2 (Fin rj) (Fin RDj) (Fin sj), o)) rs) (mkGlicko2Config (Fin t) (Fin tol)) = Some p ->
  exists r' s', g2_rating p = Fin r' /\ g2_volatility p = Fin s' /\ 0 < s' /\
    Rabs (r' - r) <= (RD ^ 2 / 173.7178 + 173.7178 * s' ^ 2) * INR (length rs).
Proof.
  intros fuel r RD s t tol rs p Hs Ht Htol Hne E. destruct (C39_period_proof fuel r RD s t tol rs p Hs Ht Htol Hne E) as (s' & -> & [Hs' _] & _).
  do 2 eexists. split; [reflexivity|]. split; [reflexivity|]. split; [auto|]. set (g := map _ rs). replace (length rs) with (length g) by apply map_length.
  assert (G : g <> []) by (unfold g; destruct rs; [congruence|discriminate]).
  assert (U : unit_scores g) by (unfold g; clear; induction rs as [|[[[a b] d] o] rs IH]; constructor; auto; destruct o; cbn [points]; lra).
  eapply Rle_trans; [apply g2_new_r_bound; auto|]. apply Req_le. f_equal. replace 173.7178 with (1737178 / 10000) by lra. unfold g2phi, g2s. field.
Qed.
Lemma C129_wl_proof : forall m1 s1 m2 s2 o beta kappa, 0 < s1 -> 0 < s2 -> 0 < kappa <= 1 -> exists m1' s1',
  fst (weng_lin (mkWL (Fin m1) (Fin s1)) (mkWL (Fin m2) (Fin s2)) o (mkWLConfig (Fin beta) (Fin kappa))) = mkWL (Fin m1') (Fin s1') /\
  Rabs (m1' - m1) < s1 ^ 2 / sqrt (s1 ^ 2 + 2 * beta ^ 2) <= s1.
Proof.
  intros m1 s1 m2 s2 o beta kappa H1 H2 Hk. destruct (C42_proof m1 s1 m2 s2 o beta kappa H1 H2 Hk) as (m1' & s1' & m2' & s2' & -> & Em & _).
  exists m1', s1'. split; [reflexivity|]. assert (P1 : 0 < s1 ^ 2) by (apply pow_lt; auto). assert (P2 : 0 < s2 ^ 2) by (apply pow_lt; auto). pose proof (pow2_ge_0 beta).
  set (c := sqrt (s1 ^ 2 + s2 ^ 2 + 2 * beta ^ 2)) in *. set (d := sqrt (s1 ^ 2 + 2 * beta ^ 2)).
  assert (C : 0 < d < c) by (split; [apply sqrt_lt_R0; lra|apply sqrt_lt_1_alt; lra]). assert (S : s1 <= d) by (rewrite <- (sqrt_pow2 s1) by lra; apply sqrt_le_1_alt; lra).
  split.
  - replace (m1' - m1) with (s1 ^ 2 / c * (points o - wlp m1 m2 c)) by (rewrite Em; unfold wlp; ring). rewrite Rabs_mult, (Rabs_right (s1 ^ 2 / c)) by (left; pos).
    assert (A : Rabs (points o - wlp m1 m2 c) < 1) by (apply Rabs_def1; pose proof (points_E o _ (wlp_range m1 m2 c)); lra).
    apply Rlt_trans with (s1 ^ 2 / c * 1); [apply Rmult_lt_compat_l; [pos|auto]|]. rewrite Rmult_1_r. unfold Rdiv. apply Rmult_lt_compat_l; auto. apply Rinv_lt_contravar; nra.
  - apply Rmult_le_reg_r with d; [lra|]. unfold Rdiv. rewrite Rmult_assoc, Rinv_l by lra. nra.
Qed.
(** TrueSkill: the move grows with the surprise, without limit. *)
Lemma vwin_bounds t e : t - e <= 0 -> 0.99 * (e - t) <= vwin t e <= 1.002 * (1 + (e - t)).
Proof.
  intros H. pose proof (vwin_near t e) as V. unfold within in V. rewrite vwinN_hz in V. pose proof (hz_pos (e - t)) as P. rewrite (Rabs_right (hz (e - t))) in V by lra.
  assert (V' : Rabs (vwin t e - hz (e - t)) <= 0.0015 * hz (e - t)). { eapply Rle_trans; [exact V|]. apply Rmult_le_compat_r; [lra|]. destruct (Rle_dec (-26) (t - e)); lra. }
  pose proof (hz_up1 (e - t) ltac:(lra)). assert (L : e - t <= hz (e - t)) by (destruct (Req_dec (e - t) 0) as [->|]; [pose proof (hz_pos 0); lra|apply hz_low; lra]).
  apply Rabs_le_inv in V'. lra.
Qed.
Lemma vwin_le t e : vwin t e <= 1.002 * (1 + Rabs (e - t)).
Proof.
  destruct (Rle_lt_dec (t - e) 0) as [H|H]; [rewrite Rabs_right by lra; apply vwin_bounds; auto|].
  pose proof (vwin_near t e) as V. unfold within in V. rewrite vwinN_hz in V. pose proof (hz_pos (e - t)) as P. rewrite (Rabs_right (hz (e - t))) in V by lra.
  pose proof (hz_neg (e - t) ltac:(lra)). pose proof (Rabs_pos (e - t)). destruct (Rle_dec (-26) (t - e)); apply Rabs_le_inv in V; lra.
Qed.
Lemma C129_ts_proof : forall m1 s1 m2 s2 o dp beta tau, 0 < s1 -> 0 < s2 -> o <> DRAW ->
  let c := sqrt (2 * beta ^ 2 + s1 ^ 2 + s2 ^ 2) in
  exists e m1', ts_draw_margin (Fin dp) (Fin beta) (Fin 2) = Fin e /\
  ts_rating (fst (trueskill (ts_in (m1, s1)) (ts_in (m2, s2)) o (ts_cfg dp beta tau))) = Fin m1' /\
  Rabs (m1' - m1) <= 1.002 * (s1 ^ 2 + tau ^ 2) / c * (1 + (Rabs e + Rabs (m1 - m2)) / c).
Proof.
  intros m1 s1 m2 s2 o dp beta tau H1 H2 Ho c. destruct (C50_proof m1 s1 m2 s2 o dp beta tau H1 H2) as (e & m1' & m2' & He & Em & _ & -> & _).
  fold c in Em. exists e, m1'. split; [auto|]. split; [reflexivity|]. assert (P1 : 0 < s1 ^ 2) by (apply pow_lt; auto). assert (P2 : 0 < s2 ^ 2) by (apply pow_lt; auto). pose proof (pow2_ge_0 beta). pose proof (pow2_ge_0 tau).
  assert (C : 0 < c) by (apply sqrt_lt_R0; lra). set (t := (m1 - m2) / c) in *. replace (m1' - m1) with ((s1 ^ 2 + tau ^ 2) / c * ts_v o t (e / c)) by (rewrite Em; ring).
  assert (K : 0 < (s1 ^ 2 + tau ^ 2) / c) by pos. rewrite Rabs_mult, (Rabs_right (_ / c)) by lra.
  assert (T : Rabs (ts_v o t (e / c)) <= 1.002 * (1 + (Rabs e + Rabs (m1 - m2)) / c)).
  { assert (A : forall u, Rabs (e / c - u) <= (Rabs e + Rabs (c * u)) / c).
    { intros u. replace (e / c - u) with ((e - c * u) / c) by (field; lra). unfold Rdiv. rewrite Rabs_mult, (Rabs_right (/ c)) by (left; pos). apply Rmult_le_compat_r; [left; pos|].
      pose proof (Rabs_triang e (- (c * u))) as R1. rewrite Rabs_Ropp in R1. replace (e - c * u) with (e + - (c * u)) by ring. auto. }
    assert (M : forall u, u = t \/ u = - t -> Rabs (vwin u (e / c)) <= 1.002 * (1 + (Rabs e + Rabs (m1 - m2)) / c)).
    { intros u Hu. pose proof (vwin_pos u (e / c)). rewrite Rabs_right by lra. eapply Rle_trans; [apply vwin_le|]. specialize (A u).
      replace (Rabs (c * u)) with (Rabs (m1 - m2)) in A; [lra|]. destruct Hu as [->| ->]; [|rewrite Ropp_mult_distr_r_reverse, Rabs_Ropp]; f_equal; unfold t; field; lra. }
    destruct o; cbn [ts_v]; [apply M; auto|rewrite Rabs_Ropp; apply M; auto|congruence]. }
  replace (1.002 * (s1 ^ 2 + tau ^ 2) / c * (1 + (Rabs e + Rabs (m1 - m2)) / c)) with ((s1 ^ 2 + tau ^ 2) / c * (1.002 * (1 + (Rabs e + Rabs (m1 - m2)) / c))) by (field; lra).
  apply Rmult_le_compat_l; lra.
Qed.
Lemma C129_ts_refuted_proof : forall m1 s1 s2 dp beta tau B, 0 < s1 -> 0 < s2 -> exists m2 m1',
  ts_rating (fst (trueskill (ts_in (m1, s1)) (ts_in (m2, s2)) WIN (ts_cfg dp beta tau))) = Fin m1' /\ m1 + B < m1'.
Proof.
  intros m1 s1 s2 dp beta tau B H1 H2. destruct (C50_proof m1 s1 0 s2 WIN dp beta tau H1 H2) as (e & _ & _ & He & _).
  assert (P1 : 0 < s1 ^ 2) by (apply pow_lt; auto). assert (P2 : 0 < s2 ^ 2) by (apply pow_lt; auto). pose proof (pow2_ge_0 beta). pose proof (pow2_ge_0 tau).
  set (c := sqrt (2 * beta ^ 2 + s1 ^ 2 + s2 ^ 2)). assert (C : 0 < c) by (apply sqrt_lt_R0; lra). set (V := (s1 ^ 2 + tau ^ 2) / c). assert (K : 0 < V) by (unfold V; pos).
  set (x := 2 * (Rabs B + 1) / V). assert (X : 0 < x) by (pose proof (Rabs_pos B); unfold x; apply Rdiv_lt_0_compat; lra).
  exists (m1 - e + c * x). destruct (C50_proof m1 s1 (m1 - e + c * x) s2 WIN dp beta tau H1 H2) as (e' & m1' & m2' & He' & Em & _ & E & _). rewrite He in He'. injection He' as <-.
  fold c V in Em. exists m1'. split; [rewrite E; reflexivity|]. cbn [ts_v] in Em.
  replace ((m1 - (m1 - e + c * x)) / c) with (e / c - x) in Em by (field; lra). pose proof (proj1 (vwin_bounds (e / c - x) (e / c) ltac:(lra))) as L.
  replace (e / c - (e / c - x)) with x in L by ring. assert (Q : V * x = 2 * (Rabs B + 1)) by (unfold x; field; lra). pose proof (Rle_abs B). rewrite Em.
  assert (V * (0.99 * x) <= V * vwin (e / c - x) (e / c)) by (apply Rmult_le_compat_l; lra). pose proof (Rabs_pos B). nra.
Qed.
(** EGF: at most the con coefficient plus the bonus per game, both depending on the own rating only. *)
Lemma egf_upd_bound r S E : -900 <= r -> 0 <= S <= 1 -> 0 < E < 1 -> Rabs (egf_upd r S E - r) < egf_C r + egf_bon r.
Proof.
  intros Hr HS HE. unfold egf_upd. pose proof (egf_C_pos r). pose proof (egf_bon_pos r). apply Rabs_def1; unfold Rmax; destruct (Rle_dec (-900) (r + egf_C r * (S - E) + egf_bon r)); nra.
Qed.
Lemma C129_egf_proof : forall r rs, -900 <= r < 3300 -> rs <> [] ->
  (forall opp o H, In (opp, o, H) rs -> egf_adj (egf_h1 H) r < 3300 /\ egf_adj (egf_h2 H) opp < 3300) ->
  exists r', egf_rating_period (mkEgf (Fin r)) (map (fun g => let '(opp, o, H) := g in (mkEgf (Fin opp), o, mkEgfConfig (Fin H))) rs) = mkEgf (Fin r') /\
  Rabs (r' - r) < (Rpower ((3300 - r) / 200) 1.6 + ln (1 + exp ((2300 - r) / 80)) / 5) * INR (length rs).
Proof.
  intros r rs Hr Hne H. rewrite C73_proof by (auto; lra). eexists. split; [reflexivity|]. fold (egf_C r) (egf_bon r).
  match goal with |- Rabs (r + ?x - r) < _ => replace (r + x - r) with x by ring end. clear H.
  induction rs as [|[[opp o] h] rs IH]; [congruence|]. cbn [map length]. rewrite Rsum_cons, S_INR. eapply Rle_lt_trans; [apply Rabs_triang|].
  pose proof (egf_upd_bound r (points o) (egf_E (egf_adj (egf_h1 h) r) (egf_adj (egf_h2 h) opp)) ltac:(lra) ltac:(destruct o; cbn [points]; lra) (egf_E_range _ _)) as B.
  destruct rs as [|y rs]; [cbn [map length]; rewrite Rsum_nil, Rabs_R0; cbn [INR]; lra|]. specialize (IH ltac:(discriminate)). lra.
Qed.
Lemma C129_dwz_proof : forall r i a rs, (1 <= i)%N -> rs <> [] ->
  exists r', dwz_rating (dwz_rating_period (mkDwz (Fin r) i a) (map (fun g => let '(x, j, b, o) := g in (mkDwz (Fin x) j b, o)) rs)) = Fin r' /\
  Rabs (r' - r) < 800 * INR (length rs) / (INR (length rs) + 5).
Proof.
  intros r i a rs Hi Hne. rewrite C22_formula_proof by auto. cbn [dwz_rating]. eexists. split; [reflexivity|]. unfold dwz_upd.
  set (S := Rsum (map (fun g => points (snd g)) rs)). set (We := Rsum (map _ rs)). set (E := dwz_E _ _ _ _ _). set (n := INR (length rs)).
  assert (N : 1 <= n) by (unfold n; apply (le_INR 1); destruct rs; [congruence|cbn; lia]).
  assert (D : Rabs (S - We) < n). { apply Rsum_diff; auto. intros x _. apply points_E, elo_E_range. }
  assert (HE : 5 <= E) by (unfold E, dwz_E; apply Rmax_l). match goal with |- Rabs ?x < _ => replace x with (800 / (E + n) * (S - We)) by ring end.
  rewrite Rabs_mult, (Rabs_right (800 / _)) by (left; apply Rdiv_lt_0_compat; lra).
  apply Rlt_le_trans with (800 / (E + n) * n); [apply Rmult_lt_compat_l; [apply Rdiv_lt_0_compat; lra|auto]|].
  replace (800 / (E + n) * n) with (800 * n * / (E + n)) by (field; lra). unfold Rdiv. apply Rmult_le_compat_l; [lra|]. apply Rinv_le_contravar; lra.
Qed.
(** USCF, established players: one factor K per game for one or two games, at most twice that with the bonus. *)
Lemma C129_uscf_proof : forall r n rs t, (8 < n)%N -> (n + N.of_nat (length rs) < 2 ^ 64)%N -> rs <> [] -> 0 <= t ->
  exists r' n', uscf_rating_period (mkUscf (Fin r) n) (map (fun g => (mkUscf (Fin (fst (fst g))) (snd (fst g)), snd g)) rs) (mkUscfConfig (Fin t)) = mkUscf (Fin r') n' /\
  let m := INR (length rs) in let K := 800 / (uscf_Ne r (IZR (Z.of_N n)) + m) in
  - (K * m) < r' - r < 2 * K * m /\ ((length rs < 3)%nat -> r' - r < K * m).
Proof.
  intros r n rs t Hn Hlt Hne Ht. rewrite C10_period_proof by auto. replace (n <=? 8)%N with false by (symmetry; apply N.leb_gt; lia). do 2 eexists. split; [reflexivity|].
  cbv zeta. fold (uscf_K r (IZR (Z.of_N n)) (INR (length rs))). unfold uscf_upd. set (S := Rsum (map (fun g => points (snd g)) rs)). set (We := Rsum (map _ rs)). set (m := INR (length rs)).
  assert (N : 1 <= m) by (unfold m; apply (le_INR 1); destruct rs; [congruence|cbn; lia]).
  assert (D : Rabs (S - We) < m). { apply Rsum_diff; auto. intros x _. apply points_E, elo_E_range. }
  assert (P : 0 < uscf_Ne r (IZR (Z.of_N n))) by (apply Ne_pos, IZR_lt; lia). assert (K0 : 0 < uscf_K r (IZR (Z.of_N n)) m) by (unfold uscf_K; apply Rdiv_lt_0_compat; lra).
  set (K := uscf_K r (IZR (Z.of_N n)) m) in *. apply Rabs_def2 in D. assert (A : - (K * m) < K * (S - We) < K * m) by nra.
  unfold uscf_bonus. destruct (Nat.ltb_spec (length rs) 3) as [L|L]; [split; intros; nra|].
  assert (T : 0 <= t * sqrt (INR (Nat.min (length rs) 4))) by (apply Rmult_le_pos; [auto|apply sqrt_pos]).
  split; [|lia]. unfold Rmax. destruct (Rle_dec 0 _); lra.
Qed.
(** USCF, provisional players: no bound. *)
Lemma C129_uscf_refuted_proof : forall r n n2 t B, (n <= 8)%N -> exists r2 r' n',
  fst (uscf (mkUscf (Fin r) n) (mkUscf (Fin r2) n2) LOSS (mkUscfConfig (Fin t))) = mkUscf (Fin r') n' /\ r + B < r'.
Proof.
  intros r n n2 t B Hn. set (x := IZR (Z.of_N n)). assert (X : 0 <= x) by (apply IZR_le; lia). exists (r + 401 + (x + 1) * B). rewrite C10_proof. cbn [fst].
  replace (n <=? 8)%N with true by (symmetry; apply N.leb_le; lia). do 2 eexists. split; [reflexivity|]. fold x. unfold uscf_prov. eapply Rlt_le_trans; [|apply Rmax_r].
  apply Rmult_lt_reg_r with (x + 1); [lra|]. unfold Rdiv. rewrite Rmult_assoc, Rinv_l by lra. lra.
Qed.
(** Ingo (lower is better): no bound either. *)
Lemma C129_ingo_refuted_proof : forall r a a2 B o, exists r2 r', ingo_rating (fst (ingo (mkIngo (Fin r) a) (mkIngo (Fin r2) a2) o)) = Fin r' /\ r' < r - B.
Proof.
  intros r a a2 B o. set (D := ingo_D a). assert (P : 0 < 1 + D) by (unfold D, ingo_D; destruct (a <=? 20)%N, (a <=? 25)%N; lra).
  exists (r - 51 - (1 + D) * B). rewrite (proj1 (C23_proof _ _ _ _ _)). cbn [fst ingo_rating]. eexists. split; [reflexivity|]. fold D. unfold ingo_upd, ingo_perf.
  apply Rmult_lt_reg_r with (1 + D); [lra|]. unfold Rdiv. rewrite Rmult_assoc, Rinv_l by lra. destruct o; cbn [points]; lra.
Qed.
(** FIFA: less than the importance per match, whatever the flags. *)
Lemma C129_fifa_proof : forall r rs, rs <> [] -> List.Forall (fun '(_, _, imp, _, _) => 0 < imp) rs -> exists r',
  fifa_rating_period (mkFifa (Fin r)) (map (fun '(x, o, imp, ko, pen) => (mkFifa (Fin x), o, mkFifaConfig (Fin imp) ko pen)) rs) = mkFifa (Fin r') /\
  Rabs (r' - r) < Rsum (map (fun '(_, _, imp, _, _) => imp) rs).
Proof.
  intros r rs Hne H. rewrite (proj1 (C70_proof _ _ _ _)). revert r. induction H as [|[[[[x o] imp] ko] pen] l H Hl IH]; [congruence|]. intros r. cbn [map fold_left fst snd].
  rewrite Rsum_cons. rewrite fifa_eval. cbn [fst].
  set (r1 := ko_max ko r (fifa_upd imp r x (code_W1 pen o))).
  assert (B : Rabs (r1 - r) < imp).
  { unfold r1, ko_max, fifa_upd. pose proof (fifa_We_range r x). assert (W : 0 <= code_W1 pen o <= 1) by (destruct pen, o; cbn; lra). set (u := r + imp * (code_W1 pen o - fifa_We r x)).
    assert (U : - imp < u - r < imp) by (unfold u; nra). destruct ko; [|apply Rabs_def1; lra]. unfold Rmax. destruct (Rle_dec _ _); apply Rabs_def1; lra. }
  destruct l as [|g l]; [cbn [map fold_left]; exists r1; split; [reflexivity|]; rewrite Rsum_nil; lra|].
  destruct (IH ltac:(discriminate) r1) as (r' & E & B'). exists r'. split; [exact E|].
  replace (r' - r) with ((r1 - r) + (r' - r1)) by ring. eapply Rle_lt_trans; [apply Rabs_triang|]. lra.
Qed.
(** Sticko's default configuration turns results around when the gap is large. *)
Lemma gg_350 RD : 0 < RD <= 350 -> 0.65 <= gg RD.
Proof.
  intros H. unfold gg. pose proof (gg_arg_ge1 RD) as G. assert (Q : 1 + 3 * gq ^ 2 * RD ^ 2 / PI ^ 2 <= (/ 0.65) ^ 2).
  { pose proof gq_350. pose proof PI_bounds. pose proof (pow2_ge_0 gq). assert (RD ^ 2 <= 350 ^ 2) by (apply pow_incr; lra). assert (gq ^ 2 * RD ^ 2 <= / 0.24) by nra.
    assert (P2 : 9.85 <= PI ^ 2) by nra. assert (3 * gq ^ 2 * RD ^ 2 / PI ^ 2 <= 1.3); [|lra]. apply Rmult_le_reg_r with (PI ^ 2); [lra|]. unfold Rdiv. rewrite Rmult_assoc, Rinv_l by lra. lra. }
  rewrite <- (Rinv_inv 0.65). apply Rinv_le_contravar; [apply sqrt_lt_R0; lra|]. rewrite <- (sqrt_pow2 (/ 0.65)) by lra. apply sqrt_le_1_alt. auto.
Qed.
Lemma pow_13_8 : 40 <= Rpower 10 (13 / 8).
Proof.
  apply Rnot_lt_le. intros h. assert (P : 0 < Rpower 10 (13 / 8)) by apply exp_pos.
  assert (E : Rpower 10 (13 / 8) ^ 8 = 10 ^ 13). { rewrite <- Rpower_pow by auto. rewrite Rpower_mult. replace (13 / 8 * INR 8) with (INR 13) by (cbn [INR]; lra). apply Rpower_pow. lra. }
  assert (Rpower 10 (13 / 8) ^ 8 <= 40 ^ 8) by (apply pow_incr; lra). lra.
Qed.
Lemma gE_gap r r2 RD2 : 0 < RD2 <= 350 -> r + 1000 <= r2 -> gE r r2 RD2 <= / 40.
Proof.
  intros H Hr. unfold gE. pose proof (gg_350 RD2 H) as G. assert (X : 13 / 8 <= - gg RD2 * (r - r2) / 400) by nra. pose proof pow_13_8.
  assert (Rpower 10 (13 / 8) <= Rpower 10 (- gg RD2 * (r - r2) / 400)) by (apply Rle_Rpower; lra). apply Rinv_le_contravar; lra.
Qed.
Lemma st_small r RD rj RDj s : 0 < RD -> 0 < RDj -> Rabs (s - gE r rj RDj) <= / 40 -> Rabs (glicko_r r (gpre RD 10) [(rj, RDj, s)] - r) <= 17.9.
Proof.
  intros H Hj B. unfold glicko_r. rewrite gM_single. set (x := s - gE r rj RDj) in *.
  replace (r + gq / (/ gpre RD 10 ^ 2 + gd2inv r [(rj, RDj, s)]) * (gg RDj * x) - r) with (gq / (/ gpre RD 10 ^ 2 + gd2inv r [(rj, RDj, s)]) * (gg RDj * x)) by ring.
  pose proof (gpre_range RD 10 (or_introl (Rgt_not_eq _ _ H))) as Q. pose proof (gd2inv_nonneg r [(rj, RDj, s)]). pose proof gq_pos.
  assert (P : 0 < gpre RD 10 ^ 2 <= 350 ^ 2) by (split; [apply pow_lt; lra|apply pow_incr; lra]). assert (I := Rinv_0_lt_compat _ (proj1 P)).
  assert (Gq : gq <= 0.0058). { unfold gq. assert (ln 10 <= 2.32); [|lra]. rewrite <- (ln_exp 2.32). apply Rlt_le, ln_increasing; [lra|]. pose proof exp_232 as E. replace (232 / 100) with 2.32 in E by lra. lra. }
  assert (K : 0 < gq / (/ gpre RD 10 ^ 2 + gd2inv r [(rj, RDj, s)]) <= 710.5).
  { split; [pos|]. apply Rle_trans with (gq * gpre RD 10 ^ 2); [|nra]. unfold Rdiv. apply Rmult_le_compat_l; [lra|]. rewrite <- (Rinv_inv (gpre RD 10 ^ 2)) at 2. apply Rinv_le_contravar; lra. }
  set (k := gq / _) in *. pose proof (gg_range RDj). rewrite !Rabs_mult, (Rabs_right k), (Rabs_right (gg RDj)) by lra. pose proof (Rabs_pos x). assert (gg RDj * Rabs x <= / 40) by nra. nra.
Qed.
Lemma C129_sticko_turned_proof : forall r RD r2 RD2, 0 < RD <= 350 -> 0 < RD2 <= 350 -> r + 1000 <= r2 -> exists r' d' r2' d2',
  sticko (mkSticko (Fin r) (Fin RD)) (mkSticko (Fin r2) (Fin RD2)) LOSS sticko_config_new = (mkSticko (Fin r') (Fin d'), mkSticko (Fin r2') (Fin d2')) /\ r + 2 < r' /\ r2' < r2 - 2.
Proof.
  intros r RD r2 RD2 H H2 G. change (sticko_config_new (F := XR)) with (mkStickoConfig (Fin 10) (Fin 0) (Fin 2) (Fin 0) (Fin 10)). rewrite C33_game_proof by lra. do 4 eexists. split; [reflexivity|].
  unfold sticko_r, mean. cbn [map length st_game points invert]. rewrite !Rminus_0_r, !Rplus_0_r, Ropp_0, Rminus_0_r, !Rsum_cons, Rsum_nil. change (INR 1) with 1.
  pose proof (gE_gap r r2 RD2 H2 G) as E1. pose proof (gE_range r r2 RD2). pose proof (gE_gap r r2 RD H G) as E2. pose proof (gE_compl r r2 RD) as C. pose proof (gE_range r r2 RD).
  pose proof (st_small r RD r2 RD2 0 ltac:(lra) ltac:(lra) ltac:(apply Rabs_le; lra)) as A. pose proof (st_small r2 RD2 r RD 1 ltac:(lra) ltac:(lra) ltac:(apply Rabs_le; lra)) as B.
  apply Rabs_le_inv in A, B. split; lra.
Qed.
