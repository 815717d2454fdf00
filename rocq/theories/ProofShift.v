(** Proofs of C110: only differences of ratings matter, and for Weng-Lin and
    TrueSkill only ratios of all the quantities on the rating scale; and of the
    USCF and EGF parts of C109. *)
From Coq Require Import ZArith NArith List Bool Reals Lra Lia Permutation.
From Verif Require Import Arith XR Tac ModelLib ModelElo ModelFifa ModelIngo ModelUscf ModelEgf ModelGlicko ModelSticko ModelGlicko2 ModelWengLin ModelTS
  Spec SpecIn SpecTS SpecInTS MathTS ProofElo ProofFifa ProofIngo ProofUscf ProofEgf ProofEgf2 ProofGlicko ProofSticko ProofGlicko2 ProofWengLin ProofTS.
Import Spec ListNotations.
Local Open Scope R_scope.

(** ** Elo, FIFA *)
Lemma elo_upd_shift k a b s x : elo_upd k (a + x) (b + x) s = elo_upd k a b s + x.
Proof. unfold elo_upd. rewrite elo_E_shift. ring. Qed.
Lemma C110_elo_proof : forall r1 r2 o k rs x, exists a b c,
  let cfg := mkEloConfig (Fin k) in
  elo (mkElo (Fin r1)) (mkElo (Fin r2)) o cfg = (mkElo (Fin a), mkElo (Fin b)) /\
  elo (mkElo (Fin (r1 + x))) (mkElo (Fin (r2 + x))) o cfg = (mkElo (Fin (a + x)), mkElo (Fin (b + x))) /\
  elo_rating_period (mkElo (Fin r1)) (map (fun '(r, o) => (mkElo (Fin r), o)) rs) cfg = mkElo (Fin c) /\
  elo_rating_period (mkElo (Fin (r1 + x))) (map (fun '(r, o) => (mkElo (Fin (r + x)), o)) rs) cfg = mkElo (Fin (c + x)).
Proof.
  intros. cbv zeta.
  assert (P : forall r, exists c, elo_rating_period (mkElo (Fin r)) (map (fun '(r, o) => (mkElo (Fin r), o)) rs) (mkEloConfig (Fin k)) = mkElo (Fin c) /\
    elo_rating_period (mkElo (Fin (r + x))) (map (fun '(r, o) => (mkElo (Fin (r + x)), o)) rs) (mkEloConfig (Fin k)) = mkElo (Fin (c + x))).
  { induction rs as [|[rj oj] rs IH]; intros r; [exists r; split; reflexivity|]. rewrite !elo_period_fold in *. cbn [map fold_left fst snd]. rewrite !elo_eval. cbn [fst]. rewrite elo_upd_shift.
    destruct (IH (elo_upd k r rj (points oj))) as (c & A & B). rewrite elo_period_fold in A, B. eauto. }
  destruct (P r1) as (c & A & B). do 3 eexists. split; [apply elo_eval|]. split; [rewrite elo_eval, !elo_upd_shift; reflexivity|]. eauto.
Qed.
Lemma fifa_We_shift a b x : fifa_We (a + x) (b + x) = fifa_We a b.
Proof. unfold fifa_We. do 4 f_equal. lra. Qed.
Lemma fifa_upd_shift k a b s x : fifa_upd k (a + x) (b + x) s = fifa_upd k a b s + x.
Proof. unfold fifa_upd. rewrite fifa_We_shift. ring. Qed.
Lemma ko_shift ko a b x : ko_max ko (a + x) (b + x) = ko_max ko a b + x.
Proof. destruct ko; cbn; auto. unfold Rmax. destruct (Rle_dec (a + x) (b + x)), (Rle_dec a b); lra. Qed.
Lemma C110_fifa_proof : forall r1 r2 o i ko pen rs x, exists a b c,
  let cfg := mkFifaConfig (Fin i) ko pen in
  fifa (mkFifa (Fin r1)) (mkFifa (Fin r2)) o cfg = (mkFifa (Fin a), mkFifa (Fin b)) /\
  fifa (mkFifa (Fin (r1 + x))) (mkFifa (Fin (r2 + x))) o cfg = (mkFifa (Fin (a + x)), mkFifa (Fin (b + x))) /\
  fifa_rating_period (mkFifa (Fin r1)) (map (fun '(r, o, j, kj, pj) => (mkFifa (Fin r), o, mkFifaConfig (Fin j) kj pj)) rs) = mkFifa (Fin c) /\
  fifa_rating_period (mkFifa (Fin (r1 + x))) (map (fun '(r, o, j, kj, pj) => (mkFifa (Fin (r + x)), o, mkFifaConfig (Fin j) kj pj)) rs) = mkFifa (Fin (c + x)).
Proof.
  intros. cbv zeta.
  assert (P : forall r, exists c, fifa_rating_period (mkFifa (Fin r)) (map (fun '(r, o, j, kj, pj) => (mkFifa (Fin r), o, mkFifaConfig (Fin j) kj pj)) rs) = mkFifa (Fin c) /\
    fifa_rating_period (mkFifa (Fin (r + x))) (map (fun '(r, o, j, kj, pj) => (mkFifa (Fin (r + x)), o, mkFifaConfig (Fin j) kj pj)) rs) = mkFifa (Fin (c + x))).
  { induction rs as [|[[[[rj oj] j] kj] pj] rs IH]; intros r; [exists r; split; reflexivity|]. rewrite !fifa_period_fold in *. cbn [map fold_left fst snd]. rewrite !fifa_eval. cbn [fst]. rewrite fifa_upd_shift, ko_shift.
    destruct (IH (ko_max kj r (fifa_upd j r rj (code_W1 pj oj)))) as (c & A & B). rewrite fifa_period_fold in A, B. eauto. }
  destruct (P r1) as (c & A & B). do 3 eexists. split; [apply fifa_eval|]. split; [rewrite fifa_eval, !fifa_upd_shift, !ko_shift; reflexivity|]. eauto.
Qed.
(** ** Ingo *)
Lemma Rsum_shift {A} (f : A -> R) x l : Rsum (map (fun a => f a + x) l) = Rsum (map f l) + INR (length l) * x.
Proof. induction l as [|a l IH]; [cbn; ring|]. cbn [map]. rewrite !Rsum_cons, IH. cbn [length]. rewrite S_INR. ring. Qed.
Lemma ingo_upd_shift n r D ra s x : n + D <> 0 -> ingo_upd n (r + x) D (ra + x) s = ingo_upd n r D ra s + x.
Proof. intros. unfold ingo_upd, ingo_perf. field. auto. Qed.
Lemma ingo_D_pos a : 0 < ingo_D a.
Proof. unfold ingo_D. destruct (a <=? 20)%N; [lra|destruct (a <=? 25)%N; lra]. Qed.
Lemma C110_ingo_proof : forall r1 a1 r2 a2 o rs x, rs <> [] -> exists a b c,
  ingo (mkIngo (Fin r1) a1) (mkIngo (Fin r2) a2) o = (mkIngo (Fin a) a1, mkIngo (Fin b) a2) /\
  ingo (mkIngo (Fin (r1 + x)) a1) (mkIngo (Fin (r2 + x)) a2) o = (mkIngo (Fin (a + x)) a1, mkIngo (Fin (b + x)) a2) /\
  ingo_rating_period (mkIngo (Fin r1) a1) (map (fun '(r, a, o) => (mkIngo (Fin r) a, o)) rs) = mkIngo (Fin c) a1 /\
  ingo_rating_period (mkIngo (Fin (r1 + x)) a1) (map (fun '(r, a, o) => (mkIngo (Fin (r + x)) a, o)) rs) = mkIngo (Fin (c + x)) a1.
Proof.
  intros * Hrs. pose proof (ingo_D_pos a1). pose proof (ingo_D_pos a2). assert (HL : 0 < INR (length rs)) by (apply lt_0_INR; destruct rs; [congruence|cbn; lia]).
  do 3 eexists. split; [apply C23_proof|]. split; [rewrite (proj1 (C23_proof _ _ _ _ _)), !ingo_upd_shift by lra; reflexivity|].
  split; [apply (C24_formula_proof r1 a1 rs Hrs)|].
  replace (map (fun '(r, a, o) => (mkIngo (Fin (r + x)) a, o)) rs) with (ingo_games (map (fun '(r, a, o) => (r + x, a, o)) rs))
    by (unfold ingo_games; rewrite map_map; apply map_ext; intros [[? ?] ?]; reflexivity).
  rewrite C24_formula_proof by (destruct rs; [congruence|discriminate]). rewrite map_length, !map_map.
  rewrite <- ingo_upd_shift by lra. do 3 f_equal.
  - unfold avg. rewrite !map_length. rewrite (map_ext _ (fun g => fst (fst g) + x)) by (intros [[? ?] ?]; reflexivity). rewrite Rsum_shift. field. lra.
  - f_equal. apply map_ext. intros [[? ?] ?]. reflexivity.
Qed.
(** ** Glicko, Sticko *)
Lemma gE_shift r rj RD x : gE (r + x) (rj + x) RD = gE r rj RD.
Proof. unfold gE. do 3 f_equal. field. Qed.
Definition gsh (x : R) (g : R * R * R) : R * R * R := let '(r, RD, s) := g in (r + x, RD, s).
Lemma gM_shift r x games : gM (r + x) (map (gsh x) games) = gM r games.
Proof. unfold gM. rewrite map_map. f_equal. apply map_ext. intros [[rj RDj] s]. cbn [gsh]. now rewrite gE_shift. Qed.
Lemma gd2inv_shift r x games : gd2inv (r + x) (map (gsh x) games) = gd2inv r games.
Proof. unfold gd2inv. rewrite map_map. do 2 f_equal. apply map_ext. intros [[rj RDj] s]. cbn [gsh]. now rewrite gE_shift. Qed.
Lemma glicko_r_shift r RD x games : glicko_r (r + x) RD (map (gsh x) games) = glicko_r r RD games + x.
Proof. unfold glicko_r. rewrite gM_shift, gd2inv_shift. ring. Qed.
Lemma glicko_rd_shift r RD x games : glicko_rd (r + x) RD (map (gsh x) games) = glicko_rd r RD games.
Proof. unfold glicko_rd. now rewrite gd2inv_shift. Qed.
Lemma C110_glicko_proof : forall r1 RD1 r2 RD2 o c rs x, 0 < RD1 -> 0 < RD2 -> rs <> [] -> exists a d b e f h,
  let cfg := mkGlickoConfig (Fin c) in
  glicko (mkGlicko (Fin r1) (Fin RD1)) (mkGlicko (Fin r2) (Fin RD2)) o cfg = (mkGlicko (Fin a) (Fin d), mkGlicko (Fin b) (Fin e)) /\
  glicko (mkGlicko (Fin (r1 + x)) (Fin RD1)) (mkGlicko (Fin (r2 + x)) (Fin RD2)) o cfg = (mkGlicko (Fin (a + x)) (Fin d), mkGlicko (Fin (b + x)) (Fin e)) /\
  glicko_rating_period (mkGlicko (Fin r1) (Fin RD1)) (map (fun '(rj, RDj, o) => (mkGlicko (Fin rj) (Fin RDj), o)) rs) cfg = mkGlicko (Fin f) (Fin h) /\
  glicko_rating_period (mkGlicko (Fin (r1 + x)) (Fin RD1)) (map (fun '(rj, RDj, o) => (mkGlicko (Fin (rj + x)) (Fin RDj), o)) rs) cfg = mkGlicko (Fin (f + x)) (Fin h).
Proof.
  intros * H1 H2 Hrs. do 6 eexists. cbv zeta. split; [apply C26_proof; auto|]. split.
  { rewrite C26_proof by auto.
    change [(r2 + x, RD2, points o)] with (map (gsh x) [(r2, RD2, points o)]). change [(r1 + x, RD1, points (invert o))] with (map (gsh x) [(r1, RD1, points (invert o))]).
    rewrite !glicko_r_shift, !glicko_rd_shift. reflexivity. }
  split; [rewrite C29_formula_proof by auto; reflexivity|].
  replace (map (fun '(rj, RDj, o) => (mkGlicko (Fin (rj + x)) (Fin RDj), o)) rs)
    with (map (fun '(rj, RDj, o) => (mkGlicko (Fin rj) (Fin RDj), o)) (map (fun '(rj, RDj, o) => (rj + x, RDj, o)) rs))
    by (rewrite map_map; apply map_ext; intros [[? ?] ?]; reflexivity).
  rewrite C29_formula_proof by (auto; destruct rs; (congruence || discriminate)). cbv zeta. rewrite map_map.
  rewrite (map_ext _ (fun g => gsh x ((fun '(rj, RDj, o) => (rj, RDj, points o)) g))) by (intros [[? ?] ?]; reflexivity). rewrite <- map_map.
  rewrite glicko_r_shift, glicko_rd_shift. reflexivity.
Qed.
Definition ssh (x : R) (g : R * R * Outcomes * bool) : R * R * Outcomes * bool := let '(r, RD, o, w) := g in (r + x, RD, o, w).
Lemma st_game_shift gamma beta x gs : map (st_game gamma beta) (map (ssh x) gs) = map (gsh x) (map (st_game gamma beta) gs).
Proof. rewrite !map_map. apply map_ext. intros [[[r RD] o] w]. cbn. destruct w; do 2 f_equal; ring. Qed.
Lemma sticko_r_shift r RD beta gamma lambda gs x : gs <> [] -> sticko_r (r + x) RD beta gamma lambda (map (ssh x) gs) = sticko_r r RD beta gamma lambda gs + x.
Proof.
  intros Hg. assert (HL : 0 < INR (length gs)) by (apply lt_0_INR; destruct gs; [congruence|cbn; lia]). unfold sticko_r. rewrite st_game_shift, glicko_r_shift, map_map.
  rewrite (map_ext _ (fun g => (fun '(rj, _, _, _) => rj) g + x) ) by (intros [[[? ?] ?] ?]; reflexivity). unfold mean. rewrite !map_length, Rsum_shift. field. lra.
Qed.
Lemma sticko_rd_shift r RD beta gamma h gs x : sticko_rd (r + x) RD beta gamma h (map (ssh x) gs) = sticko_rd r RD beta gamma h gs.
Proof. unfold sticko_rd. rewrite st_game_shift, gd2inv_shift, map_length. reflexivity. Qed.
Lemma C110_sticko_proof : forall r1 RD1 r2 RD2 o h beta lambda gamma c rs x, 0 < RD1 -> 0 < RD2 -> 0 <= h -> rs <> [] -> exists a d b e f g,
  let cfg := mkStickoConfig (Fin h) (Fin beta) (Fin lambda) (Fin gamma) (Fin c) in
  sticko (mkSticko (Fin r1) (Fin RD1)) (mkSticko (Fin r2) (Fin RD2)) o cfg = (mkSticko (Fin a) (Fin d), mkSticko (Fin b) (Fin e)) /\
  sticko (mkSticko (Fin (r1 + x)) (Fin RD1)) (mkSticko (Fin (r2 + x)) (Fin RD2)) o cfg = (mkSticko (Fin (a + x)) (Fin d), mkSticko (Fin (b + x)) (Fin e)) /\
  sticko_rating_period (mkSticko (Fin r1) (Fin RD1)) (map (fun '(rj, RDj, o, w) => (mkSticko (Fin rj) (Fin RDj), o, w)) rs) cfg = mkSticko (Fin f) (Fin g) /\
  sticko_rating_period (mkSticko (Fin (r1 + x)) (Fin RD1)) (map (fun '(rj, RDj, o, w) => (mkSticko (Fin (rj + x)) (Fin RDj), o, w)) rs) cfg = mkSticko (Fin (f + x)) (Fin g).
Proof.
  intros * H1 H2 Hh Hrs. do 6 eexists. cbv zeta. split; [apply C33_game_proof; auto|]. split.
  { rewrite C33_game_proof by auto.
    change [(r2 + x, RD2, o, true)] with (map (ssh x) [(r2, RD2, o, true)]). change [(r1 + x, RD1, invert o, false)] with (map (ssh x) [(r1, RD1, invert o, false)]).
    rewrite !sticko_r_shift, !sticko_rd_shift by discriminate. reflexivity. }
  split; [apply C33_period_proof; auto|].
  replace (map (fun '(rj, RDj, o, w) => (mkSticko (Fin (rj + x)) (Fin RDj), o, w)) rs)
    with (map (fun '(rj, RDj, o, w) => (mkSticko (Fin rj) (Fin RDj), o, w)) (map (ssh x) rs))
    by (rewrite map_map; apply map_ext; intros [[[? ?] ?] ?]; reflexivity).
  rewrite C33_period_proof by (auto; destruct rs; (congruence || discriminate)). rewrite sticko_r_shift, sticko_rd_shift by auto. reflexivity.
Qed.
(** ** Glicko-2 *)
Lemma g2E_shift mu muj phij y : g2E (mu + y) (muj + y) phij = g2E mu muj phij.
Proof. unfold g2E. do 4 f_equal. ring. Qed.
Lemma g2mu_shift r x : g2mu (r + x) = g2mu r + x / g2s.
Proof. unfold g2mu. pose proof g2s_pos. field. lra. Qed.
Lemma g2M_shift mu y games : g2M (mu + y) (map (gsh y) games) = g2M mu games.
Proof. unfold g2M. rewrite map_map. f_equal. apply map_ext. intros [[rj RDj] s]. cbn [gsh]. now rewrite g2E_shift. Qed.
Lemma g2v_shift mu y games : g2v (mu + y) (map (gsh y) games) = g2v mu games.
Proof. unfold g2v. rewrite map_map. do 2 f_equal. apply map_ext. intros [[rj RDj] s]. cbn [gsh]. now rewrite g2E_shift. Qed.
Definition g2sh (x : R) (p : Glicko2Rating XR) : Glicko2Rating XR := mkGlicko2 (fadd (g2_rating p) (Fin x)) (g2_deviation p) (g2_volatility p).
Lemma C110_glicko2_period_proof : forall fuel r RD s t tol rs x p, 0 < s -> 0 < t -> 0 <= tol ->
  glicko2_rating_period fuel (mkGlicko2 (Fin r) (Fin RD) (Fin s))
    (map (fun '(rj, RDj, sj, o) => (mkGlicko2 (Fin rj) (Fin RDj) (Fin sj), o)) rs) (mkGlicko2Config (Fin t) (Fin tol)) = Some p ->
  exists a d s', p = mkGlicko2 (Fin a) (Fin d) (Fin s') /\
  glicko2_rating_period fuel (mkGlicko2 (Fin (r + x)) (Fin RD) (Fin s))
    (map (fun '(rj, RDj, sj, o) => (mkGlicko2 (Fin (rj + x)) (Fin RDj) (Fin sj), o)) rs) (mkGlicko2Config (Fin t) (Fin tol)) = Some (mkGlicko2 (Fin (a + x)) (Fin d) (Fin s')).
Proof.
  intros * Hs Ht Htol. destruct rs as [|g0 rs0].
  { cbn [map]. rewrite !C41_empty_proof. intros [= <-]. unfold glicko2_decay_deviation. cbn [g2_rating g2_deviation g2_volatility]. cbv zeta. rewrite !g2_phi_eval, xr_hypot. rewrite g2_scale_eval. xr. eauto. }
  set (rs := g0 :: rs0). assert (Hrs : rs <> []) by discriminate. clearbody rs. clear g0 rs0.
  replace (map (fun '(rj, RDj, sj, o) => (mkGlicko2 (Fin (rj + x)) (Fin RDj) (Fin sj), o)) rs)
    with (map (fun '(rj, RDj, sj, o) => (mkGlicko2 (Fin rj) (Fin RDj) (Fin sj), o)) (map (fun '(rj, RDj, sj, o) => (rj + x, RDj, sj, o)) rs))
    by (rewrite map_map; apply map_ext; intros [[[? ?] ?] ?]; reflexivity).
  rewrite !g2_period_eval by (auto; destruct rs; (congruence || discriminate)). cbv zeta.
  set (games := map (fun '(rj, RDj, _, o) => (g2mu rj, g2phi RDj, points o)) rs). assert (Hg : games <> []) by (unfold games; destruct rs; [congruence|discriminate]).
  assert (G : map (fun '(rj, RDj, _, o) => (g2mu rj, g2phi RDj, points o)) (map (fun '(rj, RDj, sj, o) => (rj + x, RDj, sj, o)) rs) = map (gsh (x / g2s)) games)
    by (unfold games; rewrite !map_map; apply map_ext; intros [[[? ?] ?] ?]; cbn [gsh]; now rewrite g2mu_shift).
  rewrite G. clear G.
  assert (V : g2_vol fuel (r + x) RD s t tol (map (gsh (x / g2s)) games) = g2_vol fuel r RD s t tol games) by (unfold g2_vol; now rewrite g2mu_shift, g2v_shift, g2M_shift).
  rewrite V. destruct (g2_vol fuel r RD s t tol games) as [v|] eqn:Ev; [|discriminate]. intros [= <-].
  destruct (g2_vol_sound fuel r RD s t tol games v Hg Hs Ht Htol Ev) as (s' & -> & Hs' & _).
  rewrite !g2_out_eval by (auto; destruct games; (congruence || discriminate)). do 3 eexists. split; [reflexivity|].
  unfold g2_new_r, g2_new_rd. cbv zeta. rewrite g2mu_shift, g2v_shift, g2M_shift. do 3 f_equal. pose proof g2s_pos. field. lra.
Qed.
(** ** USCF and EGF: the order of the games of a period *)
Lemma count_perm {A} (f : A -> bool) l l' : Permutation l l' -> length (filter f l) = length (filter f l').
Proof.
  induction 1; cbn; auto; [destruct (f x); cbn; auto|destruct (f x), (f y); reflexivity|congruence].
Qed.
Lemma C109_uscf_proof : forall r n rs rs' t, Permutation rs rs' -> (n + N.of_nat (length rs) < 2 ^ 64)%N ->
  uscf_rating_period (mkUscf (Fin r) n) (map (fun '(rj, nj, o) => (mkUscf (Fin rj) nj, o)) rs) (mkUscfConfig (Fin t)) =
  uscf_rating_period (mkUscf (Fin r) n) (map (fun '(rj, nj, o) => (mkUscf (Fin rj) nj, o)) rs') (mkUscfConfig (Fin t)).
Proof.
  intros * HP HN. destruct rs as [|g0 rs0]; [apply Permutation_nil in HP as ->; reflexivity|]. set (rs := g0 :: rs0) in *. assert (Hrs : rs <> []) by discriminate. clearbody rs.
  assert (Hrs' : rs' <> []) by (intros ->; apply Permutation_sym, Permutation_nil in HP; congruence).
  rewrite !(map_ext (fun '(rj, nj, o) => (mkUscf (Fin rj) nj, o)) (fun g => (mkUscf (Fin (fst (fst g))) (snd (fst g)), snd g))) by (intros [[? ?] ?]; reflexivity).
  pose proof (Permutation_length HP) as HL. rewrite !C10_period_proof by (auto; rewrite <- ?HL; auto). rewrite HL.
  rewrite (Rsum_perm (map (fun g => fst (fst g)) rs) (map (fun g => fst (fst g)) rs')) by now apply Permutation_map.
  rewrite (Rsum_perm (map (fun g => points (snd g)) rs) (map (fun g => points (snd g)) rs')) by now apply Permutation_map.
  rewrite (Rsum_perm (map (fun g => elo_E r (fst (fst g))) rs) (map (fun g => elo_E r (fst (fst g))) rs')) by now apply Permutation_map.
  unfold count_wins, count_losses. rewrite !(count_perm _ (map snd rs) (map snd rs')) by now apply Permutation_map. reflexivity.
Qed.
Lemma C109_egf_proof : forall r rs rs', r < 3300 -> Permutation rs rs' ->
  (forall opp o H, In (opp, o, H) rs -> egf_adj (egf_h1 H) r < 3300 /\ egf_adj (egf_h2 H) opp < 3300) ->
  egf_rating_period (mkEgf (Fin r)) (map (fun '(opp, o, H) => (mkEgf (Fin opp), o, mkEgfConfig (Fin H))) rs) =
  egf_rating_period (mkEgf (Fin r)) (map (fun '(opp, o, H) => (mkEgf (Fin opp), o, mkEgfConfig (Fin H))) rs').
Proof.
  intros * Hr HP HI. rewrite !C73_proof; auto; [|intros opp o H Hin; apply HI with o; apply (Permutation_in _ (Permutation_sym HP)); auto].
  do 3 f_equal. apply Rsum_perm, Permutation_map, HP.
Qed.
Lemma C110_glicko2_proof : forall fuel r1 RD1 s1 r2 RD2 s2 o t tol x p q, 0 < s1 -> 0 < s2 -> 0 < t -> 0 <= tol ->
  glicko2 fuel (mkGlicko2 (Fin r1) (Fin RD1) (Fin s1)) (mkGlicko2 (Fin r2) (Fin RD2) (Fin s2)) o (mkGlicko2Config (Fin t) (Fin tol)) = Some (p, q) ->
  exists a d s' b e s'', p = mkGlicko2 (Fin a) (Fin d) (Fin s') /\ q = mkGlicko2 (Fin b) (Fin e) (Fin s'') /\
  glicko2 fuel (mkGlicko2 (Fin (r1 + x)) (Fin RD1) (Fin s1)) (mkGlicko2 (Fin (r2 + x)) (Fin RD2) (Fin s2)) o (mkGlicko2Config (Fin t) (Fin tol)) =
    Some (mkGlicko2 (Fin (a + x)) (Fin d) (Fin s'), mkGlicko2 (Fin (b + x)) (Fin e) (Fin s'')).
Proof.
  intros * H1 H2 Ht Htol. rewrite !g2_game_eval. cbv zeta.
  assert (G : forall r RD s rj RDj sc, g2_vol fuel (r + x) RD s t tol [(g2mu (rj + x), g2phi RDj, sc)] = g2_vol fuel r RD s t tol [(g2mu rj, g2phi RDj, sc)]).
  { intros. rewrite (g2mu_shift rj). change [(g2mu rj + x / g2s, g2phi RDj, sc)] with (map (gsh (x / g2s)) [(g2mu rj, g2phi RDj, sc)]). unfold g2_vol. now rewrite g2mu_shift, g2v_shift, g2M_shift. }
  rewrite !G. destruct (g2_vol fuel r1 RD1 s1 t tol _) as [v1|] eqn:E1; [|discriminate]. destruct (g2_vol fuel r2 RD2 s2 t tol _) as [v2|] eqn:E2; [|discriminate].
  apply g2_vol_sound in E1 as (s' & -> & Hs' & _); [|discriminate|auto..]. apply g2_vol_sound in E2 as (s'' & -> & Hs'' & _); [|discriminate|auto..].
  rewrite !g2_new_rating_out by auto. rewrite !g2_out_eval by (auto; discriminate). intros [= <- <-].
  do 6 eexists. split; [reflexivity|]. split; [reflexivity|].
  assert (R : forall r RD rj RDj sc s', g2_new_r (r + x) RD s' [(g2mu (rj + x), g2phi RDj, sc)] = g2_new_r r RD s' [(g2mu rj, g2phi RDj, sc)] + x /\
    g2_new_rd (r + x) RD s' [(g2mu (rj + x), g2phi RDj, sc)] = g2_new_rd r RD s' [(g2mu rj, g2phi RDj, sc)]).
  { intros. rewrite (g2mu_shift rj). change [(g2mu rj + x / g2s, g2phi RDj, sc)] with (map (gsh (x / g2s)) [(g2mu rj, g2phi RDj, sc)]). unfold g2_new_r, g2_new_rd. cbv zeta. rewrite g2mu_shift, g2v_shift, g2M_shift.
    split; [|reflexivity]. pose proof g2s_pos. field. lra. }
  do 2 f_equal; f_equal; f_equal; apply R.
Qed.
(** ** Weng-Lin and TrueSkill *)
Definition sh (x : R) (p : R * R) : R * R := (fst p + x, snd p).
Definition sc (l : R) (p : R * R) : R * R := (l * fst p, l * snd p).
Lemma theta_shift x t : wl_theta (map (sh x) t) = wl_theta t + INR (length t) * x.
Proof. unfold wl_theta. rewrite map_map. cbn [sh fst]. apply (Rsum_shift fst). Qed.
Lemma s2_shift x t : wl_s2 (map (sh x) t) = wl_s2 t.
Proof. unfold wl_s2. rewrite map_map. reflexivity. Qed.
Lemma Rsum_scale {A} (f : A -> R) l t : Rsum (map (fun a => l * f a) t) = l * Rsum (map f t).
Proof. induction t as [|a t IH]; [cbn; ring|]. cbn [map]. rewrite !Rsum_cons, IH. ring. Qed.
Lemma theta_scale l t : wl_theta (map (sc l) t) = l * wl_theta t.
Proof. unfold wl_theta. rewrite map_map. cbn [sc fst]. apply (Rsum_scale fst). Qed.
Lemma s2_scale l t : wl_s2 (map (sc l) t) = l ^ 2 * wl_s2 t.
Proof. unfold wl_s2. rewrite map_map. cbn [sc snd]. rewrite <- Rsum_scale. f_equal. apply map_ext. intros. ring. Qed.
Lemma ok_shift x t : wl_ok t -> wl_ok (map (sh x) t).
Proof. intros [A B]. split; [destruct t; [congruence|discriminate]|]. apply Forall_map. exact B. Qed.
Lemma ok_scale l t : 0 < l -> wl_ok t -> wl_ok (map (sc l) t).
Proof. intros Hl [A B]. split; [destruct t; [congruence|discriminate]|]. apply Forall_map. eapply Forall_impl; [|exact B]. intros p Hp. cbn in *. now apply Rmult_lt_0_compat. Qed.
Lemma wlc_scale l b u v : 0 < l -> 0 <= u -> 0 <= v -> wlc (l * b) (l ^ 2 * u) (l ^ 2 * v) = l * wlc b u v.
Proof.
  intros Hl Hu Hv. unfold wlc. replace (l ^ 2 * u + l ^ 2 * v + 2 * (l * b) ^ 2) with (l ^ 2 * (u + v + 2 * b ^ 2)) by ring.
  rewrite sqrt_mult; [|apply pow2_ge_0|pose proof (pow2_ge_0 b); lra]. rewrite sqrt_pow2 by lra. reflexivity.
Qed.
Lemma C110_wl_shift_proof : forall t1 t2 o beta kappa x, wl_ok t1 -> wl_ok t2 -> 0 <= kappa -> length t1 = length t2 -> exists a b,
  weng_lin_two_teams (wlt_in t1) (wlt_in t2) o (mkWLConfig (Fin beta) (Fin kappa)) = (wlt_in a, wlt_in b) /\
  weng_lin_two_teams (wlt_in (map (fun p => (fst p + x, snd p)) t1)) (wlt_in (map (fun p => (fst p + x, snd p)) t2)) o (mkWLConfig (Fin beta) (Fin kappa)) =
    (wlt_in (map (fun p => (fst p + x, snd p)) a), wlt_in (map (fun p => (fst p + x, snd p)) b)).
Proof.
  intros * O1 O2 Hk HL. change (fun p : R * R => (fst p + x, snd p)) with (sh x). do 2 eexists. split; [apply wl_two_teams_eval; auto|]. rewrite wl_two_teams_eval by (auto; now apply ok_shift).
  assert (P : forall a b c, wlp (a + INR (length t2) * x) (b + INR (length t2) * x) c = wlp a b c) by (intros; unfold wlp; do 4 f_equal; ring).
  unfold wl_side, wls_delta, wls_eta. cbv zeta. rewrite !theta_shift, !s2_shift, HL, !P. unfold sh at 2 4. rewrite !map_map. f_equal; f_equal; apply map_ext; intros [m s]; unfold wl_player, sh; cbn [fst snd]; f_equal; ring.
Qed.
Lemma C110_wl_scale_proof : forall t1 t2 o beta kappa l, wl_ok t1 -> wl_ok t2 -> 0 <= kappa -> 0 < l -> exists a b,
  weng_lin_two_teams (wlt_in t1) (wlt_in t2) o (mkWLConfig (Fin beta) (Fin kappa)) = (wlt_in a, wlt_in b) /\
  weng_lin_two_teams (wlt_in (map (fun p => (l * fst p, l * snd p)) t1)) (wlt_in (map (fun p => (l * fst p, l * snd p)) t2)) o (mkWLConfig (Fin (l * beta)) (Fin kappa)) =
    (wlt_in (map (fun p => (l * fst p, l * snd p)) a), wlt_in (map (fun p => (l * fst p, l * snd p)) b)).
Proof.
  intros * O1 O2 Hk Hl. change (fun p : R * R => (l * fst p, l * snd p)) with (sc l). do 2 eexists. split; [apply wl_two_teams_eval; auto|]. rewrite wl_two_teams_eval by (auto; now apply ok_scale).
  pose proof (wl_s2_pos t1 O1) as U1. pose proof (wl_s2_pos t2 O2) as U2.
  assert (Side : forall t t' s, 0 < wl_s2 t -> 0 < wl_s2 t' -> wl_side (l * beta) kappa (map (sc l) t) (map (sc l) t') s = map (sc l) (wl_side beta kappa t t' s)).
  { intros t t' s V1 V2. assert (Hc : 0 < wlc beta (wl_s2 t) (wl_s2 t')) by (apply wlc_pos; lra). set (c := wlc beta (wl_s2 t) (wl_s2 t')) in *.
    unfold wl_side, wls_delta, wls_eta. cbv zeta. rewrite !theta_scale, !s2_scale, !wlc_scale by lra. fold c.
    assert (P : forall a b, wlp (l * a) (l * b) (l * c) = wlp a b c) by (intros; unfold wlp; do 3 f_equal; field; lra). rewrite !P.
    assert (Q : sqrt (l ^ 2 * wl_s2 t) = l * sqrt (wl_s2 t)) by (rewrite sqrt_mult, sqrt_pow2; auto; try lra; apply pow2_ge_0). rewrite Q.
    replace (l * sqrt (wl_s2 t) / (l * c)) with (sqrt (wl_s2 t) / c) by (field; lra). rewrite !map_map. apply map_ext. intros [m z]. unfold wl_player, sc. cbn [fst snd].
    replace ((l * z) ^ 2 / (l ^ 2 * wl_s2 t)) with (z ^ 2 / wl_s2 t) by (field; lra). f_equal; [field; lra|]. rewrite Rmult_assoc. reflexivity. }
  rewrite !Side by auto. reflexivity.
Qed.
Lemma wl_single_out m1 s1 m2 s2 o cfg p q : weng_lin_two_teams [mkWL m1 s1] [mkWL m2 s2] o cfg = ([fst (weng_lin (mkWL m1 s1) (mkWL m2 s2) o cfg)], [snd (weng_lin (F := XR) (mkWL m1 s1) (mkWL m2 s2) o cfg)]) ->
  weng_lin_two_teams [mkWL m1 s1] [mkWL m2 s2] o cfg = ([p], [q]) -> weng_lin (mkWL m1 s1) (mkWL m2 s2) o cfg = (p, q).
Proof. intros -> [= <- <-]. apply surjective_pairing. Qed.
Lemma C110_wl_1v1_proof : forall m1 s1 m2 s2 o beta kappa x l, 0 < s1 -> 0 < s2 -> 0 <= kappa -> 0 < l -> exists a d b e,
  weng_lin (mkWL (Fin m1) (Fin s1)) (mkWL (Fin m2) (Fin s2)) o (mkWLConfig (Fin beta) (Fin kappa)) = (mkWL (Fin a) (Fin d), mkWL (Fin b) (Fin e)) /\
  weng_lin (mkWL (Fin (m1 + x)) (Fin s1)) (mkWL (Fin (m2 + x)) (Fin s2)) o (mkWLConfig (Fin beta) (Fin kappa)) = (mkWL (Fin (a + x)) (Fin d), mkWL (Fin (b + x)) (Fin e)) /\
  weng_lin (mkWL (Fin (l * m1)) (Fin (l * s1))) (mkWL (Fin (l * m2)) (Fin (l * s2))) o (mkWLConfig (Fin (l * beta)) (Fin kappa)) = (mkWL (Fin (l * a)) (Fin (l * d)), mkWL (Fin (l * b)) (Fin (l * e))).
Proof.
  intros * H1 H2 Hk Hl. pose proof (C43_single_proof m1 s1 m2 s2 o beta kappa H1 H2 Hk) as E. cbv zeta in E.
  pose proof (C43_single_proof (m1 + x) s1 (m2 + x) s2 o beta kappa H1 H2 Hk) as Ex. cbv zeta in Ex.
  pose proof (C43_single_proof (l * m1) (l * s1) (l * m2) (l * s2) o (l * beta) kappa ltac:(nra) ltac:(nra) Hk) as El. cbv zeta in El.
  assert (O1 : wl_ok [(m1, s1)]) by (split; [discriminate|repeat constructor; auto]). assert (O2 : wl_ok [(m2, s2)]) by (split; [discriminate|repeat constructor; auto]).
  destruct (C110_wl_shift_proof [(m1, s1)] [(m2, s2)] o beta kappa x O1 O2 Hk eq_refl) as (a & b & A1 & A2).
  destruct (C110_wl_scale_proof [(m1, s1)] [(m2, s2)] o beta kappa l O1 O2 Hk Hl) as (a' & b' & B1 & B2).
  unfold wlt_in, wl_in in A1, A2, B1, B2. cbn [map fst snd] in A1, A2, B1, B2. pose proof A1 as A1'. rewrite E in A1'. pose proof B1 as B1'. rewrite E in B1'.
  destruct a as [|[a d] [|]]; try discriminate. destruct b as [|[b e] [|]]; try discriminate. destruct a' as [|[a' d'] [|]]; try discriminate. destruct b' as [|[b' e'] [|]]; try discriminate.
  clear A1' B1'. cbn [map fst snd] in A1, A2, B1, B2. pose proof (wl_single_out _ _ _ _ _ _ _ _ E A1) as W1. pose proof (wl_single_out _ _ _ _ _ _ _ _ E B1) as W2.
  rewrite W1 in W2. injection W2 as <- <- <- <-. exists a, d, b, e. split; [exact W1|]. split; apply wl_single_out; auto.
Qed.
Lemma side_mu_theta t : side_mu t = wl_theta t. Proof. reflexivity. Qed.
Lemma side_var_s2 t : side_var t = wl_s2 t. Proof. reflexivity. Qed.
Lemma C110_ts_shift_proof : forall t1 t2 o dp beta tau x, wl_ok t1 -> wl_ok t2 -> length t1 = length t2 ->
  let f := map (fun p : TrueSkillRating XR => mkTS (fadd (ts_rating p) (Fin x)) (ts_uncertainty p)) in
  trueskill_two_teams (tst_in (map (fun p => (fst p + x, snd p)) t1)) (tst_in (map (fun p => (fst p + x, snd p)) t2)) o (ts_cfg dp beta tau) =
  (f (fst (trueskill_two_teams (tst_in t1) (tst_in t2) o (ts_cfg dp beta tau))), f (snd (trueskill_two_teams (tst_in t1) (tst_in t2) o (ts_cfg dp beta tau)))).
Proof.
  intros * O1 O2 HL f. change (fun p : R * R => (fst p + x, snd p)) with (sh x).
  destruct (C51_formula_proof t1 t2 o dp beta tau O1 O2) as (e & He & E). cbv zeta in E. rewrite E. clear E.
  destruct (C51_formula_proof (map (sh x) t1) (map (sh x) t2) o dp beta tau (ok_shift x t1 O1) (ok_shift x t2 O2)) as (e' & He' & E). cbv zeta in E. rewrite E. clear E.
  rewrite !map_length in *. rewrite He in He'. injection He' as <-. rewrite !side_mu_theta, !side_var_s2, !theta_shift, !s2_shift, HL.
  set (c := sqrt _). replace ((wl_theta t1 + INR (length t2) * x - (wl_theta t2 + INR (length t2) * x)) / c) with ((wl_theta t1 - wl_theta t2) / c) by (f_equal; ring).
  set (v := ts_v _ _ _). set (w := ts_w _ _ _). cbn [fst snd]. unfold f. rewrite !map_map. f_equal; apply map_ext; intros [m s]; unfold ts_out, ts_mu', ts_var', sh; cbn [fst snd ts_rating ts_uncertainty]; rewrite xr_add; do 2 f_equal; ring.
Qed.
Lemma std_scale l v : 0 < l -> std (l ^ 2 * v) = fmul (Fin l) (std v).
Proof.
  intros Hl. unfold std. pose proof (pow_lt l 2 Hl). destruct (Rlt_dec v 0) as [N|N], (Rlt_dec (l ^ 2 * v) 0) as [M|M]; try (exfalso; nra); [reflexivity|].
  rewrite xr_mul. f_equal. rewrite sqrt_mult, sqrt_pow2; lra.
Qed.
Lemma C110_ts_scale_proof : forall t1 t2 o dp beta tau l, wl_ok t1 -> wl_ok t2 -> 0 < l ->
  let f := map (fun p : TrueSkillRating XR => mkTS (fmul (Fin l) (ts_rating p)) (fmul (Fin l) (ts_uncertainty p))) in
  trueskill_two_teams (tst_in (map (fun p => (l * fst p, l * snd p)) t1)) (tst_in (map (fun p => (l * fst p, l * snd p)) t2)) o (ts_cfg dp (l * beta) (l * tau)) =
  (f (fst (trueskill_two_teams (tst_in t1) (tst_in t2) o (ts_cfg dp beta tau))), f (snd (trueskill_two_teams (tst_in t1) (tst_in t2) o (ts_cfg dp beta tau)))).
Proof.
  intros * O1 O2 Hl f. change (fun p : R * R => (l * fst p, l * snd p)) with (sc l).
  destruct (C51_formula_proof t1 t2 o dp beta tau O1 O2) as (e & He & E). cbv zeta in E. rewrite E. clear E.
  destruct (C51_formula_proof (map (sc l) t1) (map (sc l) t2) o dp (l * beta) (l * tau) (ok_scale l t1 Hl O1) (ok_scale l t2 Hl O2)) as (e' & He' & E). cbv zeta in E. rewrite E. clear E.
  rewrite !map_length in *. rewrite draw_margin_eval in He, He' by apply pos_INR. injection He as <-. injection He' as <-.
  pose proof (wl_s2_pos t1 O1) as U1. pose proof (wl_s2_pos t2 O2) as U2. set (n := INR _). assert (0 <= n) by apply pos_INR.
  rewrite !side_mu_theta, !side_var_s2, !theta_scale, !s2_scale. pose proof (pow2_ge_0 beta).
  assert (C : sqrt (n * (l * beta) ^ 2 + l ^ 2 * wl_s2 t1 + l ^ 2 * wl_s2 t2) = l * sqrt (n * beta ^ 2 + wl_s2 t1 + wl_s2 t2)).
  { replace (n * (l * beta) ^ 2 + l ^ 2 * wl_s2 t1 + l ^ 2 * wl_s2 t2) with (l ^ 2 * (n * beta ^ 2 + wl_s2 t1 + wl_s2 t2)) by ring. rewrite sqrt_mult, sqrt_pow2; try lra; [apply pow2_ge_0|nra]. }
  rewrite C. assert (Hc : 0 < sqrt (n * beta ^ 2 + wl_s2 t1 + wl_s2 t2)) by (apply sqrt_lt_R0; nra). set (c := sqrt (n * beta ^ 2 + wl_s2 t1 + wl_s2 t2)) in *.
  replace ((l * wl_theta t1 - l * wl_theta t2) / (l * c)) with ((wl_theta t1 - wl_theta t2) / c) by (field; lra).
  replace (unit_margin dp * sqrt n * (l * beta) / (l * c)) with (unit_margin dp * sqrt n * beta / c) by (field; lra).
  set (v := ts_v _ _ _). set (w := ts_w _ _ _). cbn [fst snd]. unfold f. rewrite !map_map.
  f_equal; apply map_ext; intros [m s]; unfold ts_out, ts_mu', ts_var', sc; cbn [fst snd ts_rating ts_uncertainty]; change (sqrt (n * beta ^ 2 + side_var t1 + side_var t2)) with c; rewrite xr_mul, <- std_scale by auto; (f_equal; f_equal; field; lra).
Qed.
Lemma ts_single_out (p q : R * R) o dp beta tau : 0 < snd p -> 0 < snd q -> trueskill_two_teams [ts_in p] [ts_in q] o (ts_cfg dp beta tau) =
  ([fst (trueskill (ts_in p) (ts_in q) o (ts_cfg dp beta tau))], [snd (trueskill (ts_in p) (ts_in q) o (ts_cfg dp beta tau))]).
Proof. destruct p as [m1 s1], q as [m2 s2]. intros. now apply C51_single_proof. Qed.
Lemma C110_ts_1v1_proof : forall m1 s1 m2 s2 o dp beta tau x l, 0 < s1 -> 0 < s2 -> 0 < l ->
  let f := fun p : TrueSkillRating XR => mkTS (fadd (ts_rating p) (Fin x)) (ts_uncertainty p) in
  let g := fun p : TrueSkillRating XR => mkTS (fmul (Fin l) (ts_rating p)) (fmul (Fin l) (ts_uncertainty p)) in
  let '(p, q) := trueskill (ts_in (m1, s1)) (ts_in (m2, s2)) o (ts_cfg dp beta tau) in
  trueskill (ts_in (m1 + x, s1)) (ts_in (m2 + x, s2)) o (ts_cfg dp beta tau) = (f p, f q) /\
  trueskill (ts_in (l * m1, l * s1)) (ts_in (l * m2, l * s2)) o (ts_cfg dp (l * beta) (l * tau)) = (g p, g q).
Proof.
  intros * H1 H2 Hl f g.
  assert (O1 : wl_ok [(m1, s1)]) by (split; [discriminate|repeat constructor; auto]). assert (O2 : wl_ok [(m2, s2)]) by (split; [discriminate|repeat constructor; auto]).
  pose proof (C110_ts_shift_proof [(m1, s1)] [(m2, s2)] o dp beta tau x O1 O2 eq_refl) as A. pose proof (C110_ts_scale_proof [(m1, s1)] [(m2, s2)] o dp beta tau l O1 O2 Hl) as B.
  cbv zeta in A, B. unfold tst_in in A, B. cbn [map fst snd] in A, B. rewrite !ts_single_out in A, B by (cbn; auto; nra). cbn [map fst snd] in A, B. fold f in A. fold g in B.
  destruct (trueskill (ts_in (m1, s1)) (ts_in (m2, s2)) o (ts_cfg dp beta tau)) as [p q]. cbn [fst snd] in A, B.
  assert (L : forall (T : Type) (u : T * T) a b, ([fst u], [snd u]) = ([a], [b]) -> u = (a, b)) by (intros T [] a b [= -> ->]; reflexivity).
  split; [apply L, A|apply L, B].
Qed.
