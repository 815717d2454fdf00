(** Property theorems about what all rating systems share: traits, conversions,
    player-swap symmetry, rating-period expectations, constructors, outcomes. *)
From Coq Require Import ZArith NArith List Bool Reals Lra Lia.
From Verif Require Import Arith XR ModelLib ModelElo ModelFifa ModelIngo ModelUscf ModelEgf ModelDwz ModelGlicko ModelSticko
  ModelBoost ModelGlicko2 ModelWengLin ModelConv ModelTS ModelTSGraph Spec SpecIn SpecTS SpecInTS ProofWengLin ProofTS ProofCross.
Import ListNotations.
Local Open Scope R_scope.

(** C60: traits delegate to the module functions. *)
Theorem C60_traits_rate : forall (F : Type) (A : Arith F) (o : Outcomes),
  (forall c p q, elo_sys_rate c p q o = elo p q o c) /\ (forall c p q, fifa_sys_rate c p q o = fifa p q o c) /\
  (forall p q, ingo_sys_rate tt p q o = ingo p q o) /\ (forall c p q, uscf_sys_rate c p q o = uscf p q o c) /\
  (forall c p q, egf_sys_rate c p q o = egf p q o c) /\ (forall p q, dwz_sys_rate tt p q o = dwz p q o) /\
  (forall c p q, glicko_sys_rate c p q o = glicko p q o c) /\ (forall c p q, sticko_sys_rate c p q o = sticko p q o c) /\
  (forall c p q, boost_sys_rate c p q o = glicko_boost p q o c) /\ (forall n c p q, glicko2_sys_rate n c p q o = glicko2 n p q o c) /\
  (forall c p q, wl_sys_rate c p q o = weng_lin p q o c) /\ (forall c p q, ts_sys_rate c p q o = trueskill p q o c) /\
  (forall c t u, wl_tsys_rate c t u o = weng_lin_two_teams t u o c) /\ (forall c t u, ts_tsys_rate c t u o = trueskill_two_teams t u o c).
Proof. exact C60_rate_proof. Qed.
Print Assumptions C60_traits_rate.
Theorem C60_traits_period : forall (F : Type) (A : Arith F),
  (forall c p rs, elo_psys_rate c p rs = elo_rating_period p rs c) /\
  (forall c p rs, fifa_psys_rate c p rs = fifa_rating_period p (map (fun r => (fst r, snd r, c)) rs)) /\
  (forall p rs, ingo_psys_rate tt p rs = ingo_rating_period p rs) /\
  (forall c p rs, uscf_psys_rate c p rs = uscf_rating_period p rs c) /\
  (forall c p rs, egf_psys_rate c p rs = egf_rating_period p (map (fun r => (fst r, snd r, c)) rs)) /\
  (forall p rs, dwz_psys_rate tt p rs = dwz_rating_period p rs) /\
  (forall c p rs, glicko_psys_rate c p rs = glicko_rating_period p rs c) /\
  (forall c p rs, sticko_psys_rate c p rs = sticko_rating_period p (map (fun r => (fst r, snd r, true)) rs) c) /\
  (forall c p rs, boost_psys_rate c p rs = glicko_boost_rating_period p (map (fun r => (fst r, snd r, true)) rs) c) /\
  (forall n c p rs, glicko2_psys_rate n c p rs = glicko2_rating_period n p rs c) /\
  (forall c p rs, wl_psys_rate c p rs = weng_lin_rating_period p rs c) /\
  (forall c p rs, ts_psys_rate c p rs = trueskill_rating_period p rs c).
Proof. exact C60_period_proof. Qed.
Print Assumptions C60_traits_period.
Theorem C60_traits_expected : forall (F : Type) (A : Arith F),
  (forall c p q, elo_sys_expected_score c p q = elo_expected_score p q) /\
  (forall c p q, fifa_sys_expected_score c p q = fifa_expected_score p q) /\
  (forall p q, ingo_sys_expected_score tt p q = ingo_expected_score p q) /\
  (forall c p q, uscf_sys_expected_score c p q = uscf_expected_score p q) /\
  (forall c p q, egf_sys_expected_score c p q = egf_expected_score p q c) /\
  (forall p q, dwz_sys_expected_score tt p q = dwz_expected_score p q) /\
  (forall c p q, glicko_sys_expected_score c p q = glicko_expected_score p q) /\
  (forall c p q, sticko_sys_expected_score c p q = sticko_expected_score p q c) /\
  (forall c p q, boost_sys_expected_score c p q = boost_expected_score p q c) /\
  (forall c p q, glicko2_sys_expected_score c p q = glicko2_expected_score p q) /\
  (forall c p q, wl_sys_expected_score c p q = wl_expected_score p q c) /\
  (forall c p q, ts_sys_expected_score c p q = ts_expected_score p q c) /\
  (forall c t u, wl_tsys_expected_score c t u = wl_expected_score_two_teams t u c) /\
  (forall c t u, ts_tsys_expected_score c t u = ts_expected_score_two_teams t u c) /\
  (forall c ts, wl_msys_expected_score c ts = wl_expected_score_multi_team ts c) /\
  (forall c ts, ts_msys_expected_score c ts = ts_expected_score_multi_team ts c).
Proof. exact C60_expected_proof. Qed.
Print Assumptions C60_traits_expected.
Theorem C60_traits_expected_period : forall (F : Type) (A : Arith F),
  (forall c p os, elo_psys_expected_score c p os = elo_expected_score_rating_period p os) /\
  (forall c p os, fifa_psys_expected_score c p os = fifa_expected_score_rating_period p os) /\
  (forall p os, ingo_psys_expected_score tt p os = ingo_expected_score_rating_period p os) /\
  (forall c p os, uscf_psys_expected_score c p os = uscf_expected_score_rating_period p os) /\
  (forall c p os, egf_psys_expected_score c p os = egf_expected_score_rating_period p (map (fun o => (o, c)) os)) /\
  (forall p os, dwz_psys_expected_score tt p os = dwz_expected_score_rating_period p os) /\
  (forall c p os, glicko_psys_expected_score c p os = glicko_expected_score_rating_period p os) /\
  (forall c p os, glicko2_psys_expected_score c p os = glicko2_expected_score_rating_period p os) /\
  (forall c p os, sticko_psys_expected_score c p os = sticko_expected_score_rating_period p (map (fun o => (o, true)) os) c) /\
  (forall c p os, boost_psys_expected_score c p os = boost_expected_score_rating_period p (map (fun o => (o, true)) os) c) /\
  (forall c p os, wl_psys_expected_score c p os = wl_expected_score_rating_period p os c) /\
  (forall c p os, ts_psys_expected_score c p os = ts_expected_score_rating_period p os c).
Proof. exact C60_expected_period_proof. Qed.
Print Assumptions C60_traits_expected_period.
Theorem C60_traits_multi : forall (F : Type) (A : Arith F),
  (forall c ts, wl_msys_rate c ts = weng_lin_multi_team ts c) /\
  (forall c ts, ts_msys_rate c ts = trueskill_multi_team ts c None).
Proof. exact C60_multi_proof. Qed.
Print Assumptions C60_traits_multi.
Example C60_case : elo_sys_rate (mkEloConfig (Fin 32)) (mkElo (Fin 1000)) (mkElo (Fin 1200)) WIN
  = elo (mkElo (Fin 1000)) (mkElo (Fin 1200)) WIN (mkEloConfig (Fin 32)).
Proof. reflexivity. Qed.

(** C61: conversions. *)
Theorem C61_conversions_elo : forall r,
  elo_from_uscf (uscf_from_elo (mkElo (Fin r))) = mkElo (Fin r) /\
  elo_from_ingo (ingo_from_elo (mkElo (Fin r))) = mkElo (Fin r) /\
  elo_from_fifa (fifa_from_elo (mkElo (Fin r))) = mkElo (Fin r) /\
  elo_from_dwz (dwz_from_elo (mkElo (Fin r))) = mkElo (Fin r) /\
  (forall n, uscf_rating (uscf_from_elo (elo_from_uscf (mkUscf (Fin r) n))) = Fin r) /\
  (forall a, ingo_rating (ingo_from_elo (elo_from_ingo (mkIngo (Fin r) a))) = Fin r) /\
  fifa_from_elo (elo_from_fifa (mkFifa (Fin r))) = mkFifa (Fin r) /\
  (forall i a, dwz_rating (dwz_from_elo (elo_from_dwz (mkDwz (Fin r) i a))) = Fin r).
Proof. exact C61_elo_proof. Qed.
Print Assumptions C61_conversions_elo.
Theorem C61_conversions_formula : forall r,
  uscf_rating (uscf_from_elo (mkElo (Fin r))) = Fin (if Rle_dec r 2000 then 1.02 * r + 20 else 0.94 * r + 180) /\
  ingo_rating (ingo_from_elo (mkElo (Fin r))) = Fin ((2840 - r) / 8) /\
  fifa_rating (fifa_from_elo (mkElo (Fin r))) = Fin r /\ dwz_rating (dwz_from_elo (mkElo (Fin r))) = Fin r.
Proof. exact C61_formula_proof. Qed.
Print Assumptions C61_conversions_formula.
Theorem C61_conversions_mono : forall r r', r < r' -> exists u u' i i',
  uscf_rating (uscf_from_elo (mkElo (Fin r))) = Fin u /\ uscf_rating (uscf_from_elo (mkElo (Fin r'))) = Fin u' /\ u < u' /\
  ingo_rating (ingo_from_elo (mkElo (Fin r))) = Fin i /\ ingo_rating (ingo_from_elo (mkElo (Fin r'))) = Fin i' /\ i' < i.
Proof. exact C61_mono_proof. Qed.
Print Assumptions C61_conversions_mono.
Theorem C61_conversions_glicko : forall (F : Type) (A : Arith F),
  (forall g : GlickoRating F, glicko_from_glicko2 (glicko2_from_glicko g) = g /\ glicko_from_boost (boost_from_glicko g) = g /\
     glicko_from_sticko (sticko_from_glicko g) = g /\ g2_volatility (glicko2_from_glicko g) = g2_volatility glicko2_new) /\
  (forall s : StickoRating F, sticko_from_glicko (glicko_from_sticko s) = s /\ sticko_from_glicko2 (glicko2_from_sticko s) = s /\
     sticko_from_boost (boost_from_sticko s) = s) /\
  (forall b : GlickoBoostRating F, boost_from_glicko (glicko_from_boost b) = b /\ boost_from_glicko2 (glicko2_from_boost b) = b /\
     boost_from_sticko (sticko_from_boost b) = b) /\
  (forall g : Glicko2Rating F, glicko2_from_glicko (glicko_from_glicko2 g) = mkGlicko2 (g2_rating g) (g2_deviation g) (g2_volatility glicko2_new)) /\
  (forall w : WengLinRating F, wl_from_ts (ts_from_wl w) = w) /\ (forall t : TrueSkillRating F, ts_from_wl (wl_from_ts t) = t).
Proof. exact C61_glicko_proof. Qed.
Print Assumptions C61_conversions_glicko.
Theorem C61_conversions_fields : forall (F : Type) (A : Arith F) (r d v : F),
  let g := mkGlicko r d in let b := mkBoost r d in let s := mkSticko r d in let g2 := mkGlicko2 r d v in let g2' := mkGlicko2 r d (flit 6 100) in
  glicko_from_glicko2 g2 = g /\ glicko_from_boost b = g /\ glicko_from_sticko s = g /\
  glicko2_from_glicko g = g2' /\ glicko2_from_boost b = g2' /\ glicko2_from_sticko s = g2' /\
  sticko_from_glicko g = s /\ sticko_from_glicko2 g2 = s /\ sticko_from_boost b = s /\
  boost_from_glicko g = b /\ boost_from_glicko2 g2 = b /\ boost_from_sticko s = b /\
  wl_from_ts (mkTS r d) = mkWL r d /\ ts_from_wl (mkWL r d) = mkTS r d.
Proof. exact C61_fields_proof. Qed.
Print Assumptions C61_conversions_fields.
Example C61_case : 1999 < 2001. Proof. lra. Qed.

(** C62: player-swap symmetry. *)
Theorem C62_swap_reals : forall r1 r2 o,
  (forall k, swapped (fun p q o => elo p q o (mkEloConfig (Fin k))) (mkElo (Fin r1)) (mkElo (Fin r2)) o) /\
  (forall I ko, swapped (fun p q o => fifa p q o (mkFifaConfig (Fin I) ko false)) (mkFifa (Fin r1)) (mkFifa (Fin r2)) o) /\
  (forall a1 a2, swapped ingo (mkIngo (Fin r1) a1) (mkIngo (Fin r2) a2) o) /\
  (forall n1 n2 t, swapped (fun p q o => uscf p q o (mkUscfConfig (Fin t))) (mkUscf (Fin r1) n1) (mkUscf (Fin r2) n2) o) /\
  (forall i1 a1 i2 a2, (1 <= i1)%N -> (1 <= i2)%N -> swapped dwz (mkDwz (Fin r1) i1 a1) (mkDwz (Fin r2) i2 a2) o) /\
  (forall s1 s2 beta kappa, 0 < s1 -> 0 < s2 -> 0 <= kappa ->
     swapped (fun p q o => weng_lin p q o (mkWLConfig (Fin beta) (Fin kappa))) (wl_in (r1, s1)) (wl_in (r2, s2)) o).
Proof. exact C62_reals_proof. Qed.
Print Assumptions C62_swap_reals.
Theorem C62_swap_glicko : forall o,
  (forall c p q, swapped (fun p q o => glicko (F:=XR) p q o c) p q o) /\
  (forall n c p q p' q', glicko2 (F:=XR) n p q o c = Some (p', q') -> glicko2 n q p (invert o) c = Some (q', p')) /\
  (forall h b l c p q, swapped (fun p q o => sticko (F:=XR) p q o (mkStickoConfig h b l (Fin 0) c)) p q o) /\
  (forall k b0 b1 a0 a1 a2 a3 a4 p q, swapped (fun p q o => glicko_boost (F:=XR) p q o (mkBoostConfig (Fin 0) k b0 b1 a0 a1 a2 a3 a4)) p q o).
Proof. exact C62_glicko_proof. Qed.
Print Assumptions C62_swap_glicko.
Theorem C62_swap_ts_partial : forall m1 s1 m2 s2 o dp beta tau e, 0 < s1 -> 0 < s2 ->
  ts_draw_margin (Fin dp) (Fin beta) (Fin 2) = Fin e ->
  o <> DRAW \/ m1 <> m2 \/ tiny <= drawnorm 0 (e / sqrt (2 * beta ^ 2 + s1 ^ 2 + s2 ^ 2)) ->
  swapped (fun p q o => trueskill p q o (ts_cfg dp beta tau)) (ts_in (m1, s1)) (ts_in (m2, s2)) o.
Proof. exact C62_ts_proof. Qed.
Print Assumptions C62_swap_ts_partial.
Example C62_case : 0 < 25/3 /\ (1 <= 3)%N /\ WIN <> DRAW. Proof. split; [lra|]. split; [discriminate|discriminate]. Qed.

(** C63: rating-period expectations. *)
Theorem C63_expected_period : forall (F : Type) (A : Arith F),
  (forall p os, elo_expected_score_rating_period p os = map (fun q => fst (elo_expected_score p q)) os) /\
  (forall p os, fifa_expected_score_rating_period p os = map (fun q => fst (fifa_expected_score p q)) os) /\
  (forall p os, ingo_expected_score_rating_period p os = map (fun q => fst (ingo_expected_score p q)) os) /\
  (forall p os, uscf_expected_score_rating_period p os = map (fun q => fst (uscf_expected_score p q)) os) /\
  (forall p os, egf_expected_score_rating_period p os = map (fun q => fst (egf_expected_score p (fst q) (snd q))) os) /\
  (forall p os, dwz_expected_score_rating_period p os = map (fun q => fst (dwz_expected_score p q)) os) /\
  (forall p os, glicko_expected_score_rating_period p os = map (fun q => fst (glicko_expected_score p q)) os) /\
  (forall c p os, sticko_psys_expected_score c p os = map (fun q => fst (sticko_sys_expected_score c p q)) os) /\
  (forall c p os, boost_psys_expected_score c p os = map (fun q => fst (boost_sys_expected_score c p q)) os) /\
  (forall c p os, wl_expected_score_rating_period p os c = map (fun q => fst (wl_expected_score p q c)) os) /\
  (forall c p os, ts_expected_score_rating_period p os c = map (fun q => fst (ts_expected_score p q c)) os).
Proof. exact C63_proof. Qed.
Print Assumptions C63_expected_period.
Theorem C63_expected_period_glicko2 : forall (p : Glicko2Rating XR) os,
  glicko2_expected_score_rating_period p os = map (fun q => fst (glicko2_expected_score p q)) os.
Proof. exact C63_glicko2_proof. Qed.
Print Assumptions C63_expected_period_glicko2.
Example C63_case : length (elo_expected_score_rating_period (mkElo (Fin 1000)) [mkElo (Fin 900); mkElo (Fin 1200)]) = 2%nat.
Proof. reflexivity. Qed.

(** C64: generic constructor and accessors. *)
Theorem C64_rating_read : forall (F : Type) (A : Arith F) (r u : F),
  (elo_rating_get (elo_rating_new (Some r) (Some u)) = r /\ elo_uncertainty_get (elo_rating_new (Some r) (Some u)) = None) /\
  (fifa_rating_get (fifa_rating_new (Some r) (Some u)) = r /\ fifa_uncertainty_get (fifa_rating_new (Some r) (Some u)) = None) /\
  (ingo_rating_get (ingo_rating_new (Some r) (Some u)) = r /\ ingo_uncertainty_get (ingo_rating_new (Some r) (Some u)) = None) /\
  (uscf_rating_get (uscf_rating_new (Some r) (Some u)) = r /\ uscf_uncertainty_get (uscf_rating_new (Some r) (Some u)) = None) /\
  (egf_rating_get (egf_rating_new (Some r) (Some u)) = r /\ egf_uncertainty_get (egf_rating_new (Some r) (Some u)) = None) /\
  (dwz_rating_get (dwz_rating_new (Some r) (Some u)) = r /\ dwz_uncertainty_get (dwz_rating_new (Some r) (Some u)) = None) /\
  (glicko_rating_get (glicko_rating_new (Some r) (Some u)) = r /\ glicko_uncertainty_get (glicko_rating_new (Some r) (Some u)) = Some u) /\
  (sticko_rating_get (sticko_rating_new (Some r) (Some u)) = r /\ sticko_uncertainty_get (sticko_rating_new (Some r) (Some u)) = Some u) /\
  (boost_rating_get (boost_rating_new (Some r) (Some u)) = r /\ boost_uncertainty_get (boost_rating_new (Some r) (Some u)) = Some u) /\
  (glicko2_rating_get (glicko2_rating_new (Some r) (Some u)) = r /\ glicko2_uncertainty_get (glicko2_rating_new (Some r) (Some u)) = Some u) /\
  (wl_rating_get (wl_rating_new (Some r) (Some u)) = r /\ wl_uncertainty_get (wl_rating_new (Some r) (Some u)) = Some u) /\
  (ts_rating_get (ts_rating_new (Some r) (Some u)) = r /\ ts_uncertainty_get (ts_rating_new (Some r) (Some u)) = Some u).
Proof. exact C64_read_proof. Qed.
Print Assumptions C64_rating_read.
Theorem C64_rating_default :
  elo_rating_new (F:=XR) None None = mkElo (Fin 1000) /\ elo_rating_new (F:=XR) None None = elo_new /\
  fifa_rating_new (F:=XR) None None = mkFifa (Fin 1000) /\ fifa_rating_new (F:=XR) None None = fifa_new /\
  ingo_rating_new (F:=XR) None None = mkIngo (Fin 230) 26 /\ ingo_rating_new (F:=XR) None None = ingo_default /\
  uscf_rating_new (F:=XR) None None = mkUscf (Fin 1300) 0 /\ uscf_rating_new (F:=XR) None None = uscf_default /\
  egf_rating_new (F:=XR) None None = mkEgf (Fin 0) /\ egf_rating_new (F:=XR) None None = egf_new /\
  dwz_rating_new (F:=XR) None None = mkDwz (Fin 1000) 1 26 /\ dwz_rating_new (F:=XR) None None = dwz_default /\
  glicko_rating_new (F:=XR) None None = mkGlicko (Fin 1500) (Fin 350) /\ glicko_rating_new (F:=XR) None None = glicko_new /\
  sticko_rating_new (F:=XR) None None = mkSticko (Fin 1500) (Fin 350) /\ sticko_rating_new (F:=XR) None None = sticko_new /\
  boost_rating_new (F:=XR) None None = mkBoost (Fin 1500) (Fin 350) /\ boost_rating_new (F:=XR) None None = boost_new /\
  glicko2_rating_new (F:=XR) None None = mkGlicko2 (Fin 1500) (Fin 350) (Fin (6 / 100)) /\ glicko2_rating_new (F:=XR) None None = glicko2_new /\
  wl_rating_new (F:=XR) None None = mkWL (Fin 25) (Fin (25 / 3)) /\ wl_rating_new (F:=XR) None None = wl_new /\
  ts_rating_new (F:=XR) None None = mkTS (Fin 25) (Fin (25 / 3)) /\ ts_rating_new (F:=XR) None None = ts_new.
Proof. exact C64_default_proof. Qed.
Print Assumptions C64_rating_default.
Example C64_case : glicko_rating_get (glicko_rating_new (Some (Fin 7)) None) = Fin 7. Proof. reflexivity. Qed.

(** C65: outcomes and ranks. *)
Theorem C65_outcomes : forall o (m : MultiTeamOutcome) a b,
  to_chess_points (F:=XR) o = Fin (match o with WIN => 1 | DRAW => 1 / 2 | LOSS => 0 end) /\
  to_chess_points (invert o) = (#1 - to_chess_points (F:=XR) o)%flt /\
  mto_from_usize (usize_from_mto m) = m /\ usize_from_mto (mto_from_usize a) = a /\ mto_rank (mto_new a) = a /\
  mto_cmp (mto_new a) (mto_new b) = N.compare a b /\
  (mto_new a = mto_new b <-> a = b).
Proof. exact C65_proof. Qed.
Print Assumptions C65_outcomes.
Example C65_case : mto_cmp (mto_new 1) (mto_new 2) = Lt /\ invert WIN = LOSS. Proof. split; reflexivity. Qed.

(** C80: documented default configurations. *)
Theorem C80_default_configs :
  elo_config_new = mkEloConfig (Fin 32) /\ fifa_config_new = mkFifaConfig (Fin 10) false false /\
  uscf_config_new = mkUscfConfig (Fin 14) /\ egf_config_new = mkEgfConfig (Fin 0) /\
  glicko_config_new = mkGlickoConfig (Fin 63.2) /\ glicko2_config_new = mkGlicko2Config (Fin 0.5) (Fin 0.000001) /\
  sticko_config_new = mkStickoConfig (Fin 10) (Fin 0) (Fin 2) (Fin 0) (Fin 10) /\
  boost_config_new = mkBoostConfig (Fin 30) (Fin 1.96) (Fin 0.20139) (Fin 17.5)
    (Fin 5.83733) (Fin (- 1.75374 / 10 ^ 4)) (Fin (- 7.080124 / 10 ^ 5)) (Fin 0.001733792) (Fin 0.00026706) /\
  wl_config_new = mkWLConfig (Fin (25 / 6)) (Fin 0.000001) /\
  ts_config_new = mkTSConfig (Fin 0.1) (Fin (25 / 3 * 0.5)) (Fin (25 / 300)).
Proof. exact C80_proof. Qed.
Print Assumptions C80_default_configs.

(** C81: constructors. *)
Theorem C81_from_tuples : forall (F : Type) (A : Arith F) (r d v : F) (i a : N),
  elo_rating (elo_from_f64 r) = r /\ fifa_rating (fifa_from_f64 r) = r /\ egf_rating (egf_from_f64 r) = r /\
  (ingo_rating (ingo_from_f64 r) = r /\ ingo_age (ingo_from_f64 r) = 26%N) /\
  (ingo_rating (ingo_from_pair (r, a)) = r /\ ingo_age (ingo_from_pair (r, a)) = a) /\
  (uscf_rating (uscf_from_pair (r, a)) = r /\ uscf_games (uscf_from_pair (r, a)) = a) /\
  (dwz_rating (dwz_from_triple r i a) = r /\ dwz_index (dwz_from_triple r i a) = i /\ dwz_age (dwz_from_triple r i a) = a) /\
  (dwz_rating (dwz_from_pair r i) = r /\ dwz_index (dwz_from_pair r i) = i /\ dwz_age (dwz_from_pair r i) = 26%N) /\
  (gl_rating (glicko_from_pair (r, d)) = r /\ gl_deviation (glicko_from_pair (r, d)) = d) /\
  (st_rating (sticko_from_pair (r, d)) = r /\ st_deviation (sticko_from_pair (r, d)) = d) /\
  (gb_rating (boost_from_pair (r, d)) = r /\ gb_deviation (boost_from_pair (r, d)) = d) /\
  (g2_rating (glicko2_from_triple r d v) = r /\ g2_deviation (glicko2_from_triple r d v) = d /\ g2_volatility (glicko2_from_triple r d v) = v) /\
  (wl_rating (wl_from_pair (r, d)) = r /\ wl_uncertainty (wl_from_pair (r, d)) = d) /\
  (ts_rating (ts_from_pair (r, d)) = r /\ ts_uncertainty (ts_from_pair (r, d)) = d).
Proof. exact C81_proof. Qed.
Print Assumptions C81_from_tuples.
Theorem C81_from_age : forall a,
  ingo_new (F:=XR) a = mkIngo (Fin 230) a /\ dwz_new (F:=XR) a = mkDwz (Fin 1000) 1 a /\
  uscf_new (F:=XR) a = mkUscf (Fin (if (a <? 2)%N then 100 else if (a <=? 26)%N then 50 * IZR (Z.of_N a) else 1300)) 0.
Proof. exact C81_age_proof. Qed.
Print Assumptions C81_from_age.
Example C81_case : uscf_new (F:=XR) 20 = mkUscf (Fin (50 * 20)) 0. Proof. exact (proj2 (proj2 (C81_age_proof 20))). Qed.
