(** Comparing two games: stronger opponents, higher-rated players, and the boost. *)
From Coq Require Import ZArith NArith List Bool Reals Lra Lia.
From Verif Require Import Arith XR ModelLib ModelElo ModelFifa ModelIngo ModelUscf ModelEgf ModelDwz ModelGlicko ModelSticko
  ModelBoost ModelWengLin Spec ProofGlicko ProofBoost2 ProofOrder ProofOrder2.
Import ListNotations.
Local Open Scope R_scope.

(** C94: the same result against a stronger opponent is worth more. *)
Theorem C94_stronger_elo : forall r r2 r2' o k, 0 < k -> r2 < r2' -> exists a b,
  elo_rating (fst (elo (mkElo (Fin r)) (mkElo (Fin r2)) o (mkEloConfig (Fin k)))) = Fin a /\
  elo_rating (fst (elo (mkElo (Fin r)) (mkElo (Fin r2')) o (mkEloConfig (Fin k)))) = Fin b /\ a < b.
Proof. exact C94_elo_proof. Qed.
Print Assumptions C94_stronger_elo.
Theorem C94_stronger_fifa : forall r r2 r2' o I pen ko, 0 < I -> r2 < r2' -> exists a b,
  fifa_rating (fst (fifa (mkFifa (Fin r)) (mkFifa (Fin r2)) o (mkFifaConfig (Fin I) ko pen))) = Fin a /\
  fifa_rating (fst (fifa (mkFifa (Fin r)) (mkFifa (Fin r2')) o (mkFifaConfig (Fin I) ko pen))) = Fin b /\ a <= b /\ (ko = false -> a < b).
Proof. exact C94_fifa_proof. Qed.
Print Assumptions C94_stronger_fifa.
Theorem C94_stronger_ingo : forall r a r2 r2' a2 o, r2' < r2 -> exists x y,
  ingo_rating (fst (ingo (mkIngo (Fin r) a) (mkIngo (Fin r2) a2) o)) = Fin x /\
  ingo_rating (fst (ingo (mkIngo (Fin r) a) (mkIngo (Fin r2') a2) o)) = Fin y /\ y < x.
Proof. exact C94_ingo_proof. Qed.
Print Assumptions C94_stronger_ingo.
Theorem C94_stronger_uscf : forall r n r2 r2' n2 o t, r2 < r2' -> exists a b,
  uscf_rating (fst (uscf (mkUscf (Fin r) n) (mkUscf (Fin r2) n2) o (mkUscfConfig (Fin t)))) = Fin a /\
  uscf_rating (fst (uscf (mkUscf (Fin r) n) (mkUscf (Fin r2') n2) o (mkUscfConfig (Fin t)))) = Fin b /\ a <= b /\ (100 < b -> a < b).
Proof. exact C94_uscf_proof. Qed.
Print Assumptions C94_stronger_uscf.
Theorem C94_stronger_egf : forall r r2 r2' o H, r < 3300 -> r2 < r2' -> r2' < 3300 -> egf_adj (egf_h1 H) r < 3300 -> egf_adj (egf_h2 H) r2' < 3300 -> exists a b,
  egf_rating (fst (egf (mkEgf (Fin r)) (mkEgf (Fin r2)) o (mkEgfConfig (Fin H)))) = Fin a /\
  egf_rating (fst (egf (mkEgf (Fin r)) (mkEgf (Fin r2')) o (mkEgfConfig (Fin H)))) = Fin b /\ a <= b /\ (-900 < b -> a < b).
Proof. exact C94_egf_proof. Qed.
Print Assumptions C94_stronger_egf.
Theorem C94_stronger_dwz : forall r i a r2 r2' i2 a2 o, (1 <= i)%N -> (1 <= i2)%N -> r2 < r2' -> exists x y,
  dwz_rating (fst (dwz (mkDwz (Fin r) i a) (mkDwz (Fin r2) i2 a2) o)) = Fin x /\
  dwz_rating (fst (dwz (mkDwz (Fin r) i a) (mkDwz (Fin r2') i2 a2) o)) = Fin y /\ x < y.
Proof. exact C94_dwz_proof. Qed.
Print Assumptions C94_stronger_dwz.
Theorem C94_stronger_glicko : forall r RD r2 r2' RD2 o c, 0 < RD -> 0 < RD2 -> r2 < r2' -> exists a b,
  gl_rating (fst (glicko (mkGlicko (Fin r) (Fin RD)) (mkGlicko (Fin r2) (Fin RD2)) o (mkGlickoConfig (Fin c)))) = Fin a /\
  gl_rating (fst (glicko (mkGlicko (Fin r) (Fin RD)) (mkGlicko (Fin r2') (Fin RD2)) o (mkGlickoConfig (Fin c)))) = Fin b /\ a < b.
Proof. exact C94_glicko_proof. Qed.
Print Assumptions C94_stronger_glicko.
Theorem C94_stronger_sticko : forall r RD r2 r2' RD2 o h beta lambda gamma c, 0 < RD -> 0 < RD2 -> 0 <= h -> Rabs beta <= 0.24 -> 0 <= lambda -> r2 < r2' -> exists a b,
  let cfg := mkStickoConfig (Fin h) (Fin beta) (Fin lambda) (Fin gamma) (Fin c) in
  st_rating (fst (sticko (mkSticko (Fin r) (Fin RD)) (mkSticko (Fin r2) (Fin RD2)) o cfg)) = Fin a /\
  st_rating (fst (sticko (mkSticko (Fin r) (Fin RD)) (mkSticko (Fin r2') (Fin RD2)) o cfg)) = Fin b /\ a < b.
Proof. exact C94_sticko_proof. Qed.
Print Assumptions C94_stronger_sticko.
Theorem C94_stronger_weng_lin : forall m s m2 m2' s2 o beta kappa, 0 < s -> 0 < s2 -> 0 < kappa <= 1 -> m2 < m2' -> exists a b,
  wl_rating (fst (weng_lin (mkWL (Fin m) (Fin s)) (mkWL (Fin m2) (Fin s2)) o (mkWLConfig (Fin beta) (Fin kappa)))) = Fin a /\
  wl_rating (fst (weng_lin (mkWL (Fin m) (Fin s)) (mkWL (Fin m2') (Fin s2)) o (mkWLConfig (Fin beta) (Fin kappa)))) = Fin b /\ a < b.
Proof. exact C94_wl_proof. Qed.
Print Assumptions C94_stronger_weng_lin.
Theorem C94_stronger_boost_refuted : exists r RD r2 r2' RD2 a b, r2 < r2' /\
  gb_rating (fst (glicko_boost (mkBoost (Fin r) (Fin RD)) (mkBoost (Fin r2) (Fin RD2)) WIN boost_config_new)) = Fin a /\
  gb_rating (fst (glicko_boost (mkBoost (Fin r) (Fin RD)) (mkBoost (Fin r2') (Fin RD2)) WIN boost_config_new)) = Fin b /\ b < a.
Proof. exact C94_boost_refuted_proof. Qed.
Print Assumptions C94_stronger_boost_refuted.
(* EGF with four stones for player two; Sticko and Weng-Lin near their defaults. *)
Example C94_case : egf_adj (egf_h1 4) 2000 < 3300 /\ egf_adj (egf_h2 4) 1600 < 3300 /\ Rabs 0 <= 0.24 /\ 0 <= 2 /\ 0 < 0.000001 <= 1 /\ (1 <= 2)%N.
Proof.
  unfold egf_adj, egf_h1, egf_h2. destruct (Rlt_dec 4 0); [lra|]. destruct (Rlt_dec 0 4); [|lra]. destruct (Req_EM_T 0 0), (Req_EM_T 4 0); rewrite ?Rabs_R0; repeat split; try lra; lia.
Qed.

(** C95: the same result against the same opponent keeps two players in order. *)
Theorem C95_order_elo : forall r r' r2 o k, 0 <= k -> k * ln 10 < 1600 -> r' < r -> exists a b,
  elo_rating (fst (elo (mkElo (Fin r')) (mkElo (Fin r2)) o (mkEloConfig (Fin k)))) = Fin a /\
  elo_rating (fst (elo (mkElo (Fin r)) (mkElo (Fin r2)) o (mkEloConfig (Fin k)))) = Fin b /\ a < b.
Proof. exact C95_elo_proof. Qed.
Print Assumptions C95_order_elo.
Theorem C95_order_elo_refuted : forall k o, 1600 < k * ln 10 -> exists r r' r2 a b, r' < r /\
  elo_rating (fst (elo (mkElo (Fin r')) (mkElo (Fin r2)) o (mkEloConfig (Fin k)))) = Fin a /\
  elo_rating (fst (elo (mkElo (Fin r)) (mkElo (Fin r2)) o (mkEloConfig (Fin k)))) = Fin b /\ b < a.
Proof. exact C95_elo_refuted_proof. Qed.
Print Assumptions C95_order_elo_refuted.
Theorem C95_order_fifa : forall r r' r2 o I pen ko, 0 <= I -> I * ln 10 < 2400 -> r' < r -> exists a b,
  fifa_rating (fst (fifa (mkFifa (Fin r')) (mkFifa (Fin r2)) o (mkFifaConfig (Fin I) ko pen))) = Fin a /\
  fifa_rating (fst (fifa (mkFifa (Fin r)) (mkFifa (Fin r2)) o (mkFifaConfig (Fin I) ko pen))) = Fin b /\ a < b.
Proof. exact C95_fifa_proof. Qed.
Print Assumptions C95_order_fifa.
Theorem C95_order_fifa_refuted : forall I o pen, 2400 < I * ln 10 -> exists r r' r2 a b, r' < r /\
  fifa_rating (fst (fifa (mkFifa (Fin r')) (mkFifa (Fin r2)) o (mkFifaConfig (Fin I) false pen))) = Fin a /\
  fifa_rating (fst (fifa (mkFifa (Fin r)) (mkFifa (Fin r2)) o (mkFifaConfig (Fin I) false pen))) = Fin b /\ b < a.
Proof. exact C95_fifa_refuted_proof. Qed.
Print Assumptions C95_order_fifa_refuted.
Theorem C95_order_ingo : forall r r' a r2 a2 o, r' < r -> exists x y,
  ingo_rating (fst (ingo (mkIngo (Fin r') a) (mkIngo (Fin r2) a2) o)) = Fin x /\
  ingo_rating (fst (ingo (mkIngo (Fin r) a) (mkIngo (Fin r2) a2) o)) = Fin y /\ x < y.
Proof. exact C95_ingo_proof. Qed.
Print Assumptions C95_order_ingo.
Theorem C95_order_uscf_partial : forall r r' n r2 n2 o t, (1 <= n <= 8)%N -> r' < r -> exists a b,
  uscf_rating (fst (uscf (mkUscf (Fin r') n) (mkUscf (Fin r2) n2) o (mkUscfConfig (Fin t)))) = Fin a /\
  uscf_rating (fst (uscf (mkUscf (Fin r) n) (mkUscf (Fin r2) n2) o (mkUscfConfig (Fin t)))) = Fin b /\ a <= b /\ (100 < b -> a < b).
Proof. exact C95_uscf_proof. Qed.
Print Assumptions C95_order_uscf_partial.
Theorem C95_order_uscf_refuted : exists r r' n r2 n2 t a b, r' < r /\
  uscf_rating (fst (uscf (mkUscf (Fin r') n) (mkUscf (Fin r2) n2) WIN (mkUscfConfig (Fin t)))) = Fin a /\
  uscf_rating (fst (uscf (mkUscf (Fin r) n) (mkUscf (Fin r2) n2) WIN (mkUscfConfig (Fin t)))) = Fin b /\ b < a.
Proof. exact C95_uscf_refuted_proof. Qed.
Print Assumptions C95_order_uscf_refuted.
Theorem C95_order_egf : forall r r' r2 o, -900 <= r' -> r' < r -> r < 3300 -> r2 < 3300 -> exists a b,
  egf_rating (fst (egf (mkEgf (Fin r')) (mkEgf (Fin r2)) o (mkEgfConfig (Fin 0)))) = Fin a /\
  egf_rating (fst (egf (mkEgf (Fin r)) (mkEgf (Fin r2)) o (mkEgfConfig (Fin 0)))) = Fin b /\ a <= b /\ (-900 < b -> a < b).
Proof. exact C95_egf_proof. Qed.
Print Assumptions C95_order_egf.
Theorem C95_order_glicko : forall r r' RD r2 RD2 o c, 0 < RD -> 0 < RD2 -> r' < r -> exists a b,
  gl_rating (fst (glicko (mkGlicko (Fin r') (Fin RD)) (mkGlicko (Fin r2) (Fin RD2)) o (mkGlickoConfig (Fin c)))) = Fin a /\
  gl_rating (fst (glicko (mkGlicko (Fin r) (Fin RD)) (mkGlicko (Fin r2) (Fin RD2)) o (mkGlickoConfig (Fin c)))) = Fin b /\ a < b.
Proof. exact C95_glicko_proof. Qed.
Print Assumptions C95_order_glicko.
Theorem C95_order_weng_lin : forall m m' s m2 s2 o beta kappa, 0 < s -> 0 < s2 -> 0 < kappa <= 1 -> m' < m -> exists a b,
  wl_rating (fst (weng_lin (mkWL (Fin m') (Fin s)) (mkWL (Fin m2) (Fin s2)) o (mkWLConfig (Fin beta) (Fin kappa)))) = Fin a /\
  wl_rating (fst (weng_lin (mkWL (Fin m) (Fin s)) (mkWL (Fin m2) (Fin s2)) o (mkWLConfig (Fin beta) (Fin kappa)))) = Fin b /\ a < b.
Proof. exact C95_wl_proof. Qed.
Print Assumptions C95_order_weng_lin.
(* k = 32 and the largest FIFA importance 60 are far below the bounds, k = 700 is above. *)
Example C95_case : 32 * ln 10 < 1600 /\ 60 * ln 10 < 2400 /\ 1600 < 700 * ln 10 /\ 2400 < 1050 * ln 10 /\ -900 <= 1500 < 3300.
Proof. pose proof ln10_close. lra. Qed.

(** C96: the boost of exceptional performances. *)
Theorem C96_boost_helps_partial : forall r RD r2 RD2 o c0, 0 < RD <= 160 -> 0 < RD2 ->
  c0 = mkBoostConfig (gb_eta boost_config_new) (Fin 0) (gb_b0 boost_config_new) (gb_b1 boost_config_new) (gb_alpha0 boost_config_new) (gb_alpha1 boost_config_new) (gb_alpha2 boost_config_new) (gb_alpha3 boost_config_new) (gb_alpha4 boost_config_new) ->
  exists a b,
  gb_rating (fst (glicko_boost (mkBoost (Fin r) (Fin RD)) (mkBoost (Fin r2) (Fin RD2)) o c0)) = Fin a /\
  gb_rating (fst (glicko_boost (mkBoost (Fin r) (Fin RD)) (mkBoost (Fin r2) (Fin RD2)) o boost_config_new)) = Fin b /\ a <= b.
Proof. exact C96_helps_proof. Qed.
Print Assumptions C96_boost_helps_partial.
Theorem C96_boost_refuted : forall r r2 RD2 c0, 0 < RD2 <= 350 ->
  c0 = mkBoostConfig (gb_eta boost_config_new) (Fin 0) (gb_b0 boost_config_new) (gb_b1 boost_config_new) (gb_alpha0 boost_config_new) (gb_alpha1 boost_config_new) (gb_alpha2 boost_config_new) (gb_alpha3 boost_config_new) (gb_alpha4 boost_config_new) ->
  18 / 100 <= gE r (r2 - 30) RD2 < / (1 + (196 / 100) ^ 2) ->
  exists a b,
  gb_rating (fst (glicko_boost (mkBoost (Fin r) (Fin 350)) (mkBoost (Fin r2) (Fin RD2)) WIN c0)) = Fin a /\
  gb_rating (fst (glicko_boost (mkBoost (Fin r) (Fin 350)) (mkBoost (Fin r2) (Fin RD2)) WIN boost_config_new)) = Fin b /\ b < a.
Proof. exact C96_refuted_proof. Qed.
Print Assumptions C96_boost_refuted.
(* A fresh player, rated 1500, beats one rated 1770 with deviation 30. *)
Example C96_case : 18 / 100 <= gE 1500 (1770 - 30) 30 < / (1 + (196 / 100) ^ 2).
Proof.
  assert (G : 99 / 100 <= gg 30). { pose proof (gg_range 30). assert (99 / 100 <= gg 30 ^ 2) by (apply gg_sq_lo; lra). nra. }
  pose proof exp_3. pose proof exp_4.
  pose proof (gE_bounds 1500 (1770 - 30) 30 (1366 / 1000) (1382 / 1000) (38417 / 10000) 4 ltac:(lra) G ltac:(lra) ltac:(lra) ltac:(lra) ltac:(lra) ltac:(lra) ltac:(lra)). lra.
Qed.
