(** Property theorems: results against opponents whose rating is less certain (C134). *)
From Coq Require Import ZArith NArith List Bool Reals Lra Lia.
From Verif Require Import Arith XR ModelLib ModelGlicko ModelSticko ModelBoost ModelWengLin ModelTS
  Spec SpecTS SpecInTS ProofGlicko ProofTS ProofUncertain ProofWhoB.
Import Spec ListNotations.
Local Open Scope R_scope.

(** C134: for the player who is not the favourite a win (or a draw) against an opponent
    whose rating is less certain brings less, but it brings something; and likewise
    for the losses of the player who is not the underdog. *)
Theorem C134_uncertain_glicko : forall r RD r2 RD2 RD2' c o, 0 < RD -> RD ^ 2 + c ^ 2 <= 347 ^ 2 -> 0 < RD2 < RD2' -> exists x x',
  gl_rating (fst (glicko (mkGlicko (Fin r) (Fin RD)) (mkGlicko (Fin r2) (Fin RD2)) o (mkGlickoConfig (Fin c)))) = Fin x /\
  gl_rating (fst (glicko (mkGlicko (Fin r) (Fin RD)) (mkGlicko (Fin r2) (Fin RD2')) o (mkGlickoConfig (Fin c)))) = Fin x' /\
  (r <= r2 -> o = WIN \/ (o = DRAW /\ r < r2) -> r < x' < x) /\ (r2 <= r -> o = LOSS \/ (o = DRAW /\ r2 < r) -> x < x' < r).
Proof. exact C134_glicko_proof. Qed.
Print Assumptions C134_uncertain_glicko.
Theorem C134_uncertain_sticko : forall r RD r2 RD2 RD2' h lambda c o, 0 < RD -> RD ^ 2 + c ^ 2 <= 347 ^ 2 -> 0 < RD2 < RD2' -> 0 <= h -> exists x x',
  st_rating (fst (sticko (mkSticko (Fin r) (Fin RD)) (mkSticko (Fin r2) (Fin RD2)) o (mkStickoConfig (Fin h) (Fin 0) (Fin lambda) (Fin 0) (Fin c)))) = Fin x /\
  st_rating (fst (sticko (mkSticko (Fin r) (Fin RD)) (mkSticko (Fin r2) (Fin RD2')) o (mkStickoConfig (Fin h) (Fin 0) (Fin lambda) (Fin 0) (Fin c)))) = Fin x' /\
  (r <= r2 -> o = WIN \/ (o = DRAW /\ r < r2) -> x' < x) /\ (r2 <= r -> o = LOSS \/ (o = DRAW /\ r2 < r) -> x < x').
Proof. exact C134_sticko_proof. Qed.
Print Assumptions C134_uncertain_sticko.
(** Glicko-Boost, unless the win against the more certain opponent is boosted. *)
Theorem C134_uncertain_boost : forall r RD r2 RD2 RD2' o c, 0 < RD <= 347 -> 0 < RD2 < RD2' -> 0 <= bc_k c -> 0 <= bc_b0 c -> 0 <= bc_b1 c -> exists x x',
  let cfg := mkBoostConfig (Fin (bc_eta c)) (Fin (bc_k c)) (Fin (bc_b0 c)) (Fin (bc_b1 c)) (Fin (bc_a0 c)) (Fin (bc_a1 c)) (Fin (bc_a2 c)) (Fin (bc_a3 c)) (Fin (bc_a4 c)) in
  let rj := r2 - bc_eta c in
  gb_rating (fst (glicko_boost (mkBoost (Fin r) (Fin RD)) (mkBoost (Fin r2) (Fin RD2)) o cfg)) = Fin x /\
  gb_rating (fst (glicko_boost (mkBoost (Fin r) (Fin RD)) (mkBoost (Fin r2) (Fin RD2')) o cfg)) = Fin x' /\
  (r <= rj -> bc_k c = 0 \/ / (1 + bc_k c ^ 2) <= gE r rj RD2 -> o = WIN \/ (o = DRAW /\ r < rj) -> r < x' < x) /\
  (rj <= r -> o = LOSS \/ (o = DRAW /\ rj < r) -> x < x' < r).
Proof. exact C134_boost_proof. Qed.
Print Assumptions C134_uncertain_boost.
Theorem C134_uncertain_weng_lin : forall m s m2 s2 s2' beta kappa o, 0 < s -> 0 < s2 < s2' -> 0 < kappa <= 1 -> exists x x',
  wl_rating (fst (weng_lin (mkWL (Fin m) (Fin s)) (mkWL (Fin m2) (Fin s2)) o (mkWLConfig (Fin beta) (Fin kappa)))) = Fin x /\
  wl_rating (fst (weng_lin (mkWL (Fin m) (Fin s)) (mkWL (Fin m2) (Fin s2')) o (mkWLConfig (Fin beta) (Fin kappa)))) = Fin x' /\
  (m <= m2 -> o = WIN \/ (o = DRAW /\ m < m2) -> m < x' < x) /\ (m2 <= m -> o = LOSS \/ (o = DRAW /\ m2 < m) -> x < x' < m).
Proof. exact C134_wl_proof. Qed.
Print Assumptions C134_uncertain_weng_lin.
Theorem C134_uncertain_trueskill_partial : forall m s m2 s2 s2' dp beta tau e o, 0 < s -> 0 < s2 < s2' -> 0 <= dp <= 1 -> 0 <= beta -> ts_draw_margin (Fin dp) (Fin beta) (Fin 2) = Fin e -> Rabs (m2 - m) + e <= 26 * sqrt (2 * beta ^ 2 + s ^ 2 + s2 ^ 2) -> exists x x',
  ts_rating (fst (trueskill (ts_in (m, s)) (ts_in (m2, s2)) o (ts_cfg dp beta tau))) = Fin x /\
  ts_rating (fst (trueskill (ts_in (m, s)) (ts_in (m2, s2')) o (ts_cfg dp beta tau))) = Fin x' /\
  (m <= m2 -> o = WIN -> m < x' < x) /\ (m2 <= m -> o = LOSS -> x < x' < m).
Proof. exact C134_ts_proof. Qed.
Print Assumptions C134_uncertain_trueskill_partial.
(** A player with RD 350 gains more from an equal with RD 30 than from one with RD 1. *)
Theorem C134_fresh_glicko_refuted : forall r c, exists x x',
  gl_rating (fst (glicko (mkGlicko (Fin r) (Fin 350)) (mkGlicko (Fin r) (Fin 1)) WIN (mkGlickoConfig (Fin c)))) = Fin x /\
  gl_rating (fst (glicko (mkGlicko (Fin r) (Fin 350)) (mkGlicko (Fin r) (Fin 30)) WIN (mkGlickoConfig (Fin c)))) = Fin x' /\ r < x < x'.
Proof. exact C134_glicko_fresh_refuted_proof. Qed.
Print Assumptions C134_fresh_glicko_refuted.
(** A favourite can gain more by beating the opponent whose rating is less certain. *)
Theorem C134_favourite_glicko_refuted : forall r RD RD2 RD2' c, 0 < RD -> 0 < RD2 < RD2' -> exists r2 x x', r2 < r /\
  gl_rating (fst (glicko (mkGlicko (Fin r) (Fin RD)) (mkGlicko (Fin r2) (Fin RD2)) WIN (mkGlickoConfig (Fin c)))) = Fin x /\
  gl_rating (fst (glicko (mkGlicko (Fin r) (Fin RD)) (mkGlicko (Fin r2) (Fin RD2')) WIN (mkGlickoConfig (Fin c)))) = Fin x' /\ r < x < x'.
Proof. exact C134_glicko_favourite_refuted_proof. Qed.
Print Assumptions C134_favourite_glicko_refuted.
Theorem C134_favourite_weng_lin_refuted : forall m s s2 s2' beta kappa, 0 < s -> 0 < s2 < s2' -> 0 < kappa <= 1 -> exists m2 x x', m2 < m /\
  wl_rating (fst (weng_lin (mkWL (Fin m) (Fin s)) (mkWL (Fin m2) (Fin s2)) WIN (mkWLConfig (Fin beta) (Fin kappa)))) = Fin x /\
  wl_rating (fst (weng_lin (mkWL (Fin m) (Fin s)) (mkWL (Fin m2) (Fin s2')) WIN (mkWLConfig (Fin beta) (Fin kappa)))) = Fin x' /\ m < x < x'.
Proof. exact C134_wl_refuted_proof. Qed.
Print Assumptions C134_favourite_weng_lin_refuted.

(* RD 200 with c = 63.2 stays below the bound. *)
Example C134_glicko_case : 0 < 200 /\ 200 ^ 2 + 63.2 ^ 2 <= 347 ^ 2 /\ 0 < 50 < 200 /\ 1500 <= 1600. Proof. lra. Qed.
Example C134_sticko_case : 0 < 150 /\ 150 ^ 2 + 10 ^ 2 <= 347 ^ 2 /\ 0 < 30 < 350 /\ 0 <= 10. Proof. lra. Qed.
Example C134_weng_lin_case : exists x x',
  wl_rating (fst (weng_lin (mkWL (Fin 20) (Fin (25 / 3))) (mkWL (Fin 25) (Fin 1)) WIN (mkWLConfig (Fin (25 / 6)) (Fin 0.000001)))) = Fin x /\
  wl_rating (fst (weng_lin (mkWL (Fin 20) (Fin (25 / 3))) (mkWL (Fin 25) (Fin 6)) WIN (mkWLConfig (Fin (25 / 6)) (Fin 0.000001)))) = Fin x' /\ 20 < x' < x.
Proof. destruct (C134_uncertain_weng_lin 20 (25 / 3) 25 1 6 (25 / 6) 0.000001 WIN) as (x & x' & E & E' & A & _); try lra. exists x, x'. repeat split; auto; apply A; auto; lra. Qed.
(* Without a draw margin, 20 points apart, the default beta. *)
Example C134_trueskill_case : Rabs (45 - 25) + 0 <= 26 * sqrt (2 * (25 / 6) ^ 2 + (25 / 3) ^ 2 + 1 ^ 2).
Proof. rewrite Rabs_right by lra. assert (1 <= sqrt (2 * (25 / 6) ^ 2 + (25 / 3) ^ 2 + 1 ^ 2)) by (rewrite <- sqrt_1 at 1; apply sqrt_le_1_alt; lra). lra. Qed.
(* Glicko-Boost with the default k and eta against an opponent rated 30 points higher. *)
Example C134_boost_case : 0 < 200 <= 347 /\ 1500 <= 1530 - 30 /\ / (1 + 1.96 ^ 2) <= gE 1500 (1530 - 30) 50.
Proof. replace (1530 - 30) with 1500 by lra. rewrite gE_self. assert (/ (1 + 1.96 ^ 2) <= / 2) by (apply Rinv_le_contravar; lra). repeat split; lra. Qed.
