(** Property theorems for Glicko-Boost (glicko_boost.rs). *)
From Coq Require Import ZArith NArith List Bool Reals Lra Permutation.
From Verif Require Import Arith XR ModelLib ModelGlicko ModelBoost Spec ProofBoost.
Import ListNotations.
Local Open Scope R_scope.

(** C34 ("with eta = 0 behaves exactly like Glicko") is false: for two players
    with deviation 350 the new deviation is always strictly larger, whatever the
    alpha parameters and the c of Glicko. *)
Theorem C34_boost_glicko_refuted : forall r1 r2 o c (bc : boost_cfg),
  bc_eta bc = 0 -> bc_k bc = 0 -> bc_b0 bc = 0 -> bc_b1 bc = 0 ->
  let cfg := mkBoostConfig (Fin (bc_eta bc)) (Fin (bc_k bc)) (Fin (bc_b0 bc)) (Fin (bc_b1 bc))
    (Fin (bc_a0 bc)) (Fin (bc_a1 bc)) (Fin (bc_a2 bc)) (Fin (bc_a3 bc)) (Fin (bc_a4 bc)) in
  exists d d',
  gl_deviation (fst (glicko (mkGlicko (Fin r1) (Fin 350)) (mkGlicko (Fin r2) (Fin 350)) o (mkGlickoConfig (Fin c)))) = Fin d /\
  gb_deviation (fst (glicko_boost (mkBoost (Fin r1) (Fin 350)) (mkBoost (Fin r2) (Fin 350)) o cfg)) = Fin d' /\
  d < d'.
Proof. exact C34_refuted_proof. Qed.
Print Assumptions C34_boost_glicko_refuted.
(** What is true: the ratings agree (Glicko with c = 0), and the deviations
    agree up to the growth that Glicko-Boost applies at the end of a period.
    Missing: equality of the deviations, refuted above. *)
Theorem C34_boost_glicko_partial : forall r1 RD1 r2 RD2 o (bc : boost_cfg), 0 < RD1 <= 350 -> 0 < RD2 <= 350 ->
  bc_eta bc = 0 -> bc_k bc = 0 -> bc_b0 bc = 0 -> bc_b1 bc = 0 ->
  let cfg := mkBoostConfig (Fin (bc_eta bc)) (Fin (bc_k bc)) (Fin (bc_b0 bc)) (Fin (bc_b1 bc))
    (Fin (bc_a0 bc)) (Fin (bc_a1 bc)) (Fin (bc_a2 bc)) (Fin (bc_a3 bc)) (Fin (bc_a4 bc)) in
  let '(p, q) := glicko (mkGlicko (Fin r1) (Fin RD1)) (mkGlicko (Fin r2) (Fin RD2)) o (mkGlickoConfig (Fin 0)) in
  let '(p', q') := glicko_boost (mkBoost (Fin r1) (Fin RD1)) (mkBoost (Fin r2) (Fin RD2)) o cfg in
  gb_rating p' = gl_rating p /\ gb_rating q' = gl_rating q /\
  boost_decay_deviation (mkBoost (gl_rating p) (gl_deviation p)) cfg = p' /\
  boost_decay_deviation (mkBoost (gl_rating q) (gl_deviation q)) cfg = q'.
Proof. exact C34_partial_proof. Qed.
Print Assumptions C34_boost_glicko_partial.
Example C34_case : exists bc, bc_eta bc = 0 /\ bc_k bc = 0 /\ bc_b0 bc = 0 /\ bc_b1 bc = 0 /\ bc_a0 bc <> 0.
Proof. exists (Build_boost_cfg 0 0 0 0 (5733/1000) 1 1 1 1). cbn. repeat split. lra. Qed.

(** C35: the published formulas, range and direction. *)
Theorem C35_boost_update : forall r1 RD1 r2 RD2 o c, 0 < RD1 -> 0 < RD2 -> 0 <= bc_b0 c -> 0 <= bc_b1 c ->
  let cfg := mkBoostConfig (Fin (bc_eta c)) (Fin (bc_k c)) (Fin (bc_b0 c)) (Fin (bc_b1 c))
    (Fin (bc_a0 c)) (Fin (bc_a1 c)) (Fin (bc_a2 c)) (Fin (bc_a3 c)) (Fin (bc_a4 c)) in
  let g1 := [(r2 - bc_eta c, RD2, points o)] in
  let g2 := [(r1 + bc_eta c, RD1, points (invert o))] in
  glicko_boost (mkBoost (Fin r1) (Fin RD1)) (mkBoost (Fin r2) (Fin RD2)) o cfg =
  (mkBoost (Fin (boost_r c r1 RD1 g1)) (Fin (boost_end c (boost_r c r1 RD1 g1) (boost_rd c r1 RD1 g1))),
   mkBoost (Fin (boost_r c r2 RD2 g2)) (Fin (boost_end c (boost_r c r2 RD2 g2) (boost_rd c r2 RD2 g2)))).
Proof. exact C35_game_proof. Qed.
Print Assumptions C35_boost_update.
Theorem C35_boost_period : forall r RD c rs, 0 < RD -> 0 <= bc_b0 c -> 0 <= bc_b1 c -> rs <> [] ->
  let cfg := mkBoostConfig (Fin (bc_eta c)) (Fin (bc_k c)) (Fin (bc_b0 c)) (Fin (bc_b1 c))
    (Fin (bc_a0 c)) (Fin (bc_a1 c)) (Fin (bc_a2 c)) (Fin (bc_a3 c)) (Fin (bc_a4 c)) in
  let g := map (fun '(rj, RDj, o, white) =>
             (rj - (if white : bool then bc_eta c else - bc_eta c), RDj, points o)) rs in
  glicko_boost_rating_period (mkBoost (Fin r) (Fin RD))
    (map (fun '(rj, RDj, o, white) => (mkBoost (Fin rj) (Fin RDj), o, white)) rs) cfg =
  mkBoost (Fin (boost_r c r RD g)) (Fin (boost_end c (boost_r c r RD g) (boost_rd c r RD g))).
Proof. exact C35_period_proof. Qed.
Print Assumptions C35_boost_period.
Theorem C35_boost_range : forall r1 RD1 r2 RD2 o c, 0 < RD1 -> 0 < RD2 -> 0 <= bc_b0 c -> 0 <= bc_b1 c ->
  let cfg := mkBoostConfig (Fin (bc_eta c)) (Fin (bc_k c)) (Fin (bc_b0 c)) (Fin (bc_b1 c))
    (Fin (bc_a0 c)) (Fin (bc_a1 c)) (Fin (bc_a2 c)) (Fin (bc_a3 c)) (Fin (bc_a4 c)) in
  exists r1' d1' r2' d2',
  glicko_boost (mkBoost (Fin r1) (Fin RD1)) (mkBoost (Fin r2) (Fin RD2)) o cfg =
    (mkBoost (Fin r1') (Fin d1'), mkBoost (Fin r2') (Fin d2')) /\
  0 < d1' <= 350 /\ 0 < d2' <= 350 /\
  (o = WIN -> r1 < r1' /\ r2' < r2) /\ (o = LOSS -> r1' < r1 /\ r2 < r2').
Proof. exact C35_range_proof. Qed.
Print Assumptions C35_boost_range.
Theorem C35_boost_period_range : forall r RD c rs, 0 < RD -> 0 <= bc_b0 c -> 0 <= bc_b1 c ->
  let cfg := mkBoostConfig (Fin (bc_eta c)) (Fin (bc_k c)) (Fin (bc_b0 c)) (Fin (bc_b1 c))
    (Fin (bc_a0 c)) (Fin (bc_a1 c)) (Fin (bc_a2 c)) (Fin (bc_a3 c)) (Fin (bc_a4 c)) in
  exists r' d',
  glicko_boost_rating_period (mkBoost (Fin r) (Fin RD))
    (map (fun '(rj, RDj, o, white) => (mkBoost (Fin rj) (Fin RDj), o, white)) rs) cfg = mkBoost (Fin r') (Fin d') /\
  0 < d' <= 350 /\ (rs = [] -> r' = r /\ Rmin RD 350 <= d').
Proof. exact C35_period_range_proof. Qed.
Print Assumptions C35_boost_period_range.
Theorem C35_boost_order : forall r RD c rs rs', 0 < RD -> 0 <= bc_b0 c -> 0 <= bc_b1 c -> Permutation rs rs' ->
  let cfg := mkBoostConfig (Fin (bc_eta c)) (Fin (bc_k c)) (Fin (bc_b0 c)) (Fin (bc_b1 c))
    (Fin (bc_a0 c)) (Fin (bc_a1 c)) (Fin (bc_a2 c)) (Fin (bc_a3 c)) (Fin (bc_a4 c)) in
  glicko_boost_rating_period (mkBoost (Fin r) (Fin RD))
    (map (fun '(rj, RDj, o, white) => (mkBoost (Fin rj) (Fin RDj), o, white)) rs) cfg =
  glicko_boost_rating_period (mkBoost (Fin r) (Fin RD))
    (map (fun '(rj, RDj, o, white) => (mkBoost (Fin rj) (Fin RDj), o, white)) rs') cfg.
Proof. exact C35_order_proof. Qed.
Print Assumptions C35_boost_order.
Example C35_case : exists bc, 0 <= bc_b0 bc /\ 0 <= bc_b1 bc /\ bc_k bc <> 0.
Proof. exists (Build_boost_cfg 30 (196/100) (20139/100000) (175/10) 1 1 1 1 1). cbn. lra. Qed.

(** C36 is false for opponents met without the advantage: the flag is ignored. *)
Theorem C36_boost_expected_colour_refuted : forall r RD rj RDj (bc : boost_cfg), bc_eta bc <> 0 ->
  let cfg := mkBoostConfig (Fin (bc_eta bc)) (Fin (bc_k bc)) (Fin (bc_b0 bc)) (Fin (bc_b1 bc))
    (Fin (bc_a0 bc)) (Fin (bc_a1 bc)) (Fin (bc_a2 bc)) (Fin (bc_a3 bc)) (Fin (bc_a4 bc)) in
  let p := mkBoost (Fin r) (Fin RD) in let q := mkBoost (Fin rj) (Fin RDj) in
  boost_expected_score_rating_period p [(q, false)] cfg = [fst (boost_expected_score p q cfg)] /\
  boost_expected_score_rating_period p [(q, false)] cfg <> [snd (boost_expected_score q p cfg)].
Proof. exact C36_refuted_proof. Qed.
Print Assumptions C36_boost_expected_colour_refuted.
(** C36 for the flag [true].  Missing: the flag [false], refuted above. *)
Theorem C36_boost_expected_colour_partial : forall (F : Type) (A : Arith F) (p : GlickoBoostRating F) os c,
  boost_expected_score_rating_period p (map (fun o => (o, true)) os) c =
  map (fun o => fst (boost_expected_score p o c)) os.
Proof. exact C36_partial_proof. Qed.
Print Assumptions C36_boost_expected_colour_partial.

(** C31: confidence interval. *)
Theorem C31_boost_confidence : forall r RD,
  boost_confidence_interval (mkBoost (Fin r) (Fin RD)) = (Fin (r - 196 / 100 * RD), Fin (r + 196 / 100 * RD)).
Proof. exact C31_boost_proof. Qed.
Print Assumptions C31_boost_confidence.

(** C75: expected scores are Glicko's with the advantage added to the rating. *)
Theorem C75_boost_expected : forall r1 RD1 r2 RD2 (bc : boost_cfg),
  let cfg := mkBoostConfig (Fin (bc_eta bc)) (Fin (bc_k bc)) (Fin (bc_b0 bc)) (Fin (bc_b1 bc))
    (Fin (bc_a0 bc)) (Fin (bc_a1 bc)) (Fin (bc_a2 bc)) (Fin (bc_a3 bc)) (Fin (bc_a4 bc)) in
  boost_expected_score (mkBoost (Fin r1) (Fin RD1)) (mkBoost (Fin r2) (Fin RD2)) cfg =
  glicko_expected_score (mkGlicko (Fin (r1 + bc_eta bc)) (Fin RD1)) (mkGlicko (Fin r2) (Fin RD2)).
Proof. exact C75_boost_proof. Qed.
Print Assumptions C75_boost_expected.
