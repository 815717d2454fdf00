(** Property theorems for Sticko (sticko.rs). *)
From Coq Require Import ZArith NArith List Bool Reals Lra Permutation.
From Verif Require Import Arith XR ModelLib ModelGlicko ModelSticko Spec ProofSticko.
Import ListNotations.
Local Open Scope R_scope.

(** C32: with h = beta = lambda = gamma = 0 Sticko is Glicko. *)
Theorem C32_sticko_glicko_game : forall r1 RD1 r2 RD2 o c, 0 < RD1 -> 0 < RD2 ->
  let '(p, q) := sticko (mkSticko (Fin r1) (Fin RD1)) (mkSticko (Fin r2) (Fin RD2)) o
                   (mkStickoConfig (Fin 0) (Fin 0) (Fin 0) (Fin 0) (Fin c)) in
  let '(p', q') := glicko (mkGlicko (Fin r1) (Fin RD1)) (mkGlicko (Fin r2) (Fin RD2)) o (mkGlickoConfig (Fin c)) in
  st_rating p = gl_rating p' /\ st_deviation p = gl_deviation p' /\
  st_rating q = gl_rating q' /\ st_deviation q = gl_deviation q'.
Proof. exact C32_game_proof. Qed.
Print Assumptions C32_sticko_glicko_game.
Theorem C32_sticko_glicko_period : forall r RD c rs, 0 < RD ->
  let s := sticko_rating_period (mkSticko (Fin r) (Fin RD))
             (map (fun '(rj, RDj, o, white) => (mkSticko (Fin rj) (Fin RDj), o, white)) rs)
             (mkStickoConfig (Fin 0) (Fin 0) (Fin 0) (Fin 0) (Fin c)) in
  let g := glicko_rating_period (mkGlicko (Fin r) (Fin RD))
             (map (fun '(rj, RDj, o, _) => (mkGlicko (Fin rj) (Fin RDj), o)) rs) (mkGlickoConfig (Fin c)) in
  st_rating s = gl_rating g /\ st_deviation s = gl_deviation g.
Proof. exact C32_period_proof. Qed.
Print Assumptions C32_sticko_glicko_period.
Theorem C32_sticko_glicko_expected : forall r1 RD1 r2 RD2 c os,
  let cfg := mkStickoConfig (Fin 0) (Fin 0) (Fin 0) (Fin 0) (Fin c) in
  sticko_expected_score (mkSticko (Fin r1) (Fin RD1)) (mkSticko (Fin r2) (Fin RD2)) cfg =
    glicko_expected_score (mkGlicko (Fin r1) (Fin RD1)) (mkGlicko (Fin r2) (Fin RD2)) /\
  sticko_expected_score_rating_period (mkSticko (Fin r1) (Fin RD1))
    (map (fun '(rj, RDj, white) => (mkSticko (Fin rj) (Fin RDj), white)) os) cfg =
  glicko_expected_score_rating_period (mkGlicko (Fin r1) (Fin RD1))
    (map (fun '(rj, RDj, _) => mkGlicko (Fin rj) (Fin RDj)) os) /\
  forall p, sticko_decay_deviation p cfg =
    let g := glicko_decay_deviation (mkGlicko (st_rating p) (st_deviation p)) (mkGlickoConfig (Fin c)) in
    mkSticko (gl_rating g) (gl_deviation g).
Proof. exact C32_expected_proof. Qed.
Print Assumptions C32_sticko_glicko_expected.

(** C33: the published formulas, range and direction. *)
Theorem C33_sticko_update : forall r1 RD1 r2 RD2 o h beta lambda gamma c, 0 < RD1 -> 0 < RD2 -> 0 <= h ->
  sticko (mkSticko (Fin r1) (Fin RD1)) (mkSticko (Fin r2) (Fin RD2)) o
    (mkStickoConfig (Fin h) (Fin beta) (Fin lambda) (Fin gamma) (Fin c)) =
  (mkSticko (Fin (sticko_r r1 (gpre RD1 c) beta gamma lambda [(r2, RD2, o, true)]))
            (Fin (sticko_rd r1 (gpre RD1 c) beta gamma h [(r2, RD2, o, true)])),
   mkSticko (Fin (sticko_r r2 (gpre RD2 c) beta gamma lambda [(r1, RD1, invert o, false)]))
            (Fin (sticko_rd r2 (gpre RD2 c) beta gamma h [(r1, RD1, invert o, false)]))).
Proof. exact C33_game_proof. Qed.
Print Assumptions C33_sticko_update.
Theorem C33_sticko_period : forall r RD h beta lambda gamma c rs, 0 < RD -> 0 <= h -> rs <> [] ->
  sticko_rating_period (mkSticko (Fin r) (Fin RD))
    (map (fun '(rj, RDj, o, white) => (mkSticko (Fin rj) (Fin RDj), o, white)) rs)
    (mkStickoConfig (Fin h) (Fin beta) (Fin lambda) (Fin gamma) (Fin c)) =
  mkSticko (Fin (sticko_r r (gpre RD c) beta gamma lambda rs)) (Fin (sticko_rd r (gpre RD c) beta gamma h rs)).
Proof. exact C33_period_proof. Qed.
Print Assumptions C33_sticko_period.
Theorem C33_sticko_range : forall r1 RD1 r2 RD2 h beta lambda gamma c rs, 0 < RD1 -> 0 < RD2 -> 0 <= h -> rs <> [] ->
  let cfg := mkStickoConfig (Fin h) (Fin beta) (Fin lambda) (Fin gamma) (Fin c) in
  (forall o, exists d1 d2,
     st_deviation (fst (sticko (mkSticko (Fin r1) (Fin RD1)) (mkSticko (Fin r2) (Fin RD2)) o cfg)) = Fin d1 /\
     st_deviation (snd (sticko (mkSticko (Fin r1) (Fin RD1)) (mkSticko (Fin r2) (Fin RD2)) o cfg)) = Fin d2 /\
     0 < d1 <= 350 /\ 0 < d2 <= 350) /\
  exists d, st_deviation (sticko_rating_period (mkSticko (Fin r1) (Fin RD1))
    (map (fun '(rj, RDj, o, white) => (mkSticko (Fin rj) (Fin RDj), o, white)) rs) cfg) = Fin d /\ 0 < d <= 350.
Proof. exact C33_range_proof. Qed.
Print Assumptions C33_sticko_range.
Theorem C33_sticko_direction : forall r1 RD1 r2 RD2 h beta lambda gamma c, 0 < RD1 -> 0 < RD2 -> 0 <= h ->
  exists w d l w' d' l',
    (forall o, exists p q, sticko (mkSticko (Fin r1) (Fin RD1)) (mkSticko (Fin r2) (Fin RD2)) o
         (mkStickoConfig (Fin h) (Fin beta) (Fin lambda) (Fin gamma) (Fin c)) = (p, q) /\
       st_rating p = Fin (match o with WIN => w | DRAW => d | LOSS => l end) /\
       st_rating q = Fin (match o with WIN => l' | DRAW => d' | LOSS => w' end)) /\
    l < d < w /\ l' < d' < w'.
Proof. exact C33_direction_proof. Qed.
Print Assumptions C33_sticko_direction.
Theorem C33_sticko_order : forall r RD h beta lambda gamma c rs rs', 0 < RD -> 0 <= h -> Permutation rs rs' ->
  let cfg := mkStickoConfig (Fin h) (Fin beta) (Fin lambda) (Fin gamma) (Fin c) in
  sticko_rating_period (mkSticko (Fin r) (Fin RD))
    (map (fun '(rj, RDj, o, white) => (mkSticko (Fin rj) (Fin RDj), o, white)) rs) cfg =
  sticko_rating_period (mkSticko (Fin r) (Fin RD))
    (map (fun '(rj, RDj, o, white) => (mkSticko (Fin rj) (Fin RDj), o, white)) rs') cfg.
Proof. exact C33_order_proof. Qed.
Print Assumptions C33_sticko_order.
(* The crate's default configuration and a two-game period. *)
Example C33_case : 0 < 350 /\ 0 < 50 /\ 0 <= 10 /\ [(1400, 30, WIN, true); (1550, 100, LOSS, false)] <> [].
Proof. repeat split; try lra. discriminate. Qed.
(* The advantage matters: white and black expectations differ. *)
Example C33_colour_case : st_game 30 0 (1400, 30, WIN, true) <> st_game 30 0 (1400, 30, WIN, false).
Proof. unfold st_game. intros [= H]. lra. Qed.

(** C31: confidence interval. *)
Theorem C31_sticko_confidence : forall r RD,
  sticko_confidence_interval (mkSticko (Fin r) (Fin RD)) = (Fin (r - 196 / 100 * RD), Fin (r + 196 / 100 * RD)).
Proof. exact C31_sticko_proof. Qed.
Print Assumptions C31_sticko_confidence.

(** C75: expected scores are Glicko's with the advantage added to the rating. *)
Theorem C75_sticko_expected : forall r1 RD1 r2 RD2 h beta lambda gamma c,
  sticko_expected_score (mkSticko (Fin r1) (Fin RD1)) (mkSticko (Fin r2) (Fin RD2))
    (mkStickoConfig (Fin h) (Fin beta) (Fin lambda) (Fin gamma) (Fin c)) =
  glicko_expected_score (mkGlicko (Fin (r1 + gamma)) (Fin RD1)) (mkGlicko (Fin r2) (Fin RD2)).
Proof. exact C75_sticko_proof. Qed.
Print Assumptions C75_sticko_expected.

(** C76: expectations in a rating period respect the colour flags. *)
Theorem C76_sticko_expected_colour : forall r RD h beta lambda gamma c os,
  let cfg := mkStickoConfig (Fin h) (Fin beta) (Fin lambda) (Fin gamma) (Fin c) in
  let p := mkSticko (Fin r) (Fin RD) in
  sticko_expected_score_rating_period p (map (fun '(rj, RDj, white) => (mkSticko (Fin rj) (Fin RDj), white)) os) cfg =
  map (fun '(rj, RDj, white) =>
         let q := mkSticko (Fin rj) (Fin RDj) in
         if white : bool then fst (sticko_expected_score p q cfg) else snd (sticko_expected_score q p cfg)) os.
Proof. exact C76_proof. Qed.
Print Assumptions C76_sticko_expected_colour.
