(** Property theorems: a better result in one game of a rating period (C121). *)
From Coq Require Import ZArith NArith List Bool Reals Lra Lia.
From Coquelicot Require Import Coquelicot.
From Verif Require Import Arith XR Tac ModelLib ModelElo ModelFifa ModelIngo ModelUscf ModelEgf ModelDwz ModelGlicko ModelSticko ModelBoost ModelWengLin Spec
  ProofElo ProofFifa ProofIngo ProofUscf ProofEgf ProofEgf2 ProofDwz ProofGlicko ProofSticko ProofBoost ProofBoost2 ProofMono ProofMonoWL.
Import Spec ListNotations.
Local Open Scope R_scope.

(** C121 (Elo): turning one result of a period into a better one ends in a strictly higher rating ... *)
Theorem C121_elo_better : forall r k l1 l2 ro x y, 0 < k -> k * ln 10 < 1600 -> points x < points y -> exists a b,
  elo_rating_period (mkElo (Fin r)) (map (fun g => (mkElo (Fin (fst g)), snd g)) (l1 ++ (ro, x) :: l2)) (mkEloConfig (Fin k)) = mkElo (Fin a) /\
  elo_rating_period (mkElo (Fin r)) (map (fun g => (mkElo (Fin (fst g)), snd g)) (l1 ++ (ro, y) :: l2)) (mkEloConfig (Fin k)) = mkElo (Fin b) /\ a < b.
Proof. exact C121_elo_proof. Qed.
Print Assumptions C121_elo_better.
(** ... as long as k ln 10 < 1600: beyond, draws can follow that undo or reverse the gain. *)
Theorem C121_elo_refuted : forall r ro k, 1600 < k * ln 10 -> exists l2 a b,
  elo_rating_period (mkElo (Fin r)) (map (fun g => (mkElo (Fin (fst g)), snd g)) ((ro, DRAW) :: l2)) (mkEloConfig (Fin k)) = mkElo (Fin a) /\
  elo_rating_period (mkElo (Fin r)) (map (fun g => (mkElo (Fin (fst g)), snd g)) ((ro, WIN) :: l2)) (mkEloConfig (Fin k)) = mkElo (Fin b) /\ b <= a.
Proof. exact C121_elo_refuted_proof. Qed.
Print Assumptions C121_elo_refuted.
(** C121 (FIFA): never worse, and strictly better without knockout and shoot-out. *)
Theorem C121_fifa_better : forall r l1 l2 ro x y i ko pen, points x < points y -> 0 < i -> List.Forall (fun g => let i := fst (fst (snd g)) in 0 < i /\ i * ln 10 < 2400) l2 ->
  let games := map (fun g : R * Outcomes * (R * bool * bool) => let '(ro, o, (i, ko, pen)) := g in (mkFifa (Fin ro), o, mkFifaConfig (Fin i) ko pen)) in
  exists a b,
  fifa_rating_period (mkFifa (Fin r)) (games (l1 ++ (ro, x, (i, ko, pen)) :: l2)) = mkFifa (Fin a) /\
  fifa_rating_period (mkFifa (Fin r)) (games (l1 ++ (ro, y, (i, ko, pen)) :: l2)) = mkFifa (Fin b) /\ a <= b /\ (ko = false -> pen = false -> a < b).
Proof. exact C121_fifa_proof. Qed.
Print Assumptions C121_fifa_better.
(** C121 (Ingo): a lower number is better. *)
Theorem C121_ingo_better : forall r age l1 l2 ro ao x y, points x < points y -> 
  let games := map (fun g : R * N * Outcomes => let '(r, a, o) := g in (mkIngo (Fin r) a, o)) in
  exists a b,
  ingo_rating_period (mkIngo (Fin r) age) (games (l1 ++ (ro, ao, x) :: l2)) = mkIngo (Fin a) age /\
  ingo_rating_period (mkIngo (Fin r) age) (games (l1 ++ (ro, ao, y) :: l2)) = mkIngo (Fin b) age /\ b < a.
Proof. exact C121_ingo_proof. Qed.
Print Assumptions C121_ingo_better.
(** C121 (USCF), provisional or not, with bonus points. *)
Theorem C121_uscf_better : forall r n t l1 l2 ro no x y, points x < points y -> (n + N.of_nat (length (l1 ++ l2)) + 1 < 2 ^ 64)%N ->
  let games := map (fun g : R * N * Outcomes => (mkUscf (Fin (fst (fst g))) (snd (fst g)), snd g)) in
  exists a b m,
  uscf_rating_period (mkUscf (Fin r) n) (games (l1 ++ (ro, no, x) :: l2)) (mkUscfConfig (Fin t)) = mkUscf (Fin a) m /\
  uscf_rating_period (mkUscf (Fin r) n) (games (l1 ++ (ro, no, y) :: l2)) (mkUscfConfig (Fin t)) = mkUscf (Fin b) m /\ a < b.
Proof. exact C121_uscf_proof. Qed.
Print Assumptions C121_uscf_better.
(** C121 (DWZ), although acceleration and brake depend on the result. *)
Theorem C121_dwz_better : forall r i age l1 l2 ro io ao x y, (1 <= i)%N -> points x < points y ->
  let games := map (fun g : R * N * N * Outcomes => let '(x, j, b, o) := g in (mkDwz (Fin x) j b, o)) in
  exists a b j,
  dwz_rating_period (mkDwz (Fin r) i age) (games (l1 ++ (ro, io, ao, x) :: l2)) = mkDwz (Fin a) j age /\
  dwz_rating_period (mkDwz (Fin r) i age) (games (l1 ++ (ro, io, ao, y) :: l2)) = mkDwz (Fin b) j age /\ a < b.
Proof. exact C121_dwz_proof. Qed.
Print Assumptions C121_dwz_better.
(** C121 (EGF): strictly unless both results leave the game at the floor of -900. *)
Theorem C121_egf_better : forall r l1 l2 ro x y H, r < 3300 -> points x < points y ->
  (forall opp o H', In (opp, o, H') (l1 ++ (ro, x, H) :: l2) -> egf_adj (egf_h1 H') r < 3300 /\ egf_adj (egf_h2 H') opp < 3300) ->
  let games := map (fun g : R * Outcomes * R => let '(opp, o, H) := g in (mkEgf (Fin opp), o, mkEgfConfig (Fin H))) in
  exists a b,
  egf_rating_period (mkEgf (Fin r)) (games (l1 ++ (ro, x, H) :: l2)) = mkEgf (Fin a) /\
  egf_rating_period (mkEgf (Fin r)) (games (l1 ++ (ro, y, H) :: l2)) = mkEgf (Fin b) /\ a <= b /\
  (- 900 < r + egf_C r * (points y - egf_E (egf_adj (egf_h1 H) r) (egf_adj (egf_h2 H) ro)) + egf_bon r -> a < b).
Proof. exact C121_egf_proof. Qed.
Print Assumptions C121_egf_better.
(** C121 (Glicko, Sticko): and the deviation is the same. *)
Theorem C121_glicko_better : forall r RD c l1 l2 rj RDj x y, 0 < RD -> points x < points y ->
  let games := map (fun '(rj, RDj, o) => (mkGlicko (Fin rj) (Fin RDj), o)) in
  exists a b d,
  glicko_rating_period (mkGlicko (Fin r) (Fin RD)) (games (l1 ++ (rj, RDj, x) :: l2)) (mkGlickoConfig (Fin c)) = mkGlicko (Fin a) (Fin d) /\
  glicko_rating_period (mkGlicko (Fin r) (Fin RD)) (games (l1 ++ (rj, RDj, y) :: l2)) (mkGlickoConfig (Fin c)) = mkGlicko (Fin b) (Fin d) /\ a < b.
Proof. exact C121_glicko_proof. Qed.
Print Assumptions C121_glicko_better.
Theorem C121_sticko_better : forall r RD h beta lambda gamma c l1 l2 rj RDj x y w, 0 < RD -> 0 <= h -> points x < points y ->
  let games := map (fun '(rj, RDj, o, white) => (mkSticko (Fin rj) (Fin RDj), o, white)) in
  let cfg := mkStickoConfig (Fin h) (Fin beta) (Fin lambda) (Fin gamma) (Fin c) in
  exists a b d,
  sticko_rating_period (mkSticko (Fin r) (Fin RD)) (games (l1 ++ (rj, RDj, x, w) :: l2)) cfg = mkSticko (Fin a) (Fin d) /\
  sticko_rating_period (mkSticko (Fin r) (Fin RD)) (games (l1 ++ (rj, RDj, y, w) :: l2)) cfg = mkSticko (Fin b) (Fin d) /\ a < b.
Proof. exact C121_sticko_proof. Qed.
Print Assumptions C121_sticko_better.
(** C121 (Glicko-Boost), partial: when both totals lie on the same side of the threshold k. *)
Theorem C121_boost_partial : forall r RD c l1 l2 rj RDj x y w, 0 < RD -> 0 <= bc_k c -> 0 <= bc_b0 c -> 0 <= bc_b1 c -> points x < points y ->
  let cfg := mkBoostConfig (Fin (bc_eta c)) (Fin (bc_k c)) (Fin (bc_b0 c)) (Fin (bc_b1 c))
    (Fin (bc_a0 c)) (Fin (bc_a1 c)) (Fin (bc_a2 c)) (Fin (bc_a3 c)) (Fin (bc_a4 c)) in
  let g := map (fun '(rj, RDj, o, white) => (rj - (if white : bool then bc_eta c else - bc_eta c), RDj, points o)) in
  let games := map (fun '(rj, RDj, o, white) => (mkBoost (Fin rj) (Fin RDj), o, white)) in
  let Zx := boost_Z r (g (l1 ++ (rj, RDj, x, w) :: l2)) in let Zy := boost_Z r (g (l1 ++ (rj, RDj, y, w) :: l2)) in
  Zx < Zy /\ (bc_k c = 0 \/ Zy <= bc_k c \/ bc_k c < Zx ->
  exists a b,
  gb_rating (glicko_boost_rating_period (mkBoost (Fin r) (Fin RD)) (games (l1 ++ (rj, RDj, x, w) :: l2)) cfg) = Fin a /\
  gb_rating (glicko_boost_rating_period (mkBoost (Fin r) (Fin RD)) (games (l1 ++ (rj, RDj, y, w) :: l2)) cfg) = Fin b /\ a < b).
Proof. exact C121_boost_partial_proof. Qed.
Print Assumptions C121_boost_partial.
(** C121 (Glicko-Boost) fails across the threshold with the default configuration: 12 points from 16 games
    leave a new player below where 11.5 points would have. *)
Theorem C121_boost_refuted : forall r RDj, 0 <= RDj <= 350 -> exists a b,
  gb_rating (glicko_boost_rating_period (mkBoost (Fin r) (Fin 350)) (map (fun '(rj, RDj, o, white) => (mkBoost (Fin rj) (Fin RDj), o, white))
    (repeat (r + 30, RDj, WIN, true) 11 ++ (r + 30, RDj, DRAW, true) :: repeat (r + 30, RDj, LOSS, true) 4)) boost_config_new) = Fin a /\
  gb_rating (glicko_boost_rating_period (mkBoost (Fin r) (Fin 350)) (map (fun '(rj, RDj, o, white) => (mkBoost (Fin rj) (Fin RDj), o, white))
    (repeat (r + 30, RDj, WIN, true) 11 ++ (r + 30, RDj, WIN, true) :: repeat (r + 30, RDj, LOSS, true) 4)) boost_config_new) = Fin b /\ b < a.
Proof. exact C121_boost_refuted_proof. Qed.
Print Assumptions C121_boost_refuted.
(** C121 (Weng-Lin) fails: for every player, first opponent and configuration there is a run of wins after which
    the player would be rated higher had the first game been drawn instead of won. *)
Theorem C121_weng_lin_refuted : forall m s mo so beta kappa, 0 < s -> 0 < so -> 0 < kappa < 1 -> exists l a b sa sb, List.Forall (fun g => snd g = WIN) l /\
  let games := map (fun g => (mkWL (Fin (fst g)) (Fin so), snd g)) in let cfg := mkWLConfig (Fin beta) (Fin kappa) in
  weng_lin_rating_period (mkWL (Fin m) (Fin s)) (games ((mo, DRAW) :: l)) cfg = mkWL (Fin a) (Fin sa) /\
  weng_lin_rating_period (mkWL (Fin m) (Fin s)) (games ((mo, WIN) :: l)) cfg = mkWL (Fin b) (Fin sb) /\ b < a.
Proof. exact C121_weng_lin_refuted_proof. Qed.
Print Assumptions C121_weng_lin_refuted.

(** The default k of 32 and FIFA importances up to 60; a k of 1000. *)
Example C121_case : 0 < 32 /\ 32 * ln 10 < 1600 /\ 1600 < 1000 * ln 10 /\ points DRAW < points WIN /\
  List.Forall (fun g : R * Outcomes * (R * bool * bool) => let i := fst (fst (snd g)) in 0 < i /\ i * ln 10 < 2400) [(1500, WIN, (60, false, false)); (1400, LOSS, (25, true, true))].
Proof. pose proof ProofBoost2.ln10_close. cbn. repeat split; try lra. repeat constructor; cbn; lra. Qed.
(** A player of rating 1000 in an EGF game with handicap 0 against 1100. *)
Example C121_egf_case : 1000 < 3300 /\ egf_adj (egf_h1 0) 1000 < 3300 /\ egf_adj (egf_h2 0) 1100 < 3300.
Proof. unfold egf_adj, egf_h1, egf_h2. repeat (destruct (Rlt_dec _ _) || destruct (Rle_dec _ _) || destruct (Req_EM_T _ _)); lra. Qed.
(** Weng-Lin's defaults: uncertainty 25/3 and tolerance 0.000001. *)
Example C121_wl_case : 0 < 25 / 3 /\ 0 < / 1000000 < 1. Proof. lra. Qed.
(** The default Glicko-Boost configuration, and the same without the threshold. *)
Example C121_boost_case : bc_k (bdef 0) = 0 /\ 0 <= bc_k (bdef (196 / 100)) /\ 0 <= bc_b0 (bdef 0) /\ 0 <= bc_b1 (bdef 0). Proof. cbn. lra. Qed.
