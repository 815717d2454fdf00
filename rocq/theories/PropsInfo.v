(** Property theorems: every game adds certainty, and uncertain ratings move more (C114). *)
From Coq Require Import ZArith NArith List Bool Reals Lra Lia.
From Verif Require Import Arith XR ModelLib ModelElo ModelGlicko ModelSticko ModelWengLin ModelUscf ModelDwz Spec ProofInfo.
Import Spec ListNotations.
Local Open Scope R_scope.

(** C114 (Glicko): one more game, anywhere in the period and whatever its result, leaves a smaller deviation. *)
Theorem C114_glicko_more_games : forall r RD c rs rs' g, 0 < RD ->
  exists d d',
    gl_deviation (glicko_rating_period (mkGlicko (Fin r) (Fin RD)) (map (fun '(rj, RDj, o) => (mkGlicko (Fin rj) (Fin RDj), o)) (rs ++ rs')) (mkGlickoConfig (Fin c))) = Fin d /\
    gl_deviation (glicko_rating_period (mkGlicko (Fin r) (Fin RD)) (map (fun '(rj, RDj, o) => (mkGlicko (Fin rj) (Fin RDj), o)) (rs ++ g :: rs')) (mkGlickoConfig (Fin c))) = Fin d' /\
    0 < d' < d.
Proof. exact C114_glicko_more_games_proof. Qed.
Print Assumptions C114_glicko_more_games.
(** The less certain of two equally rated players moves further in the same direction and stays less certain. *)
Theorem C114_glicko_uncertain_moves_more : forall r RD RD' c rs, 0 < RD < RD' -> RD ^ 2 + c ^ 2 < 350 ^ 2 -> rs <> [] ->
  exists x d x' d',
    glicko_rating_period (mkGlicko (Fin r) (Fin RD)) (map (fun '(rj, RDj, o) => (mkGlicko (Fin rj) (Fin RDj), o)) rs) (mkGlickoConfig (Fin c)) = mkGlicko (Fin x) (Fin d) /\
    glicko_rating_period (mkGlicko (Fin r) (Fin RD')) (map (fun '(rj, RDj, o) => (mkGlicko (Fin rj) (Fin RDj), o)) rs) (mkGlickoConfig (Fin c)) = mkGlicko (Fin x') (Fin d') /\
    d < d' /\ (r < x -> x < x') /\ (x < r -> x' < x) /\ (x = r -> x' = r).
Proof. exact C114_glicko_uncertain_proof. Qed.
Print Assumptions C114_glicko_uncertain_moves_more.
(** Of two opponents known equally well, the closer one tells more. *)
Theorem C114_glicko_close_opponent : forall r RD rj rj' RDj c o o', 0 < RD -> 0 < RDj -> Rabs (r - rj) < Rabs (r - rj') ->
  exists d d',
    gl_deviation (fst (glicko (mkGlicko (Fin r) (Fin RD)) (mkGlicko (Fin rj) (Fin RDj)) o (mkGlickoConfig (Fin c)))) = Fin d /\
    gl_deviation (fst (glicko (mkGlicko (Fin r) (Fin RD)) (mkGlicko (Fin rj') (Fin RDj)) o' (mkGlickoConfig (Fin c)))) = Fin d' /\ d < d'.
Proof. exact C114_glicko_close_proof. Qed.
Print Assumptions C114_glicko_close_opponent.
(** Of two opponents rated like the player, the better known one tells more ... *)
Theorem C114_glicko_certain_opponent : forall r RD RDj RDj' c o, 0 < RD -> 0 < RDj < RDj' ->
  exists x d x' d',
    fst (glicko (mkGlicko (Fin r) (Fin RD)) (mkGlicko (Fin r) (Fin RDj)) o (mkGlickoConfig (Fin c))) = mkGlicko (Fin x) (Fin d) /\
    fst (glicko (mkGlicko (Fin r) (Fin RD)) (mkGlicko (Fin r) (Fin RDj')) o (mkGlickoConfig (Fin c))) = mkGlicko (Fin x') (Fin d') /\
    d < d'.
Proof. exact C114_glicko_opp_proof. Qed.
Print Assumptions C114_glicko_certain_opponent.
(** ... but far enough from the own rating it is the other way round. *)
Theorem C114_glicko_far_opponent : forall RD RDj RDj' c o, 0 < RD -> 0 < RDj < RDj' ->
  exists gap, 0 < gap /\ forall r rj, gap <= Rabs (r - rj) -> exists d d',
    gl_deviation (fst (glicko (mkGlicko (Fin r) (Fin RD)) (mkGlicko (Fin rj) (Fin RDj)) o (mkGlickoConfig (Fin c)))) = Fin d /\
    gl_deviation (fst (glicko (mkGlicko (Fin r) (Fin RD)) (mkGlicko (Fin rj) (Fin RDj')) o (mkGlickoConfig (Fin c)))) = Fin d' /\
    d' < d.
Proof. exact C114_glicko_far_proof. Qed.
Print Assumptions C114_glicko_far_opponent.
(** C114 (Weng-Lin): the same move rule, for every outcome. *)
Theorem C114_weng_lin_uncertain_moves_more : forall m1 s1 s1' m2 s2 o beta kappa, 0 < s1 < s1' -> 0 < s2 -> 0 < kappa <= 1 ->
  exists x x',
    wl_rating (fst (weng_lin (mkWL (Fin m1) (Fin s1)) (mkWL (Fin m2) (Fin s2)) o (mkWLConfig (Fin beta) (Fin kappa)))) = Fin x /\
    wl_rating (fst (weng_lin (mkWL (Fin m1) (Fin s1')) (mkWL (Fin m2) (Fin s2)) o (mkWLConfig (Fin beta) (Fin kappa)))) = Fin x' /\
    (m1 < x -> x < x') /\ (x < m1 -> x' < x) /\ (x = m1 -> x' = m1).
Proof. exact C114_wl_proof. Qed.
Print Assumptions C114_weng_lin_uncertain_moves_more.
(** C114 (USCF, DWZ): experience damps the change. *)
Theorem C114_uscf_experience : forall r n n' rs t, (8 < n <= n')%N -> (n' + N.of_nat (length rs) < 2 ^ 64)%N -> rs <> [] -> 0 <= t ->
  let games := map (fun g => (mkUscf (Fin (fst (fst g))) (snd (fst g)), snd g)) rs in
  exists x x',
    uscf_rating (uscf_rating_period (mkUscf (Fin r) n) games (mkUscfConfig (Fin t))) = Fin x /\
    uscf_rating (uscf_rating_period (mkUscf (Fin r) n') games (mkUscfConfig (Fin t))) = Fin x' /\
    (r <= x' -> x' <= x) /\ (x' <= r -> x <= x').
Proof. exact C114_uscf_proof. Qed.
Print Assumptions C114_uscf_experience.
Theorem C114_dwz_experience : forall r i i' a rs, (1 <= i <= i')%N ->
  let games := map (fun g => let '(x, j, b, o) := g in (mkDwz (Fin x) j b, o)) rs in
  exists x x',
    dwz_rating (dwz_rating_period (mkDwz (Fin r) i a) games) = Fin x /\
    dwz_rating (dwz_rating_period (mkDwz (Fin r) i' a) games) = Fin x' /\
    (r <= x' -> x' <= x) /\ (x' <= r -> x <= x').
Proof. exact C114_dwz_proof. Qed.
Print Assumptions C114_dwz_experience.
(** C114 (Sticko): one more game raises the variance by at most [h]. *)
Theorem C114_sticko_more_games : forall r RD h beta lambda gamma c rs1 rs2 g, 0 < RD -> 0 <= h -> rs1 ++ rs2 <> [] ->
  let games := map (fun '(rj, RDj, o, white) => (mkSticko (Fin rj) (Fin RDj), o, white)) in
  let cfg := mkStickoConfig (Fin h) (Fin beta) (Fin lambda) (Fin gamma) (Fin c) in
  exists d d',
    st_deviation (sticko_rating_period (mkSticko (Fin r) (Fin RD)) (games (rs1 ++ rs2)) cfg) = Fin d /\
    st_deviation (sticko_rating_period (mkSticko (Fin r) (Fin RD)) (games (rs1 ++ g :: rs2)) cfg) = Fin d' /\
    d' ^ 2 <= d ^ 2 + h.
Proof. exact C114_sticko_proof. Qed.
Print Assumptions C114_sticko_more_games.

(** Deviations of 200 and 300 with c = 63; ratings 1500, 1600 and 1900; opponents of deviation 30 and 300;
    uncertainties of 2 and 25/3; 20 and 60 games; indices 3 and 10. *)
Example C114_case : (0 < 200 < 300 /\ 200 ^ 2 + 63 ^ 2 < 350 ^ 2) /\ Rabs (1500 - 1600) < Rabs (1500 - 1900) /\ 0 < 30 < 300 /\ 0 < 2 < 25 / 3 /\
  (8 < 20 <= 60)%N /\ (60 + N.of_nat (length [(1500, 20%N, WIN); (1700, 3%N, LOSS)]) < 2 ^ 64)%N /\ (1 <= 3 <= 10)%N.
Proof.
  repeat split; try lra; try lia. rewrite !Rabs_left by lra. lra.
Qed.
(** The hypothesis on [c] is needed: above the cap of 350 both players start the period equally uncertain. *)
Example C114_cap : forall o, fst (glicko (mkGlicko (Fin 1500) (Fin 360)) (mkGlicko (Fin 1500) (Fin 50)) o (mkGlickoConfig (Fin 0))) =
  fst (glicko (mkGlicko (Fin 1500) (Fin 400)) (mkGlicko (Fin 1500) (Fin 50)) o (mkGlickoConfig (Fin 0))).
Proof. exact C114_cap_proof. Qed.
