(** Property theorems: how far one game or one rating period can move a rating (C129). *)
From Coq Require Import ZArith NArith List Bool Reals Lra Lia.
From Verif Require Import Arith XR ModelLib ModelElo ModelFifa ModelIngo ModelUscf ModelEgf ModelDwz ModelGlicko ModelSticko ModelBoost ModelGlicko2 ModelWengLin ModelTS
  Spec SpecTS SpecInTS ProofMaxMove.
Import Spec ListNotations.
Local Open Scope R_scope.

(** C129: bounds that do not depend on the opponents or their results. *)
Theorem C129_max_fifa : forall r rs, rs <> [] -> List.Forall (fun '(_, _, imp, _, _) => 0 < imp) rs -> exists r',
  fifa_rating_period (mkFifa (Fin r)) (map (fun '(x, o, imp, ko, pen) => (mkFifa (Fin x), o, mkFifaConfig (Fin imp) ko pen)) rs) = mkFifa (Fin r') /\
  Rabs (r' - r) < Rsum (map (fun '(_, _, imp, _, _) => imp) rs).
Proof. exact C129_fifa_proof. Qed.
Print Assumptions C129_max_fifa.
Theorem C129_max_dwz : forall r i a rs, (1 <= i)%N -> rs <> [] ->
  exists r', dwz_rating (dwz_rating_period (mkDwz (Fin r) i a) (map (fun g => let '(x, j, b, o) := g in (mkDwz (Fin x) j b, o)) rs)) = Fin r' /\
  Rabs (r' - r) < 800 * INR (length rs) / (INR (length rs) + 5).
Proof. exact C129_dwz_proof. Qed.
Print Assumptions C129_max_dwz.
Theorem C129_max_egf : forall r rs, -900 <= r < 3300 -> rs <> [] ->
  (forall opp o H, In (opp, o, H) rs -> egf_adj (egf_h1 H) r < 3300 /\ egf_adj (egf_h2 H) opp < 3300) ->
  exists r', egf_rating_period (mkEgf (Fin r)) (map (fun g => let '(opp, o, H) := g in (mkEgf (Fin opp), o, mkEgfConfig (Fin H))) rs) = mkEgf (Fin r') /\
  Rabs (r' - r) < (Rpower ((3300 - r) / 200) 1.6 + ln (1 + exp ((2300 - r) / 80)) / 5) * INR (length rs).
Proof. exact C129_egf_proof. Qed.
Print Assumptions C129_max_egf.
Theorem C129_max_uscf : forall r n rs t, (8 < n)%N -> (n + N.of_nat (length rs) < 2 ^ 64)%N -> rs <> [] -> 0 <= t ->
  exists r' n', uscf_rating_period (mkUscf (Fin r) n) (map (fun g => (mkUscf (Fin (fst (fst g))) (snd (fst g)), snd g)) rs) (mkUscfConfig (Fin t)) = mkUscf (Fin r') n' /\
  let m := INR (length rs) in let K := 800 / (uscf_Ne r (IZR (Z.of_N n)) + m) in
  - (K * m) < r' - r < 2 * K * m /\ ((length rs < 3)%nat -> r' - r < K * m).
Proof. exact C129_uscf_proof. Qed.
Print Assumptions C129_max_uscf.
Theorem C129_max_glicko : forall r RD c rs, 0 < RD -> rs <> [] ->
  exists r' d', glicko_rating_period (mkGlicko (Fin r) (Fin RD))
    (map (fun '(rj, RDj, o) => (mkGlicko (Fin rj) (Fin RDj), o)) rs) (mkGlickoConfig (Fin c)) = mkGlicko (Fin r') (Fin d') /\
  Rabs (r' - r) < gq * Rmin (RD ^ 2 + c ^ 2) (350 ^ 2) * INR (length rs).
Proof. exact C129_glicko_proof. Qed.
Print Assumptions C129_max_glicko.
Theorem C129_max_boost : forall r RD c rs, 0 < RD -> 0 <= bc_b0 c -> 0 <= bc_b1 c -> rs <> [] ->
  let cfg := mkBoostConfig (Fin (bc_eta c)) (Fin (bc_k c)) (Fin (bc_b0 c)) (Fin (bc_b1 c))
    (Fin (bc_a0 c)) (Fin (bc_a1 c)) (Fin (bc_a2 c)) (Fin (bc_a3 c)) (Fin (bc_a4 c)) in
  exists r' d', glicko_boost_rating_period (mkBoost (Fin r) (Fin RD))
    (map (fun '(rj, RDj, o, white) => (mkBoost (Fin rj) (Fin RDj), o, white)) rs) cfg = mkBoost (Fin r') (Fin d') /\
  Rabs (r' - r) < gq * 350 ^ 2 * INR (length rs).
Proof. exact C129_boost_proof. Qed.
Print Assumptions C129_max_boost.
Theorem C129_max_glicko2 : forall fuel r RD s t tol rs p, 0 < s -> 0 < t -> 0 <= tol -> rs <> [] ->
  glicko2_rating_period fuel (mkGlicko2 (Fin r) (Fin RD) (Fin s))
    (map (fun '(rj, RDj, sj, o) => (mkGlicko2 (Fin rj) (Fin RDj) (Fin sj), o)) rs) (mkGlicko2Config (Fin t) (Fin tol)) = Some p ->
  exists r' s', g2_rating p = Fin r' /\ g2_volatility p = Fin s' /\ 0 < s' /\
    Rabs (r' - r) <= (RD ^ 2 / 173.7178 + 173.7178 * s' ^ 2) * INR (length rs).
Proof. exact C129_glicko2_proof. Qed.
Print Assumptions C129_max_glicko2.
Theorem C129_max_weng_lin : forall m1 s1 m2 s2 o beta kappa, 0 < s1 -> 0 < s2 -> 0 < kappa <= 1 -> exists m1' s1',
  fst (weng_lin (mkWL (Fin m1) (Fin s1)) (mkWL (Fin m2) (Fin s2)) o (mkWLConfig (Fin beta) (Fin kappa))) = mkWL (Fin m1') (Fin s1') /\
  Rabs (m1' - m1) < s1 ^ 2 / sqrt (s1 ^ 2 + 2 * beta ^ 2) <= s1.
Proof. exact C129_wl_proof. Qed.
Print Assumptions C129_max_weng_lin.
(** Sticko has such a bound only without the pull towards the opponents. *)
Theorem C129_max_sticko_partial : forall r RD h beta gamma c rs, 0 < RD -> 0 <= h -> rs <> [] ->
  exists r' d', sticko_rating_period (mkSticko (Fin r) (Fin RD))
    (map (fun '(rj, RDj, o, white) => (mkSticko (Fin rj) (Fin RDj), o, white)) rs)
    (mkStickoConfig (Fin h) (Fin beta) (Fin 0) (Fin gamma) (Fin c)) = mkSticko (Fin r') (Fin d') /\
  Rabs (r' - r) < gq * Rmin (RD ^ 2 + c ^ 2) (350 ^ 2) * (1 + Rabs beta) * INR (length rs).
Proof. exact C129_sticko_proof. Qed.
Print Assumptions C129_max_sticko_partial.
(** TrueSkill: a bound that grows with the difference of the ratings. *)
Theorem C129_max_trueskill_partial : forall m1 s1 m2 s2 o dp beta tau, 0 < s1 -> 0 < s2 -> o <> DRAW ->
  let c := sqrt (2 * beta ^ 2 + s1 ^ 2 + s2 ^ 2) in
  exists e m1', ts_draw_margin (Fin dp) (Fin beta) (Fin 2) = Fin e /\
  ts_rating (fst (trueskill (ts_in (m1, s1)) (ts_in (m2, s2)) o (ts_cfg dp beta tau))) = Fin m1' /\
  Rabs (m1' - m1) <= 1.002 * (s1 ^ 2 + tau ^ 2) / c * (1 + (Rabs e + Rabs (m1 - m2)) / c).
Proof. exact C129_ts_proof. Qed.
Print Assumptions C129_max_trueskill_partial.

(** No bound of this kind exists for TrueSkill, Ingo, provisional USCF players,
    and Sticko with a positive pull, where even a loss can gain any number of points. *)
Theorem C129_max_trueskill_refuted : forall m1 s1 s2 dp beta tau B, 0 < s1 -> 0 < s2 -> exists m2 m1',
  ts_rating (fst (trueskill (ts_in (m1, s1)) (ts_in (m2, s2)) WIN (ts_cfg dp beta tau))) = Fin m1' /\ m1 + B < m1'.
Proof. exact C129_ts_refuted_proof. Qed.
Print Assumptions C129_max_trueskill_refuted.
Theorem C129_max_ingo_refuted : forall r a a2 B o, exists r2 r', ingo_rating (fst (ingo (mkIngo (Fin r) a) (mkIngo (Fin r2) a2) o)) = Fin r' /\ r' < r - B.
Proof. exact C129_ingo_refuted_proof. Qed.
Print Assumptions C129_max_ingo_refuted.
Theorem C129_max_uscf_provisional_refuted : forall r n n2 t B, (n <= 8)%N -> exists r2 r' n',
  fst (uscf (mkUscf (Fin r) n) (mkUscf (Fin r2) n2) LOSS (mkUscfConfig (Fin t))) = mkUscf (Fin r') n' /\ r + B < r'.
Proof. exact C129_uscf_refuted_proof. Qed.
Print Assumptions C129_max_uscf_provisional_refuted.
Theorem C129_max_sticko_refuted : forall r RD RD2 h beta lambda gamma c B, 0 < RD -> 0 < RD2 -> 0 <= h -> 0 < lambda ->
  exists r2 r' d', fst (sticko (mkSticko (Fin r) (Fin RD)) (mkSticko (Fin r2) (Fin RD2)) LOSS
    (mkStickoConfig (Fin h) (Fin beta) (Fin lambda) (Fin gamma) (Fin c))) = mkSticko (Fin r') (Fin d') /\ r + B < r'.
Proof. exact C129_sticko_refuted_proof. Qed.
Print Assumptions C129_max_sticko_refuted.
(** In the default configuration of Sticko a gap of 1000 points turns the result
    around: the loser gains and the winner loses points. *)
Theorem C129_sticko_turned_refuted : forall r RD r2 RD2, 0 < RD <= 350 -> 0 < RD2 <= 350 -> r + 1000 <= r2 -> exists r' d' r2' d2',
  sticko (mkSticko (Fin r) (Fin RD)) (mkSticko (Fin r2) (Fin RD2)) LOSS sticko_config_new = (mkSticko (Fin r') (Fin d'), mkSticko (Fin r2') (Fin d2')) /\ r + 2 < r' /\ r2' < r2 - 2.
Proof. exact C129_sticko_turned_proof. Qed.
Print Assumptions C129_sticko_turned_refuted.

(* A provisional Glicko player (deviation 350) can move by at most 710.5 points in one game. *)
Example C129_case : exists r' d', glicko_rating_period (mkGlicko (Fin 1500) (Fin 350))
  (map (fun '(rj, RDj, o) => (mkGlicko (Fin rj) (Fin RDj), o)) [(2500, 50, WIN)]) (mkGlickoConfig (Fin 0)) = mkGlicko (Fin r') (Fin d') /\ Rabs (r' - 1500) < gq * 122500.
Proof.
  destruct (C129_max_glicko 1500 350 0 [(2500, 50, WIN)] ltac:(lra) ltac:(discriminate)) as (r' & d' & E & B). exists r', d'. split; [exact E|].
  rewrite Rmin_left in B by lra. cbn [length INR] in B. lra.
Qed.
Example C129_fifa_case : List.Forall (fun '(_, _, imp, _, _) => 0 < imp) [(1300, WIN, 25, true, false); (1500, DRAW, 5, false, true)].
Proof. repeat constructor; lra. Qed.
Example C129_egf_case : forall opp o H, In (opp, o, H) [(2000, LOSS, 0); (1900, WIN, 0)] -> egf_adj (egf_h1 H) 1000 < 3300 /\ egf_adj (egf_h2 H) opp < 3300.
Proof.
  intros opp o H [[= <- <- <-]|[[= <- <- <-]|[]]]; unfold egf_adj, egf_h1, egf_h2; destruct (Rlt_dec 0 0); try lra; destruct (Req_EM_T 0 0); lra.
Qed.
Example C129_uscf_case : (8 < 20)%N /\ (20 + N.of_nat (length [((1300, 5%N), WIN); ((1500, 50%N), LOSS)]) < 2 ^ 64)%N /\ 0 <= 14.
Proof. split; [reflexivity|]. split; [reflexivity|lra]. Qed.
Example C129_other_case : 0 < 350 /\ 0 <= 10 /\ 0 < 0.06 /\ 0 < 0.000001 <= 1 /\ WIN <> DRAW /\ 0 < 2.
Proof. repeat split; try lra. discriminate. Qed.
