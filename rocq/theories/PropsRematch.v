(** Property theorems: what the winner may expect from a rematch (C131). *)
From Coq Require Import ZArith NArith List Bool Reals Lra Lia.
From Verif Require Import Arith XR ModelLib ModelElo ModelFifa ModelIngo ModelUscf ModelEgf ModelDwz ModelGlicko ModelGlicko2 ModelWengLin ModelTS
  Spec SpecTS SpecInTS ProofRematch ProofRematch2.
Import Spec ListNotations.
Local Open Scope R_scope.

(** C131: a win raises the winner's expected score for a rematch. *)
Theorem C131_rematch_elo : forall r1 r2 k, 0 < k ->
  let '(p1, p2) := elo (mkElo (Fin r1)) (mkElo (Fin r2)) WIN (mkEloConfig (Fin k)) in
  exists e e', fst (elo_expected_score (mkElo (Fin r1)) (mkElo (Fin r2))) = Fin e /\ fst (elo_expected_score p1 p2) = Fin e' /\ e < e'.
Proof. exact C131_elo_proof. Qed.
Print Assumptions C131_rematch_elo.
Theorem C131_rematch_fifa : forall r1 r2 k ko, 0 < k ->
  let '(p1, p2) := fifa (mkFifa (Fin r1)) (mkFifa (Fin r2)) WIN (mkFifaConfig (Fin k) ko false) in
  exists e e', fst (fifa_expected_score (mkFifa (Fin r1)) (mkFifa (Fin r2))) = Fin e /\ fst (fifa_expected_score p1 p2) = Fin e' /\ e < e'.
Proof. exact C131_fifa_proof. Qed.
Print Assumptions C131_rematch_fifa.
Theorem C131_rematch_dwz : forall r1 i1 a1 r2 i2 a2, (1 <= i1)%N -> (1 <= i2)%N ->
  let p1 := mkDwz (Fin r1) i1 a1 in let p2 := mkDwz (Fin r2) i2 a2 in let '(q1, q2) := dwz p1 p2 WIN in
  exists e e', fst (dwz_expected_score p1 p2) = Fin e /\ fst (dwz_expected_score q1 q2) = Fin e' /\ e < e'.
Proof. exact C131_dwz_proof. Qed.
Print Assumptions C131_rematch_dwz.
Theorem C131_rematch_uscf : forall r1 n1 r2 n2 t, (8 < n1)%N -> (8 < n2)%N -> 100 <= r2 ->
  let p1 := mkUscf (Fin r1) n1 in let p2 := mkUscf (Fin r2) n2 in let '(q1, q2) := uscf p1 p2 WIN (mkUscfConfig (Fin t)) in
  exists e e', fst (uscf_expected_score p1 p2) = Fin e /\ fst (uscf_expected_score q1 q2) = Fin e' /\ e < e'.
Proof. exact C131_uscf_proof. Qed.
Print Assumptions C131_rematch_uscf.
Theorem C131_rematch_weng_lin : forall m1 s1 m2 s2 beta kappa, 0 < s1 -> 0 < s2 -> 0 < beta -> 0 < kappa <= 1 ->
  let cfg := mkWLConfig (Fin beta) (Fin kappa) in let p1 := mkWL (Fin m1) (Fin s1) in let p2 := mkWL (Fin m2) (Fin s2) in
  let '(q1, q2) := weng_lin p1 p2 WIN cfg in
  exists e e', fst (wl_expected_score p1 p2 cfg) = Fin e /\ fst (wl_expected_score q1 q2 cfg) = Fin e' /\ e < e'.
Proof. exact C131_wl_win_proof. Qed.
Print Assumptions C131_rematch_weng_lin.
Theorem C131_rematch_glicko : forall r1 RD1 r2 RD2, 0 < RD1 <= 350 -> 0 < RD2 <= 350 ->
  let p1 := mkGlicko (Fin r1) (Fin RD1) in let p2 := mkGlicko (Fin r2) (Fin RD2) in
  let '(q1, q2) := glicko p1 p2 WIN (mkGlickoConfig (Fin 0)) in
  exists e e', fst (glicko_expected_score p1 p2) = Fin e /\ fst (glicko_expected_score q1 q2) = Fin e' /\ e < e'.
Proof. exact C131_glicko_win_proof. Qed.
Print Assumptions C131_rematch_glicko.
Theorem C131_rematch_trueskill_favourite : forall m1 s1 m2 s2 dp beta, 0 < s1 -> 0 < s2 -> 0 < beta -> m2 < m1 ->
  let cfg := ts_cfg dp beta 0 in let p1 := ts_in (m1, s1) in let p2 := ts_in (m2, s2) in
  let '(q1, q2) := trueskill p1 p2 WIN cfg in
  exists e e', fst (ts_expected_score p1 p2 cfg) = Fin e /\ fst (ts_expected_score q1 q2 cfg) = Fin e' /\ e < e'.
Proof. exact C131_ts_fav_proof. Qed.
Print Assumptions C131_rematch_trueskill_favourite.
(** Where the uncertainties grow between the games: at least for the underdog, who
    also gains by a draw. *)
Theorem C131_underdog_glicko : forall r1 RD1 r2 RD2 c o, 0 < RD1 <= 350 -> 0 < RD2 <= 350 -> r1 <= r2 -> o = WIN \/ (o = DRAW /\ r1 < r2) ->
  let p1 := mkGlicko (Fin r1) (Fin RD1) in let p2 := mkGlicko (Fin r2) (Fin RD2) in
  let '(q1, q2) := glicko p1 p2 o (mkGlickoConfig (Fin c)) in
  exists e e', fst (glicko_expected_score p1 p2) = Fin e /\ fst (glicko_expected_score q1 q2) = Fin e' /\ e < e'.
Proof. exact C131_glicko_proof. Qed.
Print Assumptions C131_underdog_glicko.
Theorem C131_underdog_glicko2 : forall fuel r1 RD1 s1 r2 RD2 s2 o t tol q1 q2, 0 < s1 -> 0 < s2 -> 0 < t -> 0 <= tol -> r1 <= r2 -> o = WIN \/ (o = DRAW /\ r1 < r2) ->
  let p1 := mkGlicko2 (Fin r1) (Fin RD1) (Fin s1) in let p2 := mkGlicko2 (Fin r2) (Fin RD2) (Fin s2) in
  glicko2 fuel p1 p2 o (mkGlicko2Config (Fin t) (Fin tol)) = Some (q1, q2) ->
  exists e e', fst (glicko2_expected_score p1 p2) = Fin e /\ fst (glicko2_expected_score q1 q2) = Fin e' /\ e < e'.
Proof. exact C131_glicko2_proof. Qed.
Print Assumptions C131_underdog_glicko2.
Theorem C131_underdog_weng_lin : forall m1 s1 m2 s2 o beta kappa, 0 < s1 -> 0 < s2 -> 0 < beta -> 0 < kappa <= 1 -> m1 <= m2 -> o = WIN \/ (o = DRAW /\ m1 < m2) ->
  let cfg := mkWLConfig (Fin beta) (Fin kappa) in let p1 := mkWL (Fin m1) (Fin s1) in let p2 := mkWL (Fin m2) (Fin s2) in
  let '(q1, q2) := weng_lin p1 p2 o cfg in
  exists e e', fst (wl_expected_score p1 p2 cfg) = Fin e /\ fst (wl_expected_score q1 q2 cfg) = Fin e' /\ e < e' /\ (o = DRAW -> e' < 1 / 2).
Proof. exact C131_wl_proof. Qed.
Print Assumptions C131_underdog_weng_lin.
Theorem C131_underdog_trueskill : forall m1 s1 m2 s2 dp beta tau, 0 < s1 -> 0 < s2 -> 0 < beta -> 0 <= dp <= 1 -> m1 <= m2 ->
  tau ^ 2 <= 2 * beta ^ 2 + s1 ^ 2 -> tau ^ 2 <= 2 * beta ^ 2 + s2 ^ 2 ->
  let cfg := ts_cfg dp beta tau in let p1 := ts_in (m1, s1) in let p2 := ts_in (m2, s2) in
  let '(q1, q2) := trueskill p1 p2 WIN cfg in
  exists e e' m1' m2', fst (ts_expected_score p1 p2 cfg) = Fin e /\ fst (ts_expected_score q1 q2 cfg) = Fin e' /\
    ts_rating q1 = Fin m1' /\ ts_rating q2 = Fin m2' /\ (m1' <= m2' -> e < e') /\ e <= e' + 0.0000002.
Proof. exact C131_ts_proof. Qed.
Print Assumptions C131_underdog_trueskill.
Theorem C131_underdog_egf : forall r1 r2, -900 <= r1 -> r1 <= r2 -> r2 <= 3100 ->
  let p1 := mkEgf (Fin r1) in let p2 := mkEgf (Fin r2) in let '(q1, q2) := egf p1 p2 WIN egf_config_new in
  exists e e', fst (egf_expected_score p1 p2 egf_config_new) = Fin e /\ fst (egf_expected_score q1 q2 egf_config_new) = Fin e' /\ e < e'.
Proof. exact C131_egf_proof. Qed.
Print Assumptions C131_underdog_egf.
(** Ingo: exactly the winners with an expected score below 1. *)
Theorem C131_rematch_ingo : forall r1 a1 r2 a2, let p1 := mkIngo (Fin r1) a1 in let p2 := mkIngo (Fin r2) a2 in let '(q1, q2) := ingo p1 p2 WIN in
  exists e e', fst (ingo_expected_score p1 p2) = Fin e /\ fst (ingo_expected_score q1 q2) = Fin e' /\ (e < 1 -> e < e') /\ (1 < e -> e' < e).
Proof. exact C131_ingo_proof. Qed.
Print Assumptions C131_rematch_ingo.
(** Beating a far weaker opponent lowers the expected score for the rematch. *)
Theorem C131_favourite_glicko_refuted : forall r1 RD1 RD2 c, 0 < RD1 < 350 -> 0 < RD2 <= 350 -> c <> 0 -> exists r2, r2 < r1 /\
  let p1 := mkGlicko (Fin r1) (Fin RD1) in let p2 := mkGlicko (Fin r2) (Fin RD2) in
  let '(q1, q2) := glicko p1 p2 WIN (mkGlickoConfig (Fin c)) in
  exists e e', fst (glicko_expected_score p1 p2) = Fin e /\ fst (glicko_expected_score q1 q2) = Fin e' /\ e' < e.
Proof. exact C131_glicko_refuted_proof. Qed.
Print Assumptions C131_favourite_glicko_refuted.
Theorem C131_favourite_glicko2_refuted : forall r1 RD1 s1 RD2 s2 t tol, 0 < s1 -> 0 < s2 -> 0 < t -> 0 < tol -> t ^ 2 * s1 ^ 2 <= 1 / 10 -> t ^ 2 * s2 ^ 2 <= 1 / 10 -> exists r2, r2 < r1 /\
  let p1 := mkGlicko2 (Fin r1) (Fin RD1) (Fin s1) in let p2 := mkGlicko2 (Fin r2) (Fin RD2) (Fin s2) in
  exists fuel q1 q2 e e', glicko2 fuel p1 p2 WIN (mkGlicko2Config (Fin t) (Fin tol)) = Some (q1, q2) /\
  fst (glicko2_expected_score p1 p2) = Fin e /\ fst (glicko2_expected_score q1 q2) = Fin e' /\ e' < e.
Proof. exact C131_glicko2_refuted_proof. Qed.
Print Assumptions C131_favourite_glicko2_refuted.
Theorem C131_favourite_trueskill_refuted : forall m1 s1 s2 dp beta tau, 0 < s1 -> 0 < s2 -> 0 < beta -> tau <> 0 -> exists m2, m2 < m1 /\
  let cfg := ts_cfg dp beta tau in let p1 := ts_in (m1, s1) in let p2 := ts_in (m2, s2) in
  let '(q1, q2) := trueskill p1 p2 WIN cfg in
  exists e e', fst (ts_expected_score p1 p2 cfg) = Fin e /\ fst (ts_expected_score q1 q2 cfg) = Fin e' /\ e' < e.
Proof. exact C131_ts_refuted_proof. Qed.
Print Assumptions C131_favourite_trueskill_refuted.
Theorem C131_provisional_uscf_refuted : forall r1 n1 r2 n2 t, (n1 <= 8)%N -> (n2 <= 8)%N -> 100 <= r2 -> r2 + 400 < r1 ->
  let p1 := mkUscf (Fin r1) n1 in let p2 := mkUscf (Fin r2) n2 in let '(q1, q2) := uscf p1 p2 WIN (mkUscfConfig (Fin t)) in
  exists e e', fst (uscf_expected_score p1 p2) = Fin e /\ fst (uscf_expected_score q1 q2) = Fin e' /\ e' < e.
Proof. exact C131_uscf_refuted_proof. Qed.
Print Assumptions C131_provisional_uscf_refuted.
Theorem C131_favourite_egf_refuted : forall r1, 2000 <= r1 <= 2700 ->
  let p1 := mkEgf (Fin r1) in let p2 := mkEgf (Fin (-900)) in let '(q1, q2) := egf p1 p2 WIN egf_config_new in
  exists e e', fst (egf_expected_score p1 p2 egf_config_new) = Fin e /\ fst (egf_expected_score q1 q2 egf_config_new) = Fin e' /\ e' < e.
Proof. exact C131_egf_refuted_proof. Qed.
Print Assumptions C131_favourite_egf_refuted.

(* A club player beats a stronger one. *)
Example C131_elo_case : 0 < 32. Proof. lra. Qed.
Example C131_count_case : (1 <= 5)%N /\ (1 <= 12)%N /\ (8 < 20)%N /\ (8 < 9)%N /\ 100 <= 1500. Proof. repeat split; try lia; lra. Qed.
(* A new player beats an established one, with the default c of 63.2. *)
Example C131_glicko_case : exists e e', fst (glicko_expected_score (mkGlicko (Fin 1500) (Fin 350)) (mkGlicko (Fin 1700) (Fin 50))) = Fin e /\
  fst (glicko_expected_score (fst (glicko (mkGlicko (Fin 1500) (Fin 350)) (mkGlicko (Fin 1700) (Fin 50)) WIN (mkGlickoConfig (Fin 63.2))))
    (snd (glicko (mkGlicko (Fin 1500) (Fin 350)) (mkGlicko (Fin 1700) (Fin 50)) WIN (mkGlickoConfig (Fin 63.2))))) = Fin e' /\ e < e'.
Proof.
  pose proof (C131_underdog_glicko 1500 350 1700 50 63.2 WIN ltac:(lra) ltac:(lra) ltac:(lra) (or_introl eq_refl)) as H. cbv zeta in H.
  destruct (glicko (mkGlicko (Fin 1500) (Fin 350)) (mkGlicko (Fin 1700) (Fin 50)) WIN (mkGlickoConfig (Fin 63.2))) as [q1 q2]. exact H.
Qed.
(* The default settings of Glicko-2, Weng-Lin and TrueSkill. *)
Example C131_glicko2_case : 0 < 0.06 /\ 0 < 0.5 /\ 0 < 0.000001 /\ 0.5 ^ 2 * 0.06 ^ 2 <= 1 / 10 /\ 1500 <= 1700. Proof. repeat split; lra. Qed.
Example C131_wl_case : 0 < 25 / 3 /\ 0 < 25 / 6 /\ 0 < 0.000001 <= 1 /\ 20 < 25. Proof. repeat split; lra. Qed.
Example C131_ts_case : 0 < 25 / 3 /\ 0 < 25 / 6 /\ 0 <= 0.1 <= 1 /\ 20 <= 25 /\ (25 / 300) ^ 2 <= 2 * (25 / 6) ^ 2 + (25 / 3) ^ 2 /\ 25 / 300 <> 0. Proof. repeat split; lra. Qed.
(* A provisional player (1800) beats another one (1200). *)
Example C131_uscf_case : (4 <= 8)%N /\ (7 <= 8)%N /\ 100 <= 1200 /\ 1200 + 400 < 1800. Proof. repeat split; try lia; lra. Qed.
Example C131_egf_case : -900 <= 1000 /\ 1000 <= 1500 /\ 1500 <= 3100 /\ 2000 <= 2400 <= 2700. Proof. repeat split; lra. Qed.
