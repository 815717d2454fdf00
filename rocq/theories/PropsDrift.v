(** Does the mean rating move when results follow the expected scores? *)
From Coq Require Import ZArith NArith List Bool Reals Lra Lia.
From Verif Require Import Arith XR ModelLib ModelElo ModelFifa ModelIngo ModelUscf ModelEgf ModelDwz ModelGlicko ModelWengLin ModelTS ModelSticko ModelBoost
  Spec SpecIn SpecTS SpecInTS ProofElo ProofGlicko MathTS MathTSNorm2 ProofDrift ProofDrift2.
Import Spec ListNotations.
Local Open Scope R_scope.

(** C108: a win, draw and loss come with probabilities pw, pd, pl whose mean score
    is the value of [expected_score]; f o is the new rating after outcome o. *)
Theorem C108_no_drift_elo : forall r1 r2 k e1 e2 pw pd pl,
  elo_expected_score (mkElo (Fin r1)) (mkElo (Fin r2)) = (Fin e1, Fin e2) -> pw + pd + pl = 1 -> pw + pd / 2 = e1 ->
  exists f g : Outcomes -> R,
    (forall o, elo (mkElo (Fin r1)) (mkElo (Fin r2)) o (mkEloConfig (Fin k)) = (mkElo (Fin (f o)), mkElo (Fin (g o)))) /\
    pw * f WIN + pd * f DRAW + pl * f LOSS = r1 /\ pw * g WIN + pd * g DRAW + pl * g LOSS = r2.
Proof. exact C108_elo_proof. Qed.
Print Assumptions C108_no_drift_elo.
Theorem C108_no_drift_fifa : forall r1 r2 i e1 e2 pw pd pl,
  fifa_expected_score (mkFifa (Fin r1)) (mkFifa (Fin r2)) = (Fin e1, Fin e2) -> pw + pd + pl = 1 -> pw + pd / 2 = e1 ->
  exists f g : Outcomes -> R,
    (forall o, fifa (mkFifa (Fin r1)) (mkFifa (Fin r2)) o (mkFifaConfig (Fin i) false false) = (mkFifa (Fin (f o)), mkFifa (Fin (g o)))) /\
    pw * f WIN + pd * f DRAW + pl * f LOSS = r1 /\ pw * g WIN + pd * g DRAW + pl * g LOSS = r2.
Proof. exact C108_fifa_proof. Qed.
Print Assumptions C108_no_drift_fifa.
Theorem C108_no_drift_ingo : forall r1 a1 r2 a2 e1 e2 pw pd pl,
  ingo_expected_score (mkIngo (Fin r1) a1) (mkIngo (Fin r2) a2) = (Fin e1, Fin e2) -> pw + pd + pl = 1 -> pw + pd / 2 = e1 ->
  exists f g : Outcomes -> R,
    (forall o, ingo (mkIngo (Fin r1) a1) (mkIngo (Fin r2) a2) o = (mkIngo (Fin (f o)) a1, mkIngo (Fin (g o)) a2)) /\
    pw * f WIN + pd * f DRAW + pl * f LOSS = r1 /\ pw * g WIN + pd * g DRAW + pl * g LOSS = r2.
Proof. exact C108_ingo_proof. Qed.
Print Assumptions C108_no_drift_ingo.
Theorem C108_no_drift_weng_lin : forall m1 s1 m2 s2 beta kappa e1 e2 pw pd pl, 0 < s1 -> 0 < s2 -> 0 < beta -> 0 <= kappa ->
  wl_expected_score (mkWL (Fin m1) (Fin s1)) (mkWL (Fin m2) (Fin s2)) (mkWLConfig (Fin beta) (Fin kappa)) = (Fin e1, Fin e2) -> pw + pd + pl = 1 -> pw + pd / 2 = e1 ->
  exists f g : Outcomes -> R,
    (forall o, let '(p, q) := weng_lin (mkWL (Fin m1) (Fin s1)) (mkWL (Fin m2) (Fin s2)) o (mkWLConfig (Fin beta) (Fin kappa)) in
       wl_rating p = Fin (f o) /\ wl_rating q = Fin (g o)) /\
    pw * f WIN + pd * f DRAW + pl * f LOSS = m1 /\ pw * g WIN + pd * g DRAW + pl * g LOSS = m2.
Proof. exact C108_wl_proof. Qed.
Print Assumptions C108_no_drift_weng_lin.
Theorem C108_no_drift_weng_lin_teams : forall t1 t2 beta kappa e1 e2 pw pd pl, wl_ok t1 -> wl_ok t2 -> 0 < beta -> 0 <= kappa ->
  wl_expected_score_two_teams (wlt_in t1) (wlt_in t2) (mkWLConfig (Fin beta) (Fin kappa)) = (Fin e1, Fin e2) -> pw + pd + pl = 1 -> pw + pd / 2 = e1 ->
  exists f : Outcomes -> nat -> R,
    (forall o j p, nth_error t1 j = Some p -> exists q, nth_error (fst (weng_lin_two_teams (wlt_in t1) (wlt_in t2) o (mkWLConfig (Fin beta) (Fin kappa)))) j = Some q /\ wl_rating q = Fin (f o j)) /\
    (forall j p, nth_error t1 j = Some p -> pw * f WIN j + pd * f DRAW j + pl * f LOSS j = fst p).
Proof. exact C108_wl_teams_proof. Qed.
Print Assumptions C108_no_drift_weng_lin_teams.
Theorem C108_no_drift_trueskill : forall m1 s1 m2 s2 dp beta tau e, 0 < s1 -> 0 < s2 -> ts_draw_margin (Fin dp) (Fin beta) (Fin 2) = Fin e ->
  let c := sqrt (2 * beta ^ 2 + s1 ^ 2 + s2 ^ 2) in let t := (m1 - m2) / c in
  let pw := Phi (t - e / c) in let pd := Phi (e / c - Rabs t) - Phi (- (e / c) - Rabs t) in let pl := Phi (- t - e / c) in
  Rabs t <> e / c -> tiny <= pw -> tiny <= pd -> tiny <= pl ->
  pw + pd + pl = 1 /\
  exists f g : Outcomes -> R,
    (forall o, let '(p, q) := trueskill (ts_in (m1, s1)) (ts_in (m2, s2)) o (ts_cfg dp beta tau) in ts_rating p = Fin (f o) /\ ts_rating q = Fin (g o)) /\
    pw * f WIN + pd * f DRAW + pl * f LOSS = m1 /\ pw * g WIN + pd * g DRAW + pl * g LOSS = m2.
Proof. exact C108_ts_proof. Qed.
Print Assumptions C108_no_drift_trueskill.
Theorem C108_no_drift_dwz : forall r1 i1 a1 r2 i2 a2 e1 e2 pw pd pl, (1 <= i1)%N -> (1 <= i2)%N -> 1300 <= r1 -> (20 <= a1)%N ->
  dwz_expected_score (mkDwz (Fin r1) i1 a1) (mkDwz (Fin r2) i2 a2) = (Fin e1, Fin e2) -> pw + pd + pl = 1 -> pw + pd / 2 = e1 ->
  exists f : Outcomes -> R,
    (forall o, dwz_rating (fst (dwz (mkDwz (Fin r1) i1 a1) (mkDwz (Fin r2) i2 a2) o)) = Fin (f o)) /\
    pw * f WIN + pd * f DRAW + pl * f LOSS = r1.
Proof. exact C108_dwz_proof. Qed.
Print Assumptions C108_no_drift_dwz.
Theorem C108_no_drift_uscf_partial : forall r1 n1 r2 n2 t e1 e2 pw pd pl, (8 < n1)%N ->
  uscf_expected_score (mkUscf (Fin r1) n1) (mkUscf (Fin r2) n2) = (Fin e1, Fin e2) -> pw + pd + pl = 1 -> pw + pd / 2 = e1 ->
  100 <= r1 - uscf_K r1 (IZR (Z.of_N n1)) 1 * e1 ->
  exists f : Outcomes -> R,
    (forall o, uscf_rating (fst (uscf (mkUscf (Fin r1) n1) (mkUscf (Fin r2) n2) o (mkUscfConfig (Fin t)))) = Fin (f o)) /\
    pw * f WIN + pd * f DRAW + pl * f LOSS = r1.
Proof. exact C108_uscf_proof. Qed.
Print Assumptions C108_no_drift_uscf_partial.
(** Where the claim fails, and in which direction. *)
Theorem C108_drift_glicko : forall r1 RD1 r2 RD2 c e1 e2 pw pd pl, 0 < RD1 -> 0 < RD2 ->
  glicko_expected_score (mkGlicko (Fin r1) (Fin RD1)) (mkGlicko (Fin r2) (Fin RD2)) = (Fin e1, Fin e2) -> pw + pd + pl = 1 -> pw + pd / 2 = e1 ->
  exists f : Outcomes -> R,
    (forall o, gl_rating (fst (glicko (mkGlicko (Fin r1) (Fin RD1)) (mkGlicko (Fin r2) (Fin RD2)) o (mkGlickoConfig (Fin c)))) = Fin (f o)) /\
    (r2 < r1 -> pw * f WIN + pd * f DRAW + pl * f LOSS < r1) /\
    (r1 < r2 -> r1 < pw * f WIN + pd * f DRAW + pl * f LOSS) /\
    (r1 = r2 -> pw * f WIN + pd * f DRAW + pl * f LOSS = r1).
Proof. exact C108_glicko_proof. Qed.
Print Assumptions C108_drift_glicko.
Theorem C108_drift_egf : forall r1 r2 H e1 e2 pw pd pl, -900 <= r1 < 3300 -> r2 < 3300 -> egf_adj (egf_h1 H) r1 < 3300 -> egf_adj (egf_h2 H) r2 < 3300 ->
  egf_expected_score (mkEgf (Fin r1)) (mkEgf (Fin r2)) (mkEgfConfig (Fin H)) = (Fin e1, Fin e2) -> pw + pd + pl = 1 -> pw + pd / 2 = e1 -> 0 <= pw -> 0 <= pd -> 0 <= pl ->
  exists f : Outcomes -> R,
    (forall o, egf_rating (fst (egf (mkEgf (Fin r1)) (mkEgf (Fin r2)) o (mkEgfConfig (Fin H)))) = Fin (f o)) /\
    r1 + egf_bon r1 <= pw * f WIN + pd * f DRAW + pl * f LOSS /\ 0 < egf_bon r1 /\
    (-900 <= r1 - egf_C r1 * e1 + egf_bon r1 -> pw * f WIN + pd * f DRAW + pl * f LOSS = r1 + egf_bon r1).
Proof. exact C108_egf_proof. Qed.
Print Assumptions C108_drift_egf.
Theorem C108_drift_sticko : forall r1 RD1 r2 RD2 h beta lambda gamma c e1 e2 pw pd pl, 0 < RD1 -> 0 < RD2 -> 0 <= h -> 0 <= lambda ->
  let cfg := mkStickoConfig (Fin h) (Fin beta) (Fin lambda) (Fin gamma) (Fin c) in
  sticko_expected_score (mkSticko (Fin r1) (Fin RD1)) (mkSticko (Fin r2) (Fin RD2)) cfg = (Fin e1, Fin e2) -> pw + pd + pl = 1 -> pw + pd / 2 = e1 ->
  exists f : Outcomes -> R,
    (forall o, st_rating (fst (sticko (mkSticko (Fin r1) (Fin RD1)) (mkSticko (Fin r2) (Fin RD2)) o cfg)) = Fin (f o)) /\
    (beta <= 0 -> r2 <= r1 -> r2 < r1 + gamma -> pw * f WIN + pd * f DRAW + pl * f LOSS < r1) /\
    (0 <= beta -> r1 <= r2 -> r1 + gamma < r2 -> r1 < pw * f WIN + pd * f DRAW + pl * f LOSS) /\
    (beta = 0 -> gamma = 0 -> r1 = r2 -> pw * f WIN + pd * f DRAW + pl * f LOSS = r1) /\
    (0 < beta -> gamma = 0 -> r1 = r2 -> r1 < pw * f WIN + pd * f DRAW + pl * f LOSS).
Proof. exact C108_sticko_proof. Qed.
Print Assumptions C108_drift_sticko.
Theorem C108_drift_boost : forall r1 RD1 r2 RD2 c e1 e2 pw pd pl, 0 < RD1 -> 0 < RD2 -> 0 <= bc_k c -> 0 <= bc_b0 c -> 0 <= bc_b1 c ->
  let cfg := mkBoostConfig (Fin (bc_eta c)) (Fin (bc_k c)) (Fin (bc_b0 c)) (Fin (bc_b1 c))
    (Fin (bc_a0 c)) (Fin (bc_a1 c)) (Fin (bc_a2 c)) (Fin (bc_a3 c)) (Fin (bc_a4 c)) in
  let g o := [(r2 - bc_eta c, RD2, points o)] in
  boost_expected_score (mkBoost (Fin r1) (Fin RD1)) (mkBoost (Fin r2) (Fin RD2)) cfg = (Fin e1, Fin e2) -> pw + pd + pl = 1 -> pw + pd / 2 = e1 -> 0 <= pw -> 0 <= pd ->
  exists f : Outcomes -> R,
    (forall o, gb_rating (fst (glicko_boost (mkBoost (Fin r1) (Fin RD1)) (mkBoost (Fin r2) (Fin RD2)) o cfg)) = Fin (f o)) /\
    (bc_k c = 0 \/ 1 <= bc_k c -> r2 < r1 + bc_eta c -> pw * f WIN + pd * f DRAW + pl * f LOSS < r1) /\
    (bc_k c = 0 \/ 1 <= bc_k c -> r2 = r1 + bc_eta c -> pw * f WIN + pd * f DRAW + pl * f LOSS = r1) /\
    ((forall o, bc_k c <> 0 -> bc_k c < boost_Z r1 (g o) -> RD1 <= (1 + (boost_Z r1 (g o) - bc_k c) * bc_b0 c) * glicko_rd r1 RD1 (g o) + bc_b1 c) ->
     r1 + bc_eta c < r2 -> r1 < pw * f WIN + pd * f DRAW + pl * f LOSS).
Proof. exact C108_boost_proof. Qed.
Print Assumptions C108_drift_boost.
Theorem C108_drift_dwz : forall r1 i1 a1 r2 i2 a2 e1 e2 pw pd pl, (1 <= i1)%N -> (1 <= i2)%N ->
  dwz_expected_score (mkDwz (Fin r1) i1 a1) (mkDwz (Fin r2) i2 a2) = (Fin e1, Fin e2) -> pw + pd + pl = 1 -> pw + pd / 2 = e1 -> 0 <= pw -> 0 <= pd ->
  exists f : Outcomes -> R,
    (forall o, dwz_rating (fst (dwz (mkDwz (Fin r1) i1 a1) (mkDwz (Fin r2) i2 a2) o)) = Fin (f o)) /\
    (r1 <= 2000 \/ (20 <= a1)%N -> r1 <= pw * f WIN + pd * f DRAW + pl * f LOSS) /\
    (2000 <= r1 \/ 1300 <= r1 /\ (20 <= a1)%N -> pw * f WIN + pd * f DRAW + pl * f LOSS <= r1) /\
    (1300 <= r1 < 2000 -> (a1 < 20)%N -> (5 <= i1)%N -> 0 < pw -> r1 < pw * f WIN + pd * f DRAW + pl * f LOSS) /\
    (2000 < r1 <= 2200 -> (a1 < 20)%N -> (6 <= i1)%N -> 0 < pw -> pw * f WIN + pd * f DRAW + pl * f LOSS < r1).
Proof. exact C108_dwz_age_proof. Qed.
Print Assumptions C108_drift_dwz.
Theorem C108_drift_fifa_knockout : forall r1 r2 i e1 e2 pw pd pl, 0 < i ->
  fifa_expected_score (mkFifa (Fin r1)) (mkFifa (Fin r2)) = (Fin e1, Fin e2) -> pw + pd + pl = 1 -> pw + pd / 2 = e1 -> 0 < pw -> 0 <= pd -> 0 < pl ->
  exists f g : Outcomes -> R,
    (forall o, fifa (mkFifa (Fin r1)) (mkFifa (Fin r2)) o (mkFifaConfig (Fin i) true false) = (mkFifa (Fin (f o)), mkFifa (Fin (g o)))) /\
    r1 < pw * f WIN + pd * f DRAW + pl * f LOSS /\ r2 < pw * g WIN + pd * g DRAW + pl * g LOSS.
Proof. exact C108_fifa_ko_proof. Qed.
Print Assumptions C108_drift_fifa_knockout.
Theorem C108_no_drift_uscf_refuted : exists r1 n1 r2 n2 t e1 e2 pw pd pl (f : Outcomes -> R), (n1 <= 8)%N /\
  uscf_expected_score (mkUscf (Fin r1) n1) (mkUscf (Fin r2) n2) = (Fin e1, Fin e2) /\ pw + pd + pl = 1 /\ 0 <= pw /\ 0 <= pd /\ 0 <= pl /\ pw + pd / 2 = e1 /\
  (forall o, uscf_rating (fst (uscf (mkUscf (Fin r1) n1) (mkUscf (Fin r2) n2) o (mkUscfConfig (Fin t)))) = Fin (f o)) /\
  pw * f WIN + pd * f DRAW + pl * f LOSS < r1.
Proof. exact C108_uscf_refuted_proof. Qed.
Print Assumptions C108_no_drift_uscf_refuted.
(* Elo 1200 against 1000 with a quarter of draws. *)
Example C108_case : exists e1 e2 pw pd pl, elo_expected_score (mkElo (Fin 1200)) (mkElo (Fin 1000)) = (Fin e1, Fin e2) /\
  pw + pd + pl = 1 /\ pw + pd / 2 = e1 /\ 0 < pw /\ pd = 1 / 4 /\ 0 < pl.
Proof.
  destruct (C03_proof 1200 1000) as (e1 & e2 & E & R & _). destruct (C03_proof 1000 1000) as (e & e' & E' & _ & _ & _ & _ & X & _ & M).
  destruct (M 1200 e1 e2 ltac:(lra) E) as [H _]. destruct (X eq_refl) as [X1 _].
  assert (U : e1 < 7 / 8).
  { rewrite elo_expected_eval in E. injection E as <- _. unfold elo_E. replace ((1000 - 1200) / 400) with (- / 2) by field. rewrite Rpower_Ropp, Rpower_sqrt by lra.
    assert (S : 0 < sqrt 10 < 7) by (split; [apply sqrt_lt_R0; lra|]; rewrite <- (sqrt_pow2 7) by lra; apply sqrt_lt_1_alt; lra).
    assert (/ 7 < / sqrt 10) by (apply Rinv_lt_contravar; [nra|lra]). unfold Rdiv at 1. rewrite Rmult_1_l. replace (7 / 8) with (/ (1 + / 7)) by field. apply Rinv_lt_contravar; [|lra]. apply Rmult_lt_0_compat; lra. }
  exists e1, e2, (e1 - 1 / 8), (1 / 4), (7 / 8 - e1). repeat split; auto; lra.
Qed.
(* TrueSkill players of equal strength: the three probabilities are far from zero. *)
Example C108_ts_case : tiny <= Phi (0 - 0.1) /\ tiny <= Phi (- 0 - 0.1) /\ Rabs 0 <> 0.1.
Proof. rewrite Rabs_R0. repeat split; [apply Phi_not_tiny; lra|apply Phi_not_tiny; lra|lra]. Qed.
(* Default Sticko and Glicko-Boost settings satisfy the side conditions. *)
Example C108_default_case : 0 <= 10 /\ 0 <= 2 /\ (1.96 = 0 \/ 1 <= 1.96) /\ 0 <= 0.20139 /\ 0 <= 17.5 /\ 1500 < 1500 + 30.
Proof. repeat split; try lra. Qed.
