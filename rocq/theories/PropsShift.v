(** Order of games, translations and changes of scale. *)
From Coq Require Import ZArith NArith List Bool Reals Lra Lia Permutation.
From Verif Require Import Arith XR ModelLib ModelElo ModelFifa ModelIngo ModelUscf ModelEgf ModelGlicko ModelSticko ModelGlicko2 ModelWengLin ModelTS
  Spec SpecIn SpecTS SpecInTS ProofShift.
Import Spec ListNotations.
Local Open Scope R_scope.

(** C109: the order of the games of a USCF or EGF period does not matter. *)
Theorem C109_uscf_order : forall r n rs rs' t, Permutation rs rs' -> (n + N.of_nat (length rs) < 2 ^ 64)%N ->
  uscf_rating_period (mkUscf (Fin r) n) (map (fun '(rj, nj, o) => (mkUscf (Fin rj) nj, o)) rs) (mkUscfConfig (Fin t)) =
  uscf_rating_period (mkUscf (Fin r) n) (map (fun '(rj, nj, o) => (mkUscf (Fin rj) nj, o)) rs') (mkUscfConfig (Fin t)).
Proof. exact C109_uscf_proof. Qed.
Print Assumptions C109_uscf_order.
Theorem C109_egf_order : forall r rs rs', r < 3300 -> Permutation rs rs' ->
  (forall opp o H, In (opp, o, H) rs -> egf_adj (egf_h1 H) r < 3300 /\ egf_adj (egf_h2 H) opp < 3300) ->
  egf_rating_period (mkEgf (Fin r)) (map (fun '(opp, o, H) => (mkEgf (Fin opp), o, mkEgfConfig (Fin H))) rs) =
  egf_rating_period (mkEgf (Fin r)) (map (fun '(opp, o, H) => (mkEgf (Fin opp), o, mkEgfConfig (Fin H))) rs').
Proof. exact C109_egf_proof. Qed.
Print Assumptions C109_egf_order.
Example C109_case : Permutation [(1300, 5%N, WIN); (1500, 50%N, LOSS)] [(1500, 50%N, LOSS); (1300, 5%N, WIN)] /\
  (20 + N.of_nat (length [(1300, 5%N, WIN); (1500, 50%N, LOSS)]) < 2 ^ 64)%N.
Proof. split; [constructor|cbn; lia]. Qed.

(** C110: adding x to every rating adds x to every new rating. *)
Theorem C110_shift_elo : forall r1 r2 o k rs x, exists a b c,
  let cfg := mkEloConfig (Fin k) in
  elo (mkElo (Fin r1)) (mkElo (Fin r2)) o cfg = (mkElo (Fin a), mkElo (Fin b)) /\
  elo (mkElo (Fin (r1 + x))) (mkElo (Fin (r2 + x))) o cfg = (mkElo (Fin (a + x)), mkElo (Fin (b + x))) /\
  elo_rating_period (mkElo (Fin r1)) (map (fun '(r, o) => (mkElo (Fin r), o)) rs) cfg = mkElo (Fin c) /\
  elo_rating_period (mkElo (Fin (r1 + x))) (map (fun '(r, o) => (mkElo (Fin (r + x)), o)) rs) cfg = mkElo (Fin (c + x)).
Proof. exact C110_elo_proof. Qed.
Print Assumptions C110_shift_elo.
Theorem C110_shift_fifa : forall r1 r2 o i ko pen rs x, exists a b c,
  let cfg := mkFifaConfig (Fin i) ko pen in
  fifa (mkFifa (Fin r1)) (mkFifa (Fin r2)) o cfg = (mkFifa (Fin a), mkFifa (Fin b)) /\
  fifa (mkFifa (Fin (r1 + x))) (mkFifa (Fin (r2 + x))) o cfg = (mkFifa (Fin (a + x)), mkFifa (Fin (b + x))) /\
  fifa_rating_period (mkFifa (Fin r1)) (map (fun '(r, o, j, kj, pj) => (mkFifa (Fin r), o, mkFifaConfig (Fin j) kj pj)) rs) = mkFifa (Fin c) /\
  fifa_rating_period (mkFifa (Fin (r1 + x))) (map (fun '(r, o, j, kj, pj) => (mkFifa (Fin (r + x)), o, mkFifaConfig (Fin j) kj pj)) rs) = mkFifa (Fin (c + x)).
Proof. exact C110_fifa_proof. Qed.
Print Assumptions C110_shift_fifa.
Theorem C110_shift_ingo : forall r1 a1 r2 a2 o rs x, rs <> [] -> exists a b c,
  ingo (mkIngo (Fin r1) a1) (mkIngo (Fin r2) a2) o = (mkIngo (Fin a) a1, mkIngo (Fin b) a2) /\
  ingo (mkIngo (Fin (r1 + x)) a1) (mkIngo (Fin (r2 + x)) a2) o = (mkIngo (Fin (a + x)) a1, mkIngo (Fin (b + x)) a2) /\
  ingo_rating_period (mkIngo (Fin r1) a1) (map (fun '(r, a, o) => (mkIngo (Fin r) a, o)) rs) = mkIngo (Fin c) a1 /\
  ingo_rating_period (mkIngo (Fin (r1 + x)) a1) (map (fun '(r, a, o) => (mkIngo (Fin (r + x)) a, o)) rs) = mkIngo (Fin (c + x)) a1.
Proof. exact C110_ingo_proof. Qed.
Print Assumptions C110_shift_ingo.
Theorem C110_shift_glicko : forall r1 RD1 r2 RD2 o c rs x, 0 < RD1 -> 0 < RD2 -> rs <> [] -> exists a d b e f h,
  let cfg := mkGlickoConfig (Fin c) in
  glicko (mkGlicko (Fin r1) (Fin RD1)) (mkGlicko (Fin r2) (Fin RD2)) o cfg = (mkGlicko (Fin a) (Fin d), mkGlicko (Fin b) (Fin e)) /\
  glicko (mkGlicko (Fin (r1 + x)) (Fin RD1)) (mkGlicko (Fin (r2 + x)) (Fin RD2)) o cfg = (mkGlicko (Fin (a + x)) (Fin d), mkGlicko (Fin (b + x)) (Fin e)) /\
  glicko_rating_period (mkGlicko (Fin r1) (Fin RD1)) (map (fun '(rj, RDj, o) => (mkGlicko (Fin rj) (Fin RDj), o)) rs) cfg = mkGlicko (Fin f) (Fin h) /\
  glicko_rating_period (mkGlicko (Fin (r1 + x)) (Fin RD1)) (map (fun '(rj, RDj, o) => (mkGlicko (Fin (rj + x)) (Fin RDj), o)) rs) cfg = mkGlicko (Fin (f + x)) (Fin h).
Proof. exact C110_glicko_proof. Qed.
Print Assumptions C110_shift_glicko.
Theorem C110_shift_sticko : forall r1 RD1 r2 RD2 o h beta lambda gamma c rs x, 0 < RD1 -> 0 < RD2 -> 0 <= h -> rs <> [] -> exists a d b e f g,
  let cfg := mkStickoConfig (Fin h) (Fin beta) (Fin lambda) (Fin gamma) (Fin c) in
  sticko (mkSticko (Fin r1) (Fin RD1)) (mkSticko (Fin r2) (Fin RD2)) o cfg = (mkSticko (Fin a) (Fin d), mkSticko (Fin b) (Fin e)) /\
  sticko (mkSticko (Fin (r1 + x)) (Fin RD1)) (mkSticko (Fin (r2 + x)) (Fin RD2)) o cfg = (mkSticko (Fin (a + x)) (Fin d), mkSticko (Fin (b + x)) (Fin e)) /\
  sticko_rating_period (mkSticko (Fin r1) (Fin RD1)) (map (fun '(rj, RDj, o, w) => (mkSticko (Fin rj) (Fin RDj), o, w)) rs) cfg = mkSticko (Fin f) (Fin g) /\
  sticko_rating_period (mkSticko (Fin (r1 + x)) (Fin RD1)) (map (fun '(rj, RDj, o, w) => (mkSticko (Fin (rj + x)) (Fin RDj), o, w)) rs) cfg = mkSticko (Fin (f + x)) (Fin g).
Proof. exact C110_sticko_proof. Qed.
Print Assumptions C110_shift_sticko.
Theorem C110_shift_glicko2 : forall fuel r1 RD1 s1 r2 RD2 s2 o t tol x p q, 0 < s1 -> 0 < s2 -> 0 < t -> 0 <= tol ->
  glicko2 fuel (mkGlicko2 (Fin r1) (Fin RD1) (Fin s1)) (mkGlicko2 (Fin r2) (Fin RD2) (Fin s2)) o (mkGlicko2Config (Fin t) (Fin tol)) = Some (p, q) ->
  exists a d s' b e s'', p = mkGlicko2 (Fin a) (Fin d) (Fin s') /\ q = mkGlicko2 (Fin b) (Fin e) (Fin s'') /\
  glicko2 fuel (mkGlicko2 (Fin (r1 + x)) (Fin RD1) (Fin s1)) (mkGlicko2 (Fin (r2 + x)) (Fin RD2) (Fin s2)) o (mkGlicko2Config (Fin t) (Fin tol)) =
    Some (mkGlicko2 (Fin (a + x)) (Fin d) (Fin s'), mkGlicko2 (Fin (b + x)) (Fin e) (Fin s'')).
Proof. exact C110_glicko2_proof. Qed.
Print Assumptions C110_shift_glicko2.
Theorem C110_shift_glicko2_period : forall fuel r RD s t tol rs x p, 0 < s -> 0 < t -> 0 <= tol ->
  glicko2_rating_period fuel (mkGlicko2 (Fin r) (Fin RD) (Fin s))
    (map (fun '(rj, RDj, sj, o) => (mkGlicko2 (Fin rj) (Fin RDj) (Fin sj), o)) rs) (mkGlicko2Config (Fin t) (Fin tol)) = Some p ->
  exists a d s', p = mkGlicko2 (Fin a) (Fin d) (Fin s') /\
  glicko2_rating_period fuel (mkGlicko2 (Fin (r + x)) (Fin RD) (Fin s))
    (map (fun '(rj, RDj, sj, o) => (mkGlicko2 (Fin (rj + x)) (Fin RDj) (Fin sj), o)) rs) (mkGlicko2Config (Fin t) (Fin tol)) = Some (mkGlicko2 (Fin (a + x)) (Fin d) (Fin s')).
Proof. exact C110_glicko2_period_proof. Qed.
Print Assumptions C110_shift_glicko2_period.
Theorem C110_shift_weng_lin : forall t1 t2 o beta kappa x, wl_ok t1 -> wl_ok t2 -> 0 <= kappa -> length t1 = length t2 -> exists a b,
  weng_lin_two_teams (wlt_in t1) (wlt_in t2) o (mkWLConfig (Fin beta) (Fin kappa)) = (wlt_in a, wlt_in b) /\
  weng_lin_two_teams (wlt_in (map (fun p => (fst p + x, snd p)) t1)) (wlt_in (map (fun p => (fst p + x, snd p)) t2)) o (mkWLConfig (Fin beta) (Fin kappa)) =
    (wlt_in (map (fun p => (fst p + x, snd p)) a), wlt_in (map (fun p => (fst p + x, snd p)) b)).
Proof. exact C110_wl_shift_proof. Qed.
Print Assumptions C110_shift_weng_lin.
Theorem C110_shift_trueskill : forall t1 t2 o dp beta tau x, wl_ok t1 -> wl_ok t2 -> length t1 = length t2 ->
  let f := map (fun p : TrueSkillRating XR => mkTS (fadd (ts_rating p) (Fin x)) (ts_uncertainty p)) in
  trueskill_two_teams (tst_in (map (fun p => (fst p + x, snd p)) t1)) (tst_in (map (fun p => (fst p + x, snd p)) t2)) o (ts_cfg dp beta tau) =
  (f (fst (trueskill_two_teams (tst_in t1) (tst_in t2) o (ts_cfg dp beta tau))), f (snd (trueskill_two_teams (tst_in t1) (tst_in t2) o (ts_cfg dp beta tau)))).
Proof. exact C110_ts_shift_proof. Qed.
Print Assumptions C110_shift_trueskill.
(** Multiplying every rating, uncertainty and scale parameter by l multiplies the
    results by l. *)
Theorem C110_scale_weng_lin : forall t1 t2 o beta kappa l, wl_ok t1 -> wl_ok t2 -> 0 <= kappa -> 0 < l -> exists a b,
  weng_lin_two_teams (wlt_in t1) (wlt_in t2) o (mkWLConfig (Fin beta) (Fin kappa)) = (wlt_in a, wlt_in b) /\
  weng_lin_two_teams (wlt_in (map (fun p => (l * fst p, l * snd p)) t1)) (wlt_in (map (fun p => (l * fst p, l * snd p)) t2)) o (mkWLConfig (Fin (l * beta)) (Fin kappa)) =
    (wlt_in (map (fun p => (l * fst p, l * snd p)) a), wlt_in (map (fun p => (l * fst p, l * snd p)) b)).
Proof. exact C110_wl_scale_proof. Qed.
Print Assumptions C110_scale_weng_lin.
Theorem C110_scale_trueskill : forall t1 t2 o dp beta tau l, wl_ok t1 -> wl_ok t2 -> 0 < l ->
  let f := map (fun p : TrueSkillRating XR => mkTS (fmul (Fin l) (ts_rating p)) (fmul (Fin l) (ts_uncertainty p))) in
  trueskill_two_teams (tst_in (map (fun p => (l * fst p, l * snd p)) t1)) (tst_in (map (fun p => (l * fst p, l * snd p)) t2)) o (ts_cfg dp (l * beta) (l * tau)) =
  (f (fst (trueskill_two_teams (tst_in t1) (tst_in t2) o (ts_cfg dp beta tau))), f (snd (trueskill_two_teams (tst_in t1) (tst_in t2) o (ts_cfg dp beta tau)))).
Proof. exact C110_ts_scale_proof. Qed.
Print Assumptions C110_scale_trueskill.
(** One against one: both. *)
Theorem C110_weng_lin_1v1 : forall m1 s1 m2 s2 o beta kappa x l, 0 < s1 -> 0 < s2 -> 0 <= kappa -> 0 < l -> exists a d b e,
  weng_lin (mkWL (Fin m1) (Fin s1)) (mkWL (Fin m2) (Fin s2)) o (mkWLConfig (Fin beta) (Fin kappa)) = (mkWL (Fin a) (Fin d), mkWL (Fin b) (Fin e)) /\
  weng_lin (mkWL (Fin (m1 + x)) (Fin s1)) (mkWL (Fin (m2 + x)) (Fin s2)) o (mkWLConfig (Fin beta) (Fin kappa)) = (mkWL (Fin (a + x)) (Fin d), mkWL (Fin (b + x)) (Fin e)) /\
  weng_lin (mkWL (Fin (l * m1)) (Fin (l * s1))) (mkWL (Fin (l * m2)) (Fin (l * s2))) o (mkWLConfig (Fin (l * beta)) (Fin kappa)) = (mkWL (Fin (l * a)) (Fin (l * d)), mkWL (Fin (l * b)) (Fin (l * e))).
Proof. exact C110_wl_1v1_proof. Qed.
Print Assumptions C110_weng_lin_1v1.
Theorem C110_trueskill_1v1 : forall m1 s1 m2 s2 o dp beta tau x l, 0 < s1 -> 0 < s2 -> 0 < l ->
  let f := fun p : TrueSkillRating XR => mkTS (fadd (ts_rating p) (Fin x)) (ts_uncertainty p) in
  let g := fun p : TrueSkillRating XR => mkTS (fmul (Fin l) (ts_rating p)) (fmul (Fin l) (ts_uncertainty p)) in
  let '(p, q) := trueskill (ts_in (m1, s1)) (ts_in (m2, s2)) o (ts_cfg dp beta tau) in
  trueskill (ts_in (m1 + x, s1)) (ts_in (m2 + x, s2)) o (ts_cfg dp beta tau) = (f p, f q) /\
  trueskill (ts_in (l * m1, l * s1)) (ts_in (l * m2, l * s2)) o (ts_cfg dp (l * beta) (l * tau)) = (g p, g q).
Proof. exact C110_ts_1v1_proof. Qed.
Print Assumptions C110_trueskill_1v1.
Example C110_case : wl_ok [(25, 25/3); (30, 4)] /\ length [(25, 25/3); (30, 4)] = length [(20, 3); (25, 8)] /\ [(1400, 30, WIN)] <> [].
Proof. split; [split; [discriminate|repeat constructor; cbn; lra]|]. split; [reflexivity|discriminate]. Qed.
