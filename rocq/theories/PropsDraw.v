(** Property theorems: what a drawn game does to the ratings (C133). *)
From Coq Require Import ZArith NArith List Bool Reals Lra Lia.
From Verif Require Import Arith XR ModelLib ModelElo ModelFifa ModelDwz ModelIngo ModelUscf ModelEgf ModelGlicko ModelGlicko2 ModelSticko ModelBoost ModelWengLin ModelTS
  Spec SpecIn SpecTS SpecInTS SpecDraw ProofDraw ProofDrawTS.
Import Spec ListNotations.
Local Open Scope R_scope.

(** C133: a draw moves each rating in the direction of the opponent's rating, and
    leaves the ratings of equally rated players alone. *)
Theorem C133_draw_elo : forall r1 r2 k, 0 < k -> exists x1 x2,
  elo (mkElo (Fin r1)) (mkElo (Fin r2)) DRAW (mkEloConfig (Fin k)) = (mkElo (Fin x1), mkElo (Fin x2)) /\ towards (r2 - r1) r1 x1 /\ towards (r1 - r2) r2 x2.
Proof. exact C133_elo_proof. Qed.
Print Assumptions C133_draw_elo.
Theorem C133_draw_fifa : forall r1 r2 k, 0 < k -> exists x1 x2,
  fifa (mkFifa (Fin r1)) (mkFifa (Fin r2)) DRAW (mkFifaConfig (Fin k) false false) = (mkFifa (Fin x1), mkFifa (Fin x2)) /\ towards (r2 - r1) r1 x1 /\ towards (r1 - r2) r2 x2.
Proof. exact C133_fifa_proof. Qed.
Print Assumptions C133_draw_fifa.
Theorem C133_draw_dwz : forall r1 i1 a1 r2 i2 a2, (1 <= i1)%N -> (1 <= i2)%N -> exists x1 j1 x2 j2,
  dwz (mkDwz (Fin r1) i1 a1) (mkDwz (Fin r2) i2 a2) DRAW = (mkDwz (Fin x1) j1 a1, mkDwz (Fin x2) j2 a2) /\ towards (r2 - r1) r1 x1 /\ towards (r1 - r2) r2 x2.
Proof. exact C133_dwz_proof. Qed.
Print Assumptions C133_draw_dwz.
Theorem C133_draw_uscf : forall r1 n1 r2 n2 t, 100 <= r1 -> 100 <= r2 -> exists x1 m1 x2 m2,
  uscf (mkUscf (Fin r1) n1) (mkUscf (Fin r2) n2) DRAW (mkUscfConfig (Fin t)) = (mkUscf (Fin x1) m1, mkUscf (Fin x2) m2) /\ towards (r2 - r1) r1 x1 /\ towards (r1 - r2) r2 x2.
Proof. exact C133_uscf_proof. Qed.
Print Assumptions C133_draw_uscf.
Theorem C133_draw_ingo : forall r1 a1 r2 a2, exists x1 x2,
  ingo (mkIngo (Fin r1) a1) (mkIngo (Fin r2) a2) DRAW = (mkIngo (Fin x1) a1, mkIngo (Fin x2) a2) /\ towards (r2 - r1) r1 x1 /\ towards (r1 - r2) r2 x2.
Proof. exact C133_ingo_proof. Qed.
Print Assumptions C133_draw_ingo.
Theorem C133_draw_glicko : forall r1 RD1 r2 RD2 c, 0 < RD1 -> 0 < RD2 -> exists x1 d1 x2 d2,
  glicko (mkGlicko (Fin r1) (Fin RD1)) (mkGlicko (Fin r2) (Fin RD2)) DRAW (mkGlickoConfig (Fin c)) = (mkGlicko (Fin x1) d1, mkGlicko (Fin x2) d2) /\ towards (r2 - r1) r1 x1 /\ towards (r1 - r2) r2 x2.
Proof. exact C133_glicko_proof. Qed.
Print Assumptions C133_draw_glicko.
Theorem C133_draw_glicko2 : forall fuel r1 RD1 s1 r2 RD2 s2 t tol q1 q2, 0 < s1 -> 0 < s2 -> 0 < t -> 0 <= tol ->
  glicko2 fuel (mkGlicko2 (Fin r1) (Fin RD1) (Fin s1)) (mkGlicko2 (Fin r2) (Fin RD2) (Fin s2)) DRAW (mkGlicko2Config (Fin t) (Fin tol)) = Some (q1, q2) ->
  exists x1 x2, g2_rating q1 = Fin x1 /\ g2_rating q2 = Fin x2 /\ towards (r2 - r1) r1 x1 /\ towards (r1 - r2) r2 x2.
Proof. exact C133_glicko2_proof. Qed.
Print Assumptions C133_draw_glicko2.
Theorem C133_draw_sticko : forall r1 RD1 r2 RD2 h lambda c, 0 < RD1 -> 0 < RD2 -> 0 <= h -> 0 <= lambda -> exists x1 d1 x2 d2,
  sticko (mkSticko (Fin r1) (Fin RD1)) (mkSticko (Fin r2) (Fin RD2)) DRAW (mkStickoConfig (Fin h) (Fin 0) (Fin lambda) (Fin 0) (Fin c)) = (mkSticko (Fin x1) d1, mkSticko (Fin x2) d2) /\
  towards (r2 - r1) r1 x1 /\ towards (r1 - r2) r2 x2.
Proof. exact C133_sticko_proof. Qed.
Print Assumptions C133_draw_sticko.
Theorem C133_draw_boost : forall r1 RD1 r2 RD2 c, 0 < RD1 -> 0 < RD2 -> 0 <= bc_b0 c -> 0 <= bc_b1 c ->
  let cfg := mkBoostConfig (Fin (bc_eta c)) (Fin (bc_k c)) (Fin (bc_b0 c)) (Fin (bc_b1 c)) (Fin (bc_a0 c)) (Fin (bc_a1 c)) (Fin (bc_a2 c)) (Fin (bc_a3 c)) (Fin (bc_a4 c)) in exists x1 d1 x2 d2,
  glicko_boost (mkBoost (Fin r1) (Fin RD1)) (mkBoost (Fin r2) (Fin RD2)) DRAW cfg = (mkBoost (Fin x1) d1, mkBoost (Fin x2) d2) /\
  towards (r2 - (r1 + bc_eta c)) r1 x1 /\ towards (r1 + bc_eta c - r2) r2 x2.
Proof. exact C133_boost_proof. Qed.
Print Assumptions C133_draw_boost.
Theorem C133_draw_weng_lin : forall m1 s1 m2 s2 beta kappa, 0 < s1 -> 0 < s2 -> 0 < kappa <= 1 -> exists x1 d1 x2 d2,
  weng_lin (mkWL (Fin m1) (Fin s1)) (mkWL (Fin m2) (Fin s2)) DRAW (mkWLConfig (Fin beta) (Fin kappa)) = (mkWL (Fin x1) d1, mkWL (Fin x2) d2) /\ towards (m2 - m1) m1 x1 /\ towards (m1 - m2) m2 x2.
Proof. exact C133_wl_proof. Qed.
Print Assumptions C133_draw_weng_lin.
Theorem C133_draw_weng_lin_teams : forall t1 t2 beta kappa, wl_ok t1 -> wl_ok t2 -> 0 <= kappa ->
  let d := Rsum (map fst t2) - Rsum (map fst t1) in exists t1' t2',
  weng_lin_two_teams (wlt_in t1) (wlt_in t2) DRAW (mkWLConfig (Fin beta) (Fin kappa)) = (wlt_in t1', wlt_in t2') /\
  Forall2 (fun p p' => towards d (fst p) (fst p')) t1 t1' /\ Forall2 (fun p p' => towards (- d) (fst p) (fst p')) t2 t2'.
Proof. exact C133_wl_teams_proof. Qed.
Print Assumptions C133_draw_weng_lin_teams.
Theorem C133_draw_trueskill_teams : forall t1 t2 dp beta tau, wl_ok t1 -> wl_ok t2 -> 0.01 <= dp <= 1 -> 0 < beta -> Forall (fun p => snd p <= 5000 * beta) (t1 ++ t2) ->
  let d := Rsum (map fst t2) - Rsum (map fst t1) in exists t1' t2',
  trueskill_two_teams (tst_in t1) (tst_in t2) DRAW (ts_cfg dp beta tau) = (t1', t2') /\
  Forall2 (fun p q => exists x, ts_rating q = Fin x /\ towards d (fst p) x) t1 t1' /\ Forall2 (fun p q => exists x, ts_rating q = Fin x /\ towards (- d) (fst p) x) t2 t2'.
Proof. exact C133_ts_teams_proof. Qed.
Print Assumptions C133_draw_trueskill_teams.
(** A tie of any number of teams: the strongest team loses, the weakest gains. *)
Theorem C133_tie_weng_lin_multi : forall xs beta kappa, 0 <= kappa -> Forall (fun x => wl_ok (fst x)) xs -> (forall x y, In x xs -> In y xs -> snd x = snd y) ->
  let sum (x : list (R * R) * N) := Rsum (map fst (fst x)) in exists ys,
  weng_lin_multi_team (map wlr_in xs) (mkWLConfig (Fin beta) (Fin kappa)) = map wlt_in ys /\
  Forall2 (fun x y =>
    ((forall z, In z xs -> sum z <= sum x) -> (exists z, In z xs /\ sum z < sum x) -> Forall2 (fun p p' => fst p' < fst p) (fst x) y) /\
    ((forall z, In z xs -> sum x <= sum z) -> (exists z, In z xs /\ sum x < sum z) -> Forall2 (fun p p' => fst p < fst p') (fst x) y) /\
    ((forall z, In z xs -> sum z = sum x) -> Forall2 (fun p p' => fst p' = fst p) (fst x) y)) xs ys.
Proof. exact C133_wl_multi_proof. Qed.
Print Assumptions C133_tie_weng_lin_multi.
(** EGF: the lower rated player gains; the higher rated one gains at most the bonus. *)
Theorem C133_draw_egf_partial : forall r1 r2, -900 <= r1 -> r1 <= r2 -> r2 < 3300 -> exists x1 x2,
  egf (mkEgf (Fin r1)) (mkEgf (Fin r2)) DRAW egf_config_new = (mkEgf (Fin x1), mkEgf (Fin x2)) /\ r1 < x1 /\ x2 <= Rmax (-900) (r2 + egf_bon r2).
Proof. exact C133_egf_proof. Qed.
Print Assumptions C133_draw_egf_partial.
(** Two equal players who draw both gain, by the bonus of EGF and by beta in Sticko. *)
Theorem C133_equal_egf_refuted : forall r, -900 <= r < 3300 -> exists x,
  egf (mkEgf (Fin r)) (mkEgf (Fin r)) DRAW egf_config_new = (mkEgf (Fin x), mkEgf (Fin x)) /\ r < x.
Proof. exact C133_egf_refuted_proof. Qed.
Print Assumptions C133_equal_egf_refuted.
Theorem C133_equal_sticko_refuted : forall r RD h beta lambda c, 0 < RD -> 0 <= h -> 0 < beta -> exists x1 d1 x2 d2,
  sticko (mkSticko (Fin r) (Fin RD)) (mkSticko (Fin r) (Fin RD)) DRAW (mkStickoConfig (Fin h) (Fin beta) (Fin lambda) (Fin 0) (Fin c)) = (mkSticko (Fin x1) d1, mkSticko (Fin x2) d2) /\ r < x1 /\ r < x2.
Proof. exact C133_sticko_refuted_proof. Qed.
Print Assumptions C133_equal_sticko_refuted.

Example C133_elo_case : 0 < 32. Proof. lra. Qed.
Example C133_dwz_case : (1 <= 5)%N /\ (1 <= 12)%N. Proof. lia. Qed.
(* A provisional and an established player; the default settings. *)
Example C133_uscf_case : exists x1 m1 x2 m2, uscf (mkUscf (Fin 1500) 4) (mkUscf (Fin 1800) 40) DRAW (mkUscfConfig (Fin 14)) = (mkUscf (Fin x1) m1, mkUscf (Fin x2) m2) /\ 1500 < x1 /\ x2 < 1800.
Proof. destruct (C133_draw_uscf 1500 4 1800 40 14 ltac:(lra) ltac:(lra)) as (x1 & m1 & x2 & m2 & E & (A & _) & (_ & B & _)). exists x1, m1, x2, m2. repeat split; [exact E|apply A; lra|apply B; lra]. Qed.
Example C133_glicko_case : 0 < 350 /\ 0 < 50 /\ 0 <= 10 /\ 0 <= 2. Proof. lra. Qed.
Example C133_glicko2_case : 0 < 0.06 /\ 0 < 0.5 /\ 0 <= 0.000001. Proof. lra. Qed.
(* Equal players in Glicko-Boost with the default eta of 30: the first mover loses points by a draw. *)
Example C133_boost_case : exists x1 d1 x2 d2,
  glicko_boost (mkBoost (Fin 1500) (Fin 350)) (mkBoost (Fin 1500) (Fin 350)) DRAW
    (mkBoostConfig (Fin 30) (Fin 1.96) (Fin 0.20139) (Fin 17.5) (Fin 5.83733) (Fin (-0.0000175374)) (Fin (-0.000000726)) (Fin 0.1) (Fin 0)) = (mkBoost (Fin x1) d1, mkBoost (Fin x2) d2) /\ x1 < 1500 < x2.
Proof.
  destruct (C133_draw_boost 1500 350 1500 350 {| bc_eta := 30; bc_k := 1.96; bc_b0 := 0.20139; bc_b1 := 17.5; bc_a0 := 5.83733; bc_a1 := -0.0000175374; bc_a2 := -0.000000726; bc_a3 := 0.1; bc_a4 := 0 |} ltac:(lra) ltac:(lra)) as (x1 & d1 & x2 & d2 & E & (_ & A & _) & (B & _)); cbn [bc_b0 bc_b1 bc_eta] in *; try lra.
  exists x1, d1, x2, d2. split; [exact E|]. split; [apply A; lra|apply B; lra].
Qed.
Example C133_weng_lin_case : wl_ok [(25, 25 / 3); (27, 2)] /\ wl_ok [(20, 5)] /\ 0 < 0.0001 <= 1.
Proof. repeat split; try discriminate; try lra; repeat constructor; cbn; lra. Qed.
Example C133_egf_case : -900 <= 1000 /\ 1000 <= 1500 /\ 1500 < 3300. Proof. lra. Qed.
(* A tie of three teams. *)
Example C133_multi_case : let xs := [([(25, 8); (20, 3)], 1%N); ([(30, 5)], 1%N); ([(22, 4); (15, 2)], 1%N)] in
  Forall (fun x => wl_ok (fst x)) xs /\ (forall x y, In x xs -> In y xs -> snd x = snd y).
Proof.
  cbv zeta. split; [|intros x y Hx Hy; cbn in Hx, Hy; intuition (subst; reflexivity)].
  repeat (constructor; [split; [discriminate|repeat (constructor; [cbn; lra|]); constructor]|]). constructor.
Qed.
Example C133_trueskill_case : 0.01 <= 0.1 <= 1 /\ 0 < 25 / 6 /\ Forall (fun p : R * R => snd p <= 5000 * (25 / 6)) [(25, 25 / 3); (20, 2)].
Proof. repeat split; try lra. repeat (constructor; [cbn; lra|]). constructor. Qed.
