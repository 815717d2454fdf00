(** Property theorems: forecasts after moving two players to another system (C132). *)
From Coq Require Import ZArith NArith List Bool Reals Lra Lia.
From Verif Require Import Arith XR ModelLib ModelElo ModelFifa ModelDwz ModelIngo ModelUscf ModelGlicko ModelGlicko2 ModelWengLin ModelTS ModelConv
  Spec SpecTS ProofConvert.
Import Spec ListNotations.
Local Open Scope R_scope.

(** C132: the favourite stays the favourite, and the forecast changes by at most
    the stated amount. *)
Theorem C132_elo_dwz : forall r1 r2 i1 a1 i2 a2,
  dwz_expected_score (dwz_from_elo (mkElo (Fin r1))) (dwz_from_elo (mkElo (Fin r2))) = elo_expected_score (mkElo (Fin r1)) (mkElo (Fin r2)) /\
  elo_expected_score (elo_from_dwz (mkDwz (Fin r1) i1 a1)) (elo_from_dwz (mkDwz (Fin r2) i2 a2)) = dwz_expected_score (mkDwz (Fin r1) i1 a1) (mkDwz (Fin r2) i2 a2).
Proof. exact C132_dwz_proof. Qed.
Print Assumptions C132_elo_dwz.
Theorem C132_elo_uscf : forall r1 r2, r2 < r1 -> exists e u,
  fst (elo_expected_score (mkElo (Fin r1)) (mkElo (Fin r2))) = Fin e /\
  fst (uscf_expected_score (uscf_from_elo (mkElo (Fin r1))) (uscf_from_elo (mkElo (Fin r2)))) = Fin u /\
  1 / 2 < e /\ 1 / 2 < u /\ Rabs (u - e) <= 0.016 /\
  (r1 <= 2000 -> e < u) /\ (2000 <= r2 -> u < e).
Proof. exact C132_uscf_proof. Qed.
Print Assumptions C132_elo_uscf.
Theorem C132_elo_fifa : forall r1 r2, r2 < r1 -> exists e f,
  fst (elo_expected_score (mkElo (Fin r1)) (mkElo (Fin r2))) = Fin e /\
  fst (fifa_expected_score (fifa_from_elo (mkElo (Fin r1))) (fifa_from_elo (mkElo (Fin r2)))) = Fin f /\
  1 / 2 < f < e /\ e - f <= 1 / 8.
Proof. exact C132_fifa_proof. Qed.
Print Assumptions C132_elo_fifa.
Theorem C132_elo_ingo : forall r1 r2, r2 < r1 -> exists e i,
  fst (elo_expected_score (mkElo (Fin r1)) (mkElo (Fin r2))) = Fin e /\
  fst (ingo_expected_score (ingo_from_elo (mkElo (Fin r1))) (ingo_from_elo (mkElo (Fin r2)))) = Fin i /\
  1 / 2 < e /\ 1 / 2 < i /\ i = 1 / 2 + (r1 - r2) / 800 /\ e < 1 / 2 + (r1 - r2) / 600.
Proof. exact C132_ingo_proof. Qed.
Print Assumptions C132_elo_ingo.
Theorem C132_glicko_glicko2 : forall r1 RD1 r2 RD2, r2 < r1 ->
  let g1 := mkGlicko (Fin r1) (Fin RD1) in let g2 := mkGlicko (Fin r2) (Fin RD2) in exists e e2,
  fst (glicko_expected_score g1 g2) = Fin e /\ fst (glicko2_expected_score (glicko2_from_glicko g1) (glicko2_from_glicko g2)) = Fin e2 /\
  1 / 2 < e2 <= e /\ e - e2 <= 0.000000012.
Proof. exact C132_glicko2_proof. Qed.
Print Assumptions C132_glicko_glicko2.
Theorem C132_weng_lin_trueskill : forall m1 s1 m2 s2 beta kappa dp tau, 0 < beta -> m2 < m1 ->
  let w1 := mkWL (Fin m1) (Fin s1) in let w2 := mkWL (Fin m2) (Fin s2) in exists e t,
  fst (wl_expected_score w1 w2 (mkWLConfig (Fin beta) kappa)) = Fin e /\
  fst (ts_expected_score (ts_from_wl w1) (ts_from_wl w2) (mkTSConfig dp (Fin beta) tau)) = Fin t /\
  1 / 2 < e < 1 /\ 0.4999999 < t < 1 /\ e - 0.000001 <= t <= e + 0.12.
Proof. exact C132_trueskill_proof. Qed.
Print Assumptions C132_weng_lin_trueskill.

(* Two players on either side of the branch point of the USCF conversion. *)
Example C132_uscf_case : 1900 < 2100 /\ exists e u, fst (elo_expected_score (mkElo (Fin 2100)) (mkElo (Fin 1900))) = Fin e /\
  fst (uscf_expected_score (uscf_from_elo (mkElo (Fin 2100))) (uscf_from_elo (mkElo (Fin 1900)))) = Fin u /\ Rabs (u - e) <= 0.016.
Proof. split; [lra|]. destruct (C132_elo_uscf 2100 1900 ltac:(lra)) as (e & u & E & U & _ & _ & D & _). now exists e, u. Qed.
Example C132_glicko_case : 1400 < 1500. Proof. lra. Qed.
Example C132_weng_lin_case : 0 < 25 / 6 /\ 20 < 25. Proof. lra. Qed.
