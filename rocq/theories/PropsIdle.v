(** Property theorems: players who stay away (C143). *)
From Coq Require Import ZArith NArith List Bool Reals Lra Lia.
From Verif Require Import Arith XR ModelLib ModelGlicko ModelGlicko2 ModelSticko ModelBoost Spec SpecIn ProofIdle.
Import Spec ListNotations.
Local Open Scope R_scope.

(** C143: n empty rating periods in a row. *)
Theorem C143_idle_glicko : forall r RD c n, 0 < RD <= 350 -> exists d,
  Nat.iter n (fun p => glicko_rating_period p [] (mkGlickoConfig (Fin c))) (mkGlicko (Fin r) (Fin RD)) = mkGlicko (Fin r) (Fin d) /\
  d = Rmin (sqrt (RD ^ 2 + INR n * c ^ 2)) 350 /\ (d = 350 <-> 350 ^ 2 <= RD ^ 2 + INR n * c ^ 2).
Proof. exact C143_glicko_proof. Qed.
Print Assumptions C143_idle_glicko.
Theorem C143_idle_sticko : forall r RD h beta lambda gamma c n, 0 < RD <= 350 -> exists d,
  Nat.iter n (fun p => sticko_rating_period p [] (mkStickoConfig (Fin h) (Fin beta) (Fin lambda) (Fin gamma) (Fin c))) (mkSticko (Fin r) (Fin RD)) = mkSticko (Fin r) (Fin d) /\
  d = Rmin (sqrt (RD ^ 2 + INR n * c ^ 2)) 350 /\ (d = 350 <-> 350 ^ 2 <= RD ^ 2 + INR n * c ^ 2).
Proof. exact C143_sticko_proof. Qed.
Print Assumptions C143_idle_sticko.
Theorem C143_idle_glicko2 : forall fuel r RD s t tol n, 0 <= RD <= 350 -> exists d,
  Nat.iter n (fun p => match p with Some q => glicko2_rating_period fuel q [] (mkGlicko2Config (Fin t) (Fin tol)) | None => None end) (Some (mkGlicko2 (Fin r) (Fin RD) (Fin s))) = Some (mkGlicko2 (Fin r) (Fin d) (Fin s)) /\
  d = Rmin (sqrt (RD ^ 2 + INR n * (1737178 / 10000 * s) ^ 2)) 350 /\ (d = 350 <-> 350 ^ 2 <= RD ^ 2 + INR n * (1737178 / 10000 * s) ^ 2).
Proof. exact C143_glicko2_proof. Qed.
Print Assumptions C143_idle_glicko2.
Theorem C143_idle_boost : forall r RD c, 0 <= RD <= 350 -> let cfg := mkBoostConfig (Fin (bc_eta c)) (Fin (bc_k c)) (Fin (bc_b0 c)) (Fin (bc_b1 c)) (Fin (bc_a0 c)) (Fin (bc_a1 c)) (Fin (bc_a2 c)) (Fin (bc_a3 c)) (Fin (bc_a4 c)) in exists d,
  (forall n, Nat.iter n (fun p => glicko_boost_rating_period p [] cfg) (mkBoost (Fin r) (Fin RD)) = mkBoost (Fin r) (Fin (d n))) /\
  (forall n, d n < 350 -> d n < d (S n)) /\ (forall n, d n <= 350) /\ exists N, forall n, (N <= n)%nat -> d n = 350.
Proof. exact C143_boost_proof. Qed.
Print Assumptions C143_idle_boost.
(** The favourite's forecast after an absence. *)
Theorem C143_idle_forecast : forall r RD ro RDo c n, 0 < RD < 350 -> c <> 0 -> (0 < n)%nat -> ro < r -> exists e e',
  fst (glicko_expected_score (mkGlicko (Fin r) (Fin RD)) (mkGlicko (Fin ro) (Fin RDo))) = Fin e /\
  fst (glicko_expected_score (Nat.iter n (fun p => glicko_rating_period p [] (mkGlickoConfig (Fin c))) (mkGlicko (Fin r) (Fin RD))) (mkGlicko (Fin ro) (Fin RDo))) = Fin e' /\ 1 / 2 < e' < e.
Proof. exact C143_forecast_proof. Qed.
Print Assumptions C143_idle_forecast.

Example C143_case : exists d, Nat.iter 30 (fun p => glicko_rating_period p [] (mkGlickoConfig (Fin (632 / 10)))) (mkGlicko (Fin 1500) (Fin 50)) = mkGlicko (Fin 1500) (Fin d) /\ d < 350 /\
  exists d', Nat.iter 31 (fun p => glicko_rating_period p [] (mkGlickoConfig (Fin (632 / 10)))) (mkGlicko (Fin 1500) (Fin 50)) = mkGlicko (Fin 1500) (Fin d') /\ d' = 350.
Proof.
  destruct (C143_idle_glicko 1500 50 (632 / 10) 30 ltac:(lra)) as (d & E & D & C). exists d. split; [exact E|]. replace (INR 30) with 30 in * by (cbn; lra). split.
  - assert (d <= 350) by (rewrite D; apply Rmin_r). destruct (Req_dec d 350) as [Q|Q]; [apply C in Q; lra|lra].
  - destruct (C143_idle_glicko 1500 50 (632 / 10) 31 ltac:(lra)) as (d' & E' & _ & C'). exists d'. split; [exact E'|]. apply C'. replace (INR 31) with 31 by (cbn; lra). lra.
Qed.
Example C143_boost_case : 0 <= 50 <= 350. Proof. lra. Qed.
