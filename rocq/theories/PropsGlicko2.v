(** Property theorems for Glicko-2 (glicko2.rs).  The model's [fuel] bounds the
    two loops of [new_volatility]; [None] means still running. *)
From Coq Require Import ZArith NArith List Bool Reals Lra Lia Permutation.
From Verif Require Import Arith XR ModelLib ModelGlicko2 Spec ProofGlicko2 ProofG2Trap.
Import ListNotations.
Local Open Scope R_scope.

(** C37: the bracketing loop stops at the first k with f(a - k*tau) >= 0, and
    k <= max(1, ceil(tau/2)). *)
Theorem C37_glicko2_bracket : forall s d2 p2 v t n, 0 <= d2 -> 0 <= p2 -> 0 < v -> 0 < s -> 0 < t ->
  (1 <= n)%nat -> t / 2 <= INR n ->
  exists k, (1 <= k <= n)%nat /\
    g2_bracket n (Fin 1) (Fin (ln (s ^ 2))) (Fin d2) (Fin p2) (Fin v) (Fin s) (Fin t) = Some (Fin (ln (s ^ 2) - INR k * t)) /\
    0 <= g2f (sqrt d2) (sqrt p2) v s t (ln (s ^ 2) - INR k * t) /\
    (forall i, (1 <= i < k)%nat -> g2f (sqrt d2) (sqrt p2) v s t (ln (s ^ 2) - INR i * t) < 0).
Proof. exact C37_proof. Qed.
Print Assumptions C37_glicko2_bracket.
(* tau <= 2: one step. *)
Example C37_case : 5 / 10 / 2 <= INR 1 /\ (1 <= 1)%nat. Proof. cbn. split; [lra|lia]. Qed.

(** C40: the iteration terminates unless Glickman's f has a multiple zero.
    For given ratings, results and tau this leaves out at most two starting
    volatilities. *)
Theorem C40_glicko2_simple : forall r1 RD1 s1 r2 RD2 s2 o t tol, 0 < s1 -> 0 < s2 -> 0 < t -> 0 < tol ->
  let d r r' RD' s := let g := [(g2mu r', g2phi RD', s)] in g2v (g2mu r) g * g2M (g2mu r) g in
  let v r r' RD' := g2v (g2mu r) [(g2mu r', g2phi RD', 0)] in
  g2_simple (d r1 r2 RD2 (points o)) (g2phi RD1) (v r1 r2 RD2) s1 t ->
  g2_simple (d r2 r1 RD1 (points (invert o))) (g2phi RD2) (v r2 r1 RD1) s2 t ->
  exists n0, forall n, (n0 <= n)%nat -> exists p q,
    glicko2 n (mkGlicko2 (Fin r1) (Fin RD1) (Fin s1)) (mkGlicko2 (Fin r2) (Fin RD2) (Fin s2)) o
      (mkGlicko2Config (Fin t) (Fin tol)) = Some (p, q).
Proof. exact C40_game_simple_proof. Qed.
Print Assumptions C40_glicko2_simple.
Theorem C40_glicko2_period_simple : forall r RD s t tol rs, 0 < s -> 0 < t -> 0 < tol -> rs <> [] ->
  let games := map (fun '(rj, RDj, _, o) => (g2mu rj, g2phi RDj, points o)) rs in
  let v := g2v (g2mu r) games in
  g2_simple (v * g2M (g2mu r) games) (g2phi RD) v s t ->
  exists n0, forall n, (n0 <= n)%nat -> exists p,
    glicko2_rating_period n (mkGlicko2 (Fin r) (Fin RD) (Fin s))
      (map (fun '(rj, RDj, sj, o) => (mkGlicko2 (Fin rj) (Fin RDj) (Fin sj), o)) rs)
      (mkGlicko2Config (Fin t) (Fin tol)) = Some p.
Proof. exact C40_period_simple_proof. Qed.
Print Assumptions C40_glicko2_period_simple.
Theorem C40_glicko2_almost_all : forall r1 RD1 r2 RD2 o t, 0 < t ->
  exists l1 l2 : list R, (length l1 <= 2)%nat /\ (length l2 <= 2)%nat /\
  forall s1 s2 tol, 0 < s1 -> 0 < s2 -> 0 < tol -> ~ In s1 l1 -> ~ In s2 l2 ->
  exists n0, forall n, (n0 <= n)%nat -> exists p q,
    glicko2 n (mkGlicko2 (Fin r1) (Fin RD1) (Fin s1)) (mkGlicko2 (Fin r2) (Fin RD2) (Fin s2)) o
      (mkGlicko2Config (Fin t) (Fin tol)) = Some (p, q).
Proof. exact C40_game_almost_proof. Qed.
Print Assumptions C40_glicko2_almost_all.
Theorem C40_glicko2_period_almost_all : forall r RD t rs, 0 < t ->
  exists l : list R, (length l <= 2)%nat /\ forall s tol, 0 < s -> 0 < tol -> ~ In s l ->
  exists n0, forall n, (n0 <= n)%nat -> exists p,
    glicko2_rating_period n (mkGlicko2 (Fin r) (Fin RD) (Fin s))
      (map (fun '(rj, RDj, sj, o) => (mkGlicko2 (Fin rj) (Fin RDj) (Fin sj), o)) rs)
      (mkGlicko2Config (Fin t) (Fin tol)) = Some p.
Proof. exact C40_period_almost_proof. Qed.
Print Assumptions C40_glicko2_period_almost_all.
(** It also terminates unless the result is extremely surprising: the squared
    standardised surprise is at least 1 + 27/(2*tau^2) (for tau = 0.5: odds of
    55 to 1). *)
Theorem C40_glicko2_terminates : forall r1 RD1 s1 r2 RD2 s2 o t tol, 0 < s1 -> 0 < s2 -> 0 < t -> 0 < tol ->
  let e1 := g2E (g2mu r1) (g2mu r2) (g2phi RD2) in
  let e2 := g2E (g2mu r2) (g2mu r1) (g2phi RD1) in
  (points o - e1) ^ 2 / (e1 * (1 - e1)) < 1 + 27 / (2 * t ^ 2) ->
  (points (invert o) - e2) ^ 2 / (e2 * (1 - e2)) < 1 + 27 / (2 * t ^ 2) ->
  exists n0, forall n, (n0 <= n)%nat -> exists p q,
    glicko2 n (mkGlicko2 (Fin r1) (Fin RD1) (Fin s1)) (mkGlicko2 (Fin r2) (Fin RD2) (Fin s2)) o
      (mkGlicko2Config (Fin t) (Fin tol)) = Some (p, q).
Proof. exact C40_game_proof. Qed.
Print Assumptions C40_glicko2_terminates.
Theorem C40_glicko2_period_terminates : forall r RD s t tol rs, 0 < s -> 0 < t -> 0 < tol -> rs <> [] ->
  let games := map (fun '(rj, RDj, _, o) => (g2mu rj, g2phi RDj, points o)) rs in
  let v := g2v (g2mu r) games in
  (v * g2M (g2mu r) games) ^ 2 < (g2phi RD ^ 2 + v) * (1 + 27 / (2 * t ^ 2)) ->
  exists n0, forall n, (n0 <= n)%nat -> exists p,
    glicko2_rating_period n (mkGlicko2 (Fin r) (Fin RD) (Fin s))
      (map (fun '(rj, RDj, sj, o) => (mkGlicko2 (Fin rj) (Fin RDj) (Fin sj), o)) rs)
      (mkGlicko2Config (Fin t) (Fin tol)) = Some p.
Proof. exact C40_period_proof. Qed.
Print Assumptions C40_glicko2_period_terminates.
(** The result does not depend on the fuel. *)
Theorem C40_glicko2_fuel : forall (F : Type) (A : Arith F) n m (p1 p2 : Glicko2Rating F) o rs c, (n <= m)%nat ->
  (forall x, glicko2 n p1 p2 o c = Some x -> glicko2 m p1 p2 o c = Some x) /\
  (forall x, glicko2_rating_period n p1 rs c = Some x -> glicko2_rating_period m p1 rs c = Some x).
Proof. exact C40_fuel_proof. Qed.
Print Assumptions C40_glicko2_fuel.
(* Glickman's example configuration; equal players. *)
Example C40_case : exists n p q,
  glicko2 n (mkGlicko2 (Fin 1500) (Fin 200) (Fin (6/100))) (mkGlicko2 (Fin 1500) (Fin 200) (Fin (6/100))) WIN
    (mkGlicko2Config (Fin (5/10)) (Fin (1/1000000))) = Some (p, q).
Proof.
  destruct (C40_glicko2_terminates 1500 200 (6/100) 1500 200 (6/100) WIN (5/10) (1/1000000)) as (n0 & H); try lra.
  - rewrite g2E_self. cbn [points]. lra.
  - rewrite g2E_self. cbn [points invert]. lra.
  - destruct (H n0 (le_n _)) as (p & q & E). eauto.
Qed.

(* A player and a stronger, well-known opponent. *)
Example C40_simple_case : exists l1 l2 : list R, (length l1 <= 2)%nat /\ (length l2 <= 2)%nat /\
  forall s, 0 < s -> ~ In s l1 -> ~ In s l2 -> exists n p q,
  glicko2 n (mkGlicko2 (Fin 1500) (Fin 200) (Fin s)) (mkGlicko2 (Fin 1900) (Fin 30) (Fin s)) WIN
    (mkGlicko2Config (Fin (5/10)) (Fin (1/1000000))) = Some (p, q).
Proof.
  destruct (C40_glicko2_almost_all 1500 200 1900 30 WIN (5/10)) as (l1 & l2 & H1 & H2 & H); [lra|].
  exists l1, l2. split; [auto|split; [auto|]]. intros s Hs N1 N2.
  destruct (H s s (1/1000000) Hs Hs ltac:(lra) N1 N2) as (n0 & T). exists n0. apply T, le_n.
Qed.

(** C89: with a double zero of f the iteration can run forever.  100 wins of an
    established player (RD = 173.7178*sqrt(2)/50, about 4.9) in one period,
    default tau and any tolerance up to 1. *)
Theorem C89_glicko2_runs_forever_refuted : exists RD s RDj sj, 0 < RD <= 350 /\ 0 < s <= 6 / 100 /\ 0 < RDj <= 350 /\ 0 < sj <= 6 / 100 /\
  forall n tol, tol <= 1 ->
  glicko2_rating_period n (mkGlicko2 (Fin 1500) (Fin RD) (Fin s))
    (repeat (mkGlicko2 (Fin 1500) (Fin RDj) (Fin sj), WIN) 100) (mkGlicko2Config (Fin (1 / 2)) (Fin tol)) = None.
Proof. exact C40_refuted_proof. Qed.
Print Assumptions C89_glicko2_runs_forever_refuted.

(** C38: whenever the iteration stops, the volatility solves Glickman's
    equation up to the tolerance. *)
Theorem C38_glicko2_volatility : forall fuel s delta phi v t tol x, 0 < v -> 0 < s -> 0 < t -> 0 <= tol ->
  g2_new_volatility fuel (Fin s) (Fin (delta ^ 2)) (Fin (phi ^ 2)) (Fin v) (Fin t) (Fin tol) = Some x ->
  exists s', x = Fin s' /\ g2_solves delta phi v s t tol s'.
Proof. exact C38_proof. Qed.
Print Assumptions C38_glicko2_volatility.
Example C38_case : exists n x, g2_new_volatility n (Fin (6/100)) (Fin (1 ^ 2)) (Fin (2 ^ 2)) (Fin 3) (Fin (5/10)) (Fin (1/1000000)) = Some x.
Proof.
  destruct (vol_terminates (1 ^ 2) (2 ^ 2) 3 (6/100) (5/10) (1/1000000)) as (n0 & H); try lra.
  destruct (H n0 (le_n _)) as (x & E). eauto.
Qed.

(** C39: rating, deviation and direction, given that volatility. *)
Theorem C39_glicko2_update : forall fuel r1 RD1 s1 r2 RD2 s2 o t tol p q,
  0 < s1 -> 0 < s2 -> 0 < t -> 0 <= tol ->
  glicko2 fuel (mkGlicko2 (Fin r1) (Fin RD1) (Fin s1)) (mkGlicko2 (Fin r2) (Fin RD2) (Fin s2)) o
    (mkGlicko2Config (Fin t) (Fin tol)) = Some (p, q) ->
  let ga := [(g2mu r2, g2phi RD2, points o)] in
  let gb := [(g2mu r1, g2phi RD1, points (invert o))] in
  exists s1' s2',
    p = mkGlicko2 (Fin (g2_new_r r1 RD1 s1' ga)) (Fin (g2_new_rd r1 RD1 s1' ga)) (Fin s1') /\
    q = mkGlicko2 (Fin (g2_new_r r2 RD2 s2' gb)) (Fin (g2_new_rd r2 RD2 s2' gb)) (Fin s2') /\
    g2_solves (g2v (g2mu r1) ga * g2M (g2mu r1) ga) (g2phi RD1) (g2v (g2mu r1) ga) s1 t tol s1' /\
    g2_solves (g2v (g2mu r2) gb * g2M (g2mu r2) gb) (g2phi RD2) (g2v (g2mu r2) gb) s2 t tol s2' /\
    0 < g2_new_rd r1 RD1 s1' ga /\ 0 < g2_new_rd r2 RD2 s2' gb /\
    (o = WIN -> r1 < g2_new_r r1 RD1 s1' ga /\ g2_new_r r2 RD2 s2' gb < r2) /\
    (o = LOSS -> g2_new_r r1 RD1 s1' ga < r1 /\ r2 < g2_new_r r2 RD2 s2' gb).
Proof. exact C39_proof. Qed.
Print Assumptions C39_glicko2_update.
Theorem C39_glicko2_period : forall fuel r RD s t tol rs p,
  0 < s -> 0 < t -> 0 <= tol -> rs <> [] ->
  glicko2_rating_period fuel (mkGlicko2 (Fin r) (Fin RD) (Fin s))
    (map (fun '(rj, RDj, sj, o) => (mkGlicko2 (Fin rj) (Fin RDj) (Fin sj), o)) rs)
    (mkGlicko2Config (Fin t) (Fin tol)) = Some p ->
  let games := map (fun '(rj, RDj, _, o) => (g2mu rj, g2phi RDj, points o)) rs in
  exists s',
    p = mkGlicko2 (Fin (g2_new_r r RD s' games)) (Fin (g2_new_rd r RD s' games)) (Fin s') /\
    g2_solves (g2v (g2mu r) games * g2M (g2mu r) games) (g2phi RD) (g2v (g2mu r) games) s t tol s' /\
    0 < g2_new_rd r RD s' games.
Proof. exact C39_period_proof. Qed.
Print Assumptions C39_glicko2_period.

(** C41: rating periods and decay. *)
Theorem C41_glicko2_order : forall fuel r RD s t tol rs rs', Permutation rs rs' ->
  glicko2_rating_period fuel (mkGlicko2 (Fin r) (Fin RD) (Fin s))
    (map (fun '(rj, RDj, sj, o) => (mkGlicko2 (Fin rj) (Fin RDj) (Fin sj), o)) rs) (mkGlicko2Config (Fin t) (Fin tol)) =
  glicko2_rating_period fuel (mkGlicko2 (Fin r) (Fin RD) (Fin s))
    (map (fun '(rj, RDj, sj, o) => (mkGlicko2 (Fin rj) (Fin RDj) (Fin sj), o)) rs') (mkGlicko2Config (Fin t) (Fin tol)).
Proof. exact C41_order_proof. Qed.
Print Assumptions C41_glicko2_order.
Theorem C41_glicko2_single : forall fuel r1 RD1 s1 r2 RD2 s2 o t tol p q, 0 < s1 -> 0 < t -> 0 <= tol ->
  glicko2 fuel (mkGlicko2 (Fin r1) (Fin RD1) (Fin s1)) (mkGlicko2 (Fin r2) (Fin RD2) (Fin s2)) o
    (mkGlicko2Config (Fin t) (Fin tol)) = Some (p, q) ->
  glicko2_rating_period fuel (mkGlicko2 (Fin r1) (Fin RD1) (Fin s1)) [(mkGlicko2 (Fin r2) (Fin RD2) (Fin s2), o)]
    (mkGlicko2Config (Fin t) (Fin tol)) = Some p.
Proof. exact C41_single_proof. Qed.
Print Assumptions C41_glicko2_single.
Theorem C41_glicko2_empty : forall (F : Type) (A : Arith F) fuel (p : Glicko2Rating F) c,
  glicko2_rating_period fuel p [] c = Some (glicko2_decay_deviation p).
Proof. exact C41_empty_proof. Qed.
Print Assumptions C41_glicko2_empty.
Theorem C41_glicko2_decay : forall r RD s, 0 <= RD ->
  exists d, glicko2_decay_deviation (mkGlicko2 (Fin r) (Fin RD) (Fin s)) = mkGlicko2 (Fin r) (Fin d) (Fin s) /\
    d = Rmin (sqrt (RD ^ 2 + (g2s * s) ^ 2)) 350 /\ d <= 350 /\ Rmin RD 350 <= d.
Proof. exact C41_decay_proof. Qed.
Print Assumptions C41_glicko2_decay.
Example C41_case : Permutation [(1400, 30, 6/100, WIN); (1550, 100, 5/100, LOSS)] [(1550, 100, 5/100, LOSS); (1400, 30, 6/100, WIN)].
Proof. apply perm_swap. Qed.

(** C31: confidence interval. *)
Theorem C31_glicko2_confidence : forall r RD s,
  glicko2_confidence_interval (mkGlicko2 (Fin r) (Fin RD) (Fin s)) = (Fin (r - 196 / 100 * RD), Fin (r + 196 / 100 * RD)).
Proof. exact C31_glicko2_proof. Qed.
Print Assumptions C31_glicko2_confidence.

(** C75: expected scores. *)
Theorem C75_glicko2_expected : forall r1 RD1 s1 r2 RD2 s2, exists e1 e2,
  glicko2_expected_score (mkGlicko2 (Fin r1) (Fin RD1) (Fin s1)) (mkGlicko2 (Fin r2) (Fin RD2) (Fin s2)) = (Fin e1, Fin e2) /\
  0 < e1 < 1 /\ 0 < e2 < 1 /\ e1 + e2 = 1 /\ (e1 > 1 / 2 <-> r1 > r2) /\
  glicko2_expected_score (mkGlicko2 (Fin r2) (Fin RD2) (Fin s2)) (mkGlicko2 (Fin r1) (Fin RD1) (Fin s1)) = (Fin e2, Fin e1) /\
  (forall r1' e1' e2', glicko2_expected_score (mkGlicko2 (Fin r1') (Fin RD1) (Fin s1)) (mkGlicko2 (Fin r2) (Fin RD2) (Fin s2)) = (Fin e1', Fin e2') ->
     r1 < r1' -> e1 < e1') /\
  (forall RD1' e1' e2', glicko2_expected_score (mkGlicko2 (Fin r1) (Fin RD1') (Fin s1)) (mkGlicko2 (Fin r2) (Fin RD2) (Fin s2)) = (Fin e1', Fin e2') ->
     0 <= RD1 < RD1' -> r1 > r2 -> 1 / 2 < e1' < e1).
Proof. exact C75_glicko2_proof. Qed.
Print Assumptions C75_glicko2_expected.
