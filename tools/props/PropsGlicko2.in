(** Property theorems for Glicko-2 (glicko2.rs).  The model's [fuel] bounds the
    two loops of [new_volatility]; [None] means still running. *)
From Coq Require Import ZArith NArith List Bool Reals Lra Lia Permutation.
From Verif Require Import Arith XR ModelLib ModelGlicko2 Spec ProofGlicko2 ProofG2Trap.
Import ListNotations.
Local Open Scope R_scope.

(** C37: the bracketing loop stops at the first k with f(a - k*tau) >= 0, and
    k <= max(1, ceil(tau/2)). *)
@THM C37_glicko2_bracket C37_proof
(* tau <= 2: one step. *)
Example C37_case : 5 / 10 / 2 <= INR 1 /\ (1 <= 1)%nat. Proof. cbn. split; [lra|lia]. Qed.

(** C40: the iteration terminates unless Glickman's f has a multiple zero.
    For given ratings, results and tau this leaves out at most two starting
    volatilities. *)
@THM C40_glicko2_simple C40_game_simple_proof
@THM C40_glicko2_period_simple C40_period_simple_proof
@THM C40_glicko2_almost_all C40_game_almost_proof
@THM C40_glicko2_period_almost_all C40_period_almost_proof
(** It also terminates unless the result is extremely surprising: the squared
    standardised surprise is at least 1 + 27/(2*tau^2) (for tau = 0.5: odds of
    55 to 1). *)
@THM C40_glicko2_terminates C40_game_proof
@THM C40_glicko2_period_terminates C40_period_proof
(** The result does not depend on the fuel. *)
@THM C40_glicko2_fuel C40_fuel_proof
(* Glickman's example configuration; equal players. *)
Example C40_case : exists n p q,
  glicko2 n (mkGlicko2 (Fin 1500) (Fin 200) (Fin (6/100))) (mkGlicko2 (Fin 1500) (Fin 200) (Fin (6/100))) WIN
    (mkGlicko2Config (Fin (5/10)) (Fin (1/1000000))) = Some (p, q).
Proof.
  destruct (C40_glicko2_terminates 1500 200 (6/100) 1500 200 (6/100) WIN (5/10) (1/1000000)) as (n0 & H); try lra.
  - rewrite g2E_self. cbn [points]. lra.
  - rewrite g2E_self. cbn [points invert]. lra.
  - destruct (H n0 (le_n _)) as (p & q & E). eauto.
Qed.

(* A player and a stronger, well-known opponent. *)
Example C40_simple_case : exists l1 l2 : list R, (length l1 <= 2)%nat /\ (length l2 <= 2)%nat /\
  forall s, 0 < s -> ~ In s l1 -> ~ In s l2 -> exists n p q,
  glicko2 n (mkGlicko2 (Fin 1500) (Fin 200) (Fin s)) (mkGlicko2 (Fin 1900) (Fin 30) (Fin s)) WIN
    (mkGlicko2Config (Fin (5/10)) (Fin (1/1000000))) = Some (p, q).
Proof.
  destruct (C40_glicko2_almost_all 1500 200 1900 30 WIN (5/10)) as (l1 & l2 & H1 & H2 & H); [lra|].
  exists l1, l2. split; [auto|split; [auto|]]. intros s Hs N1 N2.
  destruct (H s s (1/1000000) Hs Hs ltac:(lra) N1 N2) as (n0 & T). exists n0. apply T, le_n.
Qed.

(** C89: with a double zero of f the iteration can run forever.  100 wins of an
    established player (RD = 173.7178*sqrt(2)/50, about 4.9) in one period,
    default tau and any tolerance up to 1. *)
@THM C89_glicko2_runs_forever_refuted C40_refuted_proof

(** C38: whenever the iteration stops, the volatility solves Glickman's
    equation up to the tolerance. *)
@THM C38_glicko2_volatility C38_proof
Example C38_case : exists n x, g2_new_volatility n (Fin (6/100)) (Fin (1 ^ 2)) (Fin (2 ^ 2)) (Fin 3) (Fin (5/10)) (Fin (1/1000000)) = Some x.
Proof.
  destruct (vol_terminates (1 ^ 2) (2 ^ 2) 3 (6/100) (5/10) (1/1000000)) as (n0 & H); try lra.
  destruct (H n0 (le_n _)) as (x & E). eauto.
Qed.

(** C39: rating, deviation and direction, given that volatility. *)
@THM C39_glicko2_update C39_proof
@THM C39_glicko2_period C39_period_proof

(** C41: rating periods and decay. *)
@THM C41_glicko2_order C41_order_proof
@THM C41_glicko2_single C41_single_proof
@THM C41_glicko2_empty C41_empty_proof
@THM C41_glicko2_decay C41_decay_proof
Example C41_case : Permutation [(1400, 30, 6/100, WIN); (1550, 100, 5/100, LOSS)] [(1550, 100, 5/100, LOSS); (1400, 30, 6/100, WIN)].
Proof. apply perm_swap. Qed.

(** C31: confidence interval. *)
@THM C31_glicko2_confidence C31_glicko2_proof

(** C75: expected scores. *)
@THM C75_glicko2_expected C75_glicko2_proof
