(** Glicko-2: surprising results hardly change the volatility. *)
From Coq Require Import ZArith NArith List Bool Reals Lra Lia.
From Verif Require Import Arith XR ModelLib ModelGlicko2 Spec ProofGlicko2 ProofG2Vol.
Import Spec ListNotations.
Local Open Scope R_scope.

(** C128: with tau * sigma at most 0.316, one game changes the volatility by a
    tiny factor and the rating by at most the new variance, for every pair of
    players and every result. *)
@THM C128_glicko2_volatility C128_game_proof
(** In a rating period of n games the same holds with n * tau * sigma. *)
@THM C128_glicko2_volatility_period C128_period_proof
(** Under the same condition both functions return, for every pair of players,
    every result and every tolerance. *)
@THM C128_glicko2_returns C128_game_term_proof
@THM C128_glicko2_returns_period C128_period_term_proof
(** This is a property of the iteration and not of Glickman's equation, which can
    have a second, arbitrarily large solution. *)
@THM C128_glicko2_other_solution C128_other_proof

(* A new player beats one rated a hundred thousand points higher. *)
Example C128_case : exists n p q s',
  glicko2 n (mkGlicko2 (Fin 1500) (Fin 350) (Fin (6/100))) (mkGlicko2 (Fin 101500) (Fin 30) (Fin (6/100))) WIN
    (mkGlicko2Config (Fin (5/10)) (Fin (1/1000000))) = Some (p, q) /\
  g2_volatility p = Fin s' /\ 0 < s' < 601 / 10000.
Proof.
  destruct (C128_glicko2_returns 1500 350 (6/100) 101500 30 (6/100) WIN (5/10) (1/1000000)) as (n & H); try lra.
  destruct (H n (le_n n)) as (p & q & E). exists n, p, q.
  destruct (C128_glicko2_volatility n 1500 350 (6/100) 101500 30 (6/100) WIN (5/10) (1/1000000) p q ltac:(lra) ltac:(lra) ltac:(lra) ltac:(lra) ltac:(lra) ltac:(lra) E)
    as (r1' & s1' & r2' & s2' & P1 & P2 & _ & V1 & _ & _ & [_ B] & _).
  exists s1'. split; [exact E|]. split; [exact V1|]. split; [exact P1|].
  apply Rnot_le_lt. intros h. assert (h2 : (601 / 10000) ^ 2 <= s1' ^ 2) by (apply pow_incr; lra).
  assert (X : exp (3 / 2 * (5 / 10) ^ 2 * (6 / 100) ^ 2 + 1 / 1000000) < 1002 / 1000).
  { set (u := 3 / 2 * (5 / 10) ^ 2 * (6 / 100) ^ 2 + 1 / 1000000). assert (U : 0 < u <= 14 / 10000) by (unfold u; lra).
    pose proof (exp_ineq1_le (- u)) as Q. rewrite exp_Ropp in Q. pose proof (exp_pos u) as Pu.
    apply (Rmult_le_compat_r (exp u)) in Q; [|lra]. rewrite Rinv_l in Q by lra. nra. }
  nra.
Qed.
(* A period of five games with the usual volatility. *)
Example C128_case_period : (5/10) ^ 2 * (6/100) ^ 2 * INR (length [1;2;3;4;5]) ^ 2 <= 1 / 10.
Proof. cbn [length INR]. lra. Qed.
