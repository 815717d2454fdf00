(** Glicko-2: surprising results hardly change the volatility. *)
From Coq Require Import ZArith NArith List Bool Reals Lra Lia.
From Verif Require Import Arith XR ModelLib ModelGlicko2 Spec ProofGlicko2 ProofG2Vol.
Import Spec ListNotations.
Local Open Scope R_scope.

(** C128: with tau * sigma at most 0.316, one game changes the volatility by a
    tiny factor and the rating by at most the new variance, for every pair of
    players and every result. *)
Theorem C128_glicko2_volatility : forall fuel r1 RD1 s1 r2 RD2 s2 o t tol p q,
  0 < s1 -> 0 < s2 -> 0 < t -> 0 <= tol -> t ^ 2 * s1 ^ 2 <= 1 / 10 -> t ^ 2 * s2 ^ 2 <= 1 / 10 ->
  glicko2 fuel (mkGlicko2 (Fin r1) (Fin RD1) (Fin s1)) (mkGlicko2 (Fin r2) (Fin RD2) (Fin s2)) o
    (mkGlicko2Config (Fin t) (Fin tol)) = Some (p, q) ->
  exists r1' s1' r2' s2', 0 < s1' /\ 0 < s2' /\
    g2_rating p = Fin r1' /\ g2_volatility p = Fin s1' /\ g2_rating q = Fin r2' /\ g2_volatility q = Fin s2' /\
    s1 ^ 2 * exp (- (t ^ 2 * s1 ^ 2 / 8 + tol)) <= s1' ^ 2 <= s1 ^ 2 * exp (3 / 2 * t ^ 2 * s1 ^ 2 + tol) /\
    s2 ^ 2 * exp (- (t ^ 2 * s2 ^ 2 / 8 + tol)) <= s2' ^ 2 <= s2 ^ 2 * exp (3 / 2 * t ^ 2 * s2 ^ 2 + tol) /\
    Rabs (r1' - r1) <= g2s * (g2phi RD1 ^ 2 + s1' ^ 2) /\ Rabs (r2' - r2) <= g2s * (g2phi RD2 ^ 2 + s2' ^ 2).
Proof. exact C128_game_proof. Qed.
Print Assumptions C128_glicko2_volatility.
(** In a rating period of n games the same holds with n * tau * sigma. *)
Theorem C128_glicko2_volatility_period : forall fuel r RD s t tol rs p,
  0 < s -> 0 < t -> 0 <= tol -> rs <> [] ->
  let n := INR (length rs) in
  t ^ 2 * s ^ 2 * n ^ 2 <= 1 / 10 ->
  glicko2_rating_period fuel (mkGlicko2 (Fin r) (Fin RD) (Fin s))
    (map (fun '(rj, RDj, sj, o) => (mkGlicko2 (Fin rj) (Fin RDj) (Fin sj), o)) rs)
    (mkGlicko2Config (Fin t) (Fin tol)) = Some p ->
  exists r' s', 0 < s' /\ g2_rating p = Fin r' /\ g2_volatility p = Fin s' /\
    s ^ 2 * exp (- (n * t ^ 2 * s ^ 2 / 8 + tol)) <= s' ^ 2 <= s ^ 2 * exp (3 / 2 * n ^ 2 * t ^ 2 * s ^ 2 + tol) /\
    Rabs (r' - r) <= g2s * (g2phi RD ^ 2 + s' ^ 2) * n.
Proof. exact C128_period_proof. Qed.
Print Assumptions C128_glicko2_volatility_period.
(** Under the same condition both functions return, for every pair of players,
    every result and every tolerance. *)
Theorem C128_glicko2_returns : forall r1 RD1 s1 r2 RD2 s2 o t tol,
  0 < s1 -> 0 < s2 -> 0 < t -> 0 < tol -> t ^ 2 * s1 ^ 2 <= 1 / 10 -> t ^ 2 * s2 ^ 2 <= 1 / 10 ->
  exists n0, forall n, (n0 <= n)%nat -> exists p q,
    glicko2 n (mkGlicko2 (Fin r1) (Fin RD1) (Fin s1)) (mkGlicko2 (Fin r2) (Fin RD2) (Fin s2)) o
      (mkGlicko2Config (Fin t) (Fin tol)) = Some (p, q).
Proof. exact C128_game_term_proof. Qed.
Print Assumptions C128_glicko2_returns.
Theorem C128_glicko2_returns_period : forall r RD s t tol rs, 0 < s -> 0 < t -> 0 < tol -> rs <> [] ->
  t ^ 2 * s ^ 2 * INR (length rs) ^ 2 <= 1 / 10 ->
  exists n0, forall n, (n0 <= n)%nat -> exists p,
    glicko2_rating_period n (mkGlicko2 (Fin r) (Fin RD) (Fin s))
      (map (fun '(rj, RDj, sj, o) => (mkGlicko2 (Fin rj) (Fin RDj) (Fin sj), o)) rs)
      (mkGlicko2Config (Fin t) (Fin tol)) = Some p.
Proof. exact C128_period_term_proof. Qed.
Print Assumptions C128_glicko2_returns_period.
(** This is a property of the iteration and not of Glickman's equation, which can
    have a second, arbitrarily large solution. *)
Theorem C128_glicko2_other_solution : forall r1 RD1 s1 RD2 t N, 0 < s1 -> 0 < t -> exists r2,
  let ga := [(g2mu r2, g2phi RD2, points WIN)] in
  let v := g2v (g2mu r1) ga in
  exists x, g2f (v * g2M (g2mu r1) ga) (g2phi RD1) v s1 t x = 0 /\ N <= exp (x / 2).
Proof. exact C128_other_proof. Qed.
Print Assumptions C128_glicko2_other_solution.

(* A new player beats one rated a hundred thousand points higher. *)
Example C128_case : exists n p q s',
  glicko2 n (mkGlicko2 (Fin 1500) (Fin 350) (Fin (6/100))) (mkGlicko2 (Fin 101500) (Fin 30) (Fin (6/100))) WIN
    (mkGlicko2Config (Fin (5/10)) (Fin (1/1000000))) = Some (p, q) /\
  g2_volatility p = Fin s' /\ 0 < s' < 601 / 10000.
Proof.
  destruct (C128_glicko2_returns 1500 350 (6/100) 101500 30 (6/100) WIN (5/10) (1/1000000)) as (n & H); try lra.
  destruct (H n (le_n n)) as (p & q & E). exists n, p, q.
  destruct (C128_glicko2_volatility n 1500 350 (6/100) 101500 30 (6/100) WIN (5/10) (1/1000000) p q ltac:(lra) ltac:(lra) ltac:(lra) ltac:(lra) ltac:(lra) ltac:(lra) E)
    as (r1' & s1' & r2' & s2' & P1 & P2 & _ & V1 & _ & _ & [_ B] & _).
  exists s1'. split; [exact E|]. split; [exact V1|]. split; [exact P1|].
  apply Rnot_le_lt. intros h. assert (h2 : (601 / 10000) ^ 2 <= s1' ^ 2) by (apply pow_incr; lra).
  assert (X : exp (3 / 2 * (5 / 10) ^ 2 * (6 / 100) ^ 2 + 1 / 1000000) < 1002 / 1000).
  { set (u := 3 / 2 * (5 / 10) ^ 2 * (6 / 100) ^ 2 + 1 / 1000000). assert (U : 0 < u <= 14 / 10000) by (unfold u; lra).
    pose proof (exp_ineq1_le (- u)) as Q. rewrite exp_Ropp in Q. pose proof (exp_pos u) as Pu.
    apply (Rmult_le_compat_r (exp u)) in Q; [|lra]. rewrite Rinv_l in Q by lra. nra. }
  nra.
Qed.
(* A period of five games with the usual volatility. *)
Example C128_case_period : (5/10) ^ 2 * (6/100) ^ 2 * INR (length [1;2;3;4;5]) ^ 2 <= 1 / 10.
Proof. cbn [length INR]. lra. Qed.
