(** Property theorems: who pays for a result (C135). *)
From Coq Require Import ZArith NArith List Bool Reals Lra Lia.
From Verif Require Import Arith XR ModelLib ModelGlicko ModelGlicko2 ModelSticko ModelBoost
  Spec ProofGlicko ProofUncertain ProofWho ProofWhoB.
Import Spec ListNotations.
Local Open Scope R_scope.

(** C135: two equally certain players exchange points, and stay equally certain. *)
Theorem C135_equal_glicko : forall r1 r2 RD c o, 0 < RD -> exists x1 x2 d,
  glicko (mkGlicko (Fin r1) (Fin RD)) (mkGlicko (Fin r2) (Fin RD)) o (mkGlickoConfig (Fin c)) = (mkGlicko (Fin x1) (Fin d), mkGlicko (Fin x2) (Fin d)) /\ x1 + x2 = r1 + r2.
Proof. exact C135_glicko_proof. Qed.
Print Assumptions C135_equal_glicko.
Theorem C135_equal_glicko2 : forall fuel r1 r2 RD s t tol o p q, 0 < s -> 0 < t -> 0 <= tol ->
  glicko2 fuel (mkGlicko2 (Fin r1) (Fin RD) (Fin s)) (mkGlicko2 (Fin r2) (Fin RD) (Fin s)) o (mkGlicko2Config (Fin t) (Fin tol)) = Some (p, q) ->
  exists x1 x2 d v, p = mkGlicko2 (Fin x1) (Fin d) (Fin v) /\ q = mkGlicko2 (Fin x2) (Fin d) (Fin v) /\ x1 + x2 = r1 + r2.
Proof. exact C135_glicko2_proof. Qed.
Print Assumptions C135_equal_glicko2.
(** In Sticko the colours and the lambda term do not matter, but beta adds points. *)
Theorem C135_equal_sticko : forall r1 r2 RD h beta lambda gamma c o, 0 < RD -> 0 <= h -> exists x1 d1 x2 d2,
  sticko (mkSticko (Fin r1) (Fin RD)) (mkSticko (Fin r2) (Fin RD)) o (mkStickoConfig (Fin h) (Fin beta) (Fin lambda) (Fin gamma) (Fin c)) = (mkSticko (Fin x1) d1, mkSticko (Fin x2) d2) /\
  (beta = 0 -> x1 + x2 = r1 + r2) /\ (0 < beta -> r1 + r2 < x1 + x2).
Proof. exact C135_sticko_proof. Qed.
Print Assumptions C135_equal_sticko.
(** Glicko-Boost: two equally certain players exchange points unless one of them is boosted (a
    result better than expected and expected with a probability below 1/(1 + k^2)); a boost for
    a win creates points, unless the deviation is so large that the game more than undoes b1. *)
Theorem C135_equal_boost : forall r1 r2 RD o c, 0 < RD <= 350 -> 0 <= bc_k c -> 0 <= bc_b0 c -> 0 <= bc_b1 c -> exists x1 d1 x2 d2,
  let cfg := mkBoostConfig (Fin (bc_eta c)) (Fin (bc_k c)) (Fin (bc_b0 c)) (Fin (bc_b1 c)) (Fin (bc_a0 c)) (Fin (bc_a1 c)) (Fin (bc_a2 c)) (Fin (bc_a3 c)) (Fin (bc_a4 c)) in
  let E := gE r1 (r2 - bc_eta c) RD in
  glicko_boost (mkBoost (Fin r1) (Fin RD)) (mkBoost (Fin r2) (Fin RD)) o cfg = (mkBoost (Fin x1) d1, mkBoost (Fin x2) d2) /\
  (bc_k c = 0 \/ (points o <= E \/ / (1 + bc_k c ^ 2) <= E) /\ (E <= points o \/ E <= 1 - / (1 + bc_k c ^ 2)) -> x1 + x2 = r1 + r2) /\
  (0 < bc_k c -> o = WIN -> E < / (1 + bc_k c ^ 2) -> RD < / sqrt (/ RD ^ 2 + gq ^ 2 / 4) + bc_b1 c -> r1 + r2 < x1 + x2).
Proof. exact C135_boost_proof. Qed.
Print Assumptions C135_equal_boost.
(** In an upset, or a draw, the player whose rating is less certain moves further. *)
Theorem C135_more_glicko : forall r1 RD1 r2 RD2 c o, 0 < RD2 < RD1 -> RD1 ^ 2 + c ^ 2 <= 347 ^ 2 -> exists x1 d1 x2 d2,
  glicko (mkGlicko (Fin r1) (Fin RD1)) (mkGlicko (Fin r2) (Fin RD2)) o (mkGlickoConfig (Fin c)) = (mkGlicko (Fin x1) d1, mkGlicko (Fin x2) d2) /\
  (r1 <= r2 -> o = WIN \/ (o = DRAW /\ r1 < r2) -> 0 < r2 - x2 < x1 - r1) /\ (r2 <= r1 -> o = LOSS \/ (o = DRAW /\ r2 < r1) -> 0 < x2 - r2 < r1 - x1).
Proof. exact C135_glicko_more_proof. Qed.
Print Assumptions C135_more_glicko.
(** Sticko without gamma and beta, any lambda: the sum of the ratings moves that way. *)
Theorem C135_more_sticko : forall r1 RD1 r2 RD2 h lambda c o, 0 < RD2 < RD1 -> RD1 ^ 2 + c ^ 2 <= 347 ^ 2 -> 0 <= h -> exists x1 d1 x2 d2,
  sticko (mkSticko (Fin r1) (Fin RD1)) (mkSticko (Fin r2) (Fin RD2)) o (mkStickoConfig (Fin h) (Fin 0) (Fin lambda) (Fin 0) (Fin c)) = (mkSticko (Fin x1) d1, mkSticko (Fin x2) d2) /\
  (r1 <= r2 -> o = WIN \/ (o = DRAW /\ r1 < r2) -> r1 + r2 < x1 + x2) /\ (r2 <= r1 -> o = LOSS \/ (o = DRAW /\ r2 < r1) -> x1 + x2 < r1 + r2).
Proof. exact C135_sticko_more_proof. Qed.
Print Assumptions C135_more_sticko.
(** When the favourite wins by the ratings it can be the other way round. *)
Theorem C135_favourite_glicko_refuted : forall r1 RD1 RD2 c, 0 < RD2 < RD1 -> exists r2 x1 d1 x2 d2, r2 < r1 /\
  glicko (mkGlicko (Fin r1) (Fin RD1)) (mkGlicko (Fin r2) (Fin RD2)) WIN (mkGlickoConfig (Fin c)) = (mkGlicko (Fin x1) d1, mkGlicko (Fin x2) d2) /\ 0 < x1 - r1 < r2 - x2.
Proof. exact C135_glicko_refuted_proof. Qed.
Print Assumptions C135_favourite_glicko_refuted.

Example C135_glicko_case : exists x1 x2 d,
  glicko (mkGlicko (Fin 1500) (Fin 200)) (mkGlicko (Fin 1720) (Fin 200)) WIN (mkGlickoConfig (Fin 63.2)) = (mkGlicko (Fin x1) (Fin d), mkGlicko (Fin x2) (Fin d)) /\ x1 + x2 = 3220.
Proof. destruct (C135_equal_glicko 1500 1720 200 63.2 WIN ltac:(lra)) as (x1 & x2 & d & E & S). exists x1, x2, d. split; [exact E|lra]. Qed.
Example C135_glicko2_case : 0 < 0.06 /\ 0 < 0.5 /\ 0 <= 0.000001. Proof. lra. Qed.
Example C135_sticko_case : 0 < 200 /\ 0 <= 10 /\ 0 < 0.1. Proof. lra. Qed.
Example C135_more_case : exists x1 d1 x2 d2,
  glicko (mkGlicko (Fin 1500) (Fin 200)) (mkGlicko (Fin 1600) (Fin 50)) WIN (mkGlickoConfig (Fin 63.2)) = (mkGlicko (Fin x1) d1, mkGlicko (Fin x2) d2) /\ 0 < 1600 - x2 < x1 - 1500.
Proof. destruct (C135_more_glicko 1500 200 1600 50 63.2 WIN) as (x1 & d1 & x2 & d2 & E & A & _); try lra. exists x1, d1, x2, d2. split; [exact E|apply A; auto; lra]. Qed.
Example C135_more_sticko_case : 0 < 50 < 200 /\ 200 ^ 2 + 10 ^ 2 <= 347 ^ 2 /\ 0 <= 10. Proof. lra. Qed.
Example C135_refuted_case : 0 < 30 < 350. Proof. lra. Qed.
(* A fresh pair, equal after the advantage of 30 points; the default k. *)
Example C135_boost_case : let E := gE 1500 (1530 - 30) 350 in 0 < 350 <= 350 /\ / (1 + 1.96 ^ 2) <= E /\ E <= 1 - / (1 + 1.96 ^ 2).
Proof.
  cbv zeta. replace (1530 - 30) with 1500 by lra. rewrite gE_self. assert (/ (1 + 1.96 ^ 2) <= / 2) by (apply Rinv_le_contravar; lra). repeat split; lra.
Qed.
