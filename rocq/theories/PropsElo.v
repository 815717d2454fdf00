(** Property theorems for Elo (elo.rs). *)
From Coq Require Import ZArith NArith List Bool Reals Lra.
From Verif Require Import Arith XR ModelLib ModelElo Spec ProofElo.
Import ListNotations.
Local Open Scope R_scope.

(** C01: [elo] is the published update, and the result is finite. *)
Theorem C01_elo_update : forall r1 r2 k o,
  elo (mkElo (Fin r1)) (mkElo (Fin r2)) o (mkEloConfig (Fin k)) =
  (mkElo (Fin (elo_upd k r1 r2 (points o))), mkElo (Fin (elo_upd k r2 r1 (points (invert o))))).
Proof. exact elo_eval. Qed.
Print Assumptions C01_elo_update.
(* Two players rated 1000, k = 32: the winner has 1016. *)
Example C01_case :
  fst (elo (mkElo (Fin 1000)) (mkElo (Fin 1000)) WIN (mkEloConfig (Fin 32))) = mkElo (Fin 1016).
Proof. rewrite C01_elo_update. cbn [fst]. unfold elo_upd. rewrite elo_E_equal. cbn [points]. do 2 f_equal. lra. Qed.

(** C02: points are conserved. *)
Theorem C02_elo_zero_sum : forall r1 r2 k o r1' r2',
  elo (mkElo (Fin r1)) (mkElo (Fin r2)) o (mkEloConfig (Fin k)) = (mkElo (Fin r1'), mkElo (Fin r2')) ->
  r1' + r2' = r1 + r2.
Proof. exact C02_proof. Qed.
Print Assumptions C02_elo_zero_sum.
Example C02_case : exists r1' r2',
  elo (mkElo (Fin 1400)) (mkElo (Fin 1000)) LOSS (mkEloConfig (Fin 20)) = (mkElo (Fin r1'), mkElo (Fin r2')).
Proof. do 2 eexists. apply C01_elo_update. Qed.

(** C03: expected scores are probabilities. *)
Theorem C03_elo_expected : forall r1 r2,
  exists e1 e2,
    elo_expected_score (mkElo (Fin r1)) (mkElo (Fin r2)) = (Fin e1, Fin e2) /\
    0 < e1 < 1 /\ 0 < e2 < 1 /\ e1 + e2 = 1 /\
    elo_expected_score (mkElo (Fin r2)) (mkElo (Fin r1)) = (Fin e2, Fin e1) /\
    (r1 = r2 -> e1 = 1 / 2 /\ e2 = 1 / 2) /\
    (forall t, elo_expected_score (mkElo (Fin (r1 + t))) (mkElo (Fin (r2 + t))) = (Fin e1, Fin e2)) /\
    (forall r1' e1' e2', r1 < r1' ->
       elo_expected_score (mkElo (Fin r1')) (mkElo (Fin r2)) = (Fin e1', Fin e2') -> e1 < e1' /\ e2' < e2).
Proof. exact C03_proof. Qed.
Print Assumptions C03_elo_expected.
(* 400 points of difference are odds of 10 to 1. *)
Example C03_case :
  elo_expected_score (mkElo (Fin 1000)) (mkElo (Fin 1400)) = (Fin (1 / 11), Fin (1 - 1 / 11)).
Proof.
  rewrite elo_expected_eval, (elo_E_swap 1000 1400).
  replace (elo_E 1000 1400) with (1 / 11); auto. unfold elo_E.
  replace ((1400 - 1000) / 400) with 1 by lra. rewrite Rpower_1 by lra. lra.
Qed.

(** C04: winning pays, and one game moves a rating by less than k. *)
Theorem C04_elo_direction : forall r1 r2 k, 0 < k ->
  exists w1 w2 d1 d2 l1 l2,
    elo (mkElo (Fin r1)) (mkElo (Fin r2)) WIN (mkEloConfig (Fin k)) = (mkElo (Fin w1), mkElo (Fin w2)) /\
    elo (mkElo (Fin r1)) (mkElo (Fin r2)) DRAW (mkEloConfig (Fin k)) = (mkElo (Fin d1), mkElo (Fin d2)) /\
    elo (mkElo (Fin r1)) (mkElo (Fin r2)) LOSS (mkEloConfig (Fin k)) = (mkElo (Fin l1), mkElo (Fin l2)) /\
    r1 < w1 < r1 + k /\ r2 - k < w2 < r2 /\
    r1 - k < l1 < r1 /\ r2 < l2 < r2 + k /\
    l1 < d1 < w1 /\ w2 < d2 < l2 /\
    (r1 < r2 -> r1 < d1 /\ d2 < r2) /\ (r2 < r1 -> d1 < r1 /\ r2 < d2) /\ (r1 = r2 -> d1 = r1 /\ d2 = r2).
Proof. exact C04_proof. Qed.
Print Assumptions C04_elo_direction.
Example C04_case : 0 < 32. Proof. lra. Qed.

(** C05: a rating period is the sequence of its games, in every arithmetic. *)
Theorem C05_elo_period : forall (F : Type) (A : Arith F) (p : EloRating F) rs c,
  elo_rating_period p rs c = fold_left (fun q r => fst (elo q (fst r) (snd r) c)) rs p /\
  elo_rating_period p [] c = p /\
  (forall rs', elo_rating_period p (rs ++ rs') c = elo_rating_period (elo_rating_period p rs c) rs' c).
Proof. exact C05_proof. Qed.
Print Assumptions C05_elo_period.
Example C05_case :
  elo_rating_period (mkElo (Fin 1000)) [(mkElo (Fin 1000), WIN); (mkElo (Fin 1016), DRAW)] (mkEloConfig (Fin 32))
  = mkElo (Fin 1016).
Proof.
  rewrite (proj1 (C05_elo_period _ _ _ _ _)). cbn [fold_left fst snd].
  rewrite C01_case, C01_elo_update. cbn [fst points]. unfold elo_upd. rewrite elo_E_equal. do 2 f_equal; lra.
Qed.
