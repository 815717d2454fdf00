(** Property theorems for FIFA (fifa.rs). *)
From Coq Require Import ZArith NArith List Bool Reals Lra.
From Verif Require Import Arith XR ModelLib ModelElo ModelFifa Spec ProofFifa.
Import ListNotations.
Local Open Scope R_scope.

(** C06: the published SUM update; conservation; expectations. *)
Theorem C06_fifa_update : forall r1 r2 I o,
  fifa (mkFifa (Fin r1)) (mkFifa (Fin r2)) o (mkFifaConfig (Fin I) false false) =
    (mkFifa (Fin (fifa_upd I r1 r2 (points o))), mkFifa (Fin (fifa_upd I r2 r1 (points (invert o))))) /\
  fifa_upd I r1 r2 (points o) + fifa_upd I r2 r1 (points (invert o)) = r1 + r2 /\
  fifa_expected_score (mkFifa (Fin r1)) (mkFifa (Fin r2)) = (Fin (fifa_We r1 r2), Fin (fifa_We r2 r1)) /\
  0 < fifa_We r1 r2 < 1 /\ fifa_We r1 r2 + fifa_We r2 r1 = 1.
Proof. exact C06_proof. Qed.
Print Assumptions C06_fifa_update.
Example C06_case : fifa (mkFifa (Fin 1000)) (mkFifa (Fin 1000)) WIN (mkFifaConfig (Fin 10) false false)
  = (mkFifa (Fin 1005), mkFifa (Fin 995)).
Proof.
  rewrite (proj1 (C06_fifa_update _ _ _ _)). unfold fifa_upd; rewrite fifa_We_equal; cbn [points invert].
  do 2 f_equal; f_equal; lra.
Qed.
(** C06: direction of the update. *)
Theorem C06_fifa_direction : forall r1 r2 I, 0 < I ->
  r1 < fifa_upd I r1 r2 1 < r1 + I /\ r1 - I < fifa_upd I r1 r2 0 < r1 /\
  (r1 < r2 -> r1 < fifa_upd I r1 r2 (1 / 2)) /\ (r2 < r1 -> fifa_upd I r1 r2 (1 / 2) < r1).
Proof. exact C06_direction_proof. Qed.
Print Assumptions C06_fifa_direction.
Example C06_direction_case : 0 < 10. Proof. lra. Qed.

(** C07: with the knock-out flag the result is the better of old rating and
    update ([u] without, [k] with the flag). *)
Theorem C07_fifa_knockout : forall r1 r2 I pen o,
  exists u1 u2 k1 k2,
    fifa (mkFifa (Fin r1)) (mkFifa (Fin r2)) o (mkFifaConfig (Fin I) false pen) = (mkFifa (Fin u1), mkFifa (Fin u2)) /\
    fifa (mkFifa (Fin r1)) (mkFifa (Fin r2)) o (mkFifaConfig (Fin I) true pen) = (mkFifa (Fin k1), mkFifa (Fin k2)) /\
    r1 <= k1 /\ r2 <= k2 /\ (r1 <= u1 -> k1 = u1) /\ (r2 <= u2 -> k2 = u2) /\
    (u1 < r1 -> k1 = r1) /\ (u2 < r2 -> k2 = r2).
Proof. exact C07_proof. Qed.
Print Assumptions C07_fifa_knockout.
(** C07, rating period: any number of knock-out matches, each with its own
    opponent, outcome, importance and penalty flag. *)
Theorem C07_fifa_knockout_period : forall r rs,
  exists r', fifa_rating_period (mkFifa (Fin r)) (fifa_games rs true) = mkFifa (Fin r') /\ r <= r'.
Proof. exact C07_period_proof. Qed.
Print Assumptions C07_fifa_knockout_period.
Example C07_case : fifa_rating_period (mkFifa (Fin 1000))
  (fifa_games [((1000, LOSS), (10, false)); ((1000, WIN), (10, false))] true) = mkFifa (Fin 1005).
Proof.
  cbn [fifa_games map]. rewrite fifa_period_fold. cbn [fold_left fst snd]. rewrite fifa_eval. cbn [fst].
  rewrite fifa_eval. cbn [fst ko_max code_W1 points]. unfold fifa_upd. rewrite fifa_We_equal.
  rewrite (Rmax_left 1000 (1000 + 10 * (0 - 1 / 2))) by lra. rewrite fifa_We_equal.
  rewrite Rmax_right by lra. do 2 f_equal. lra.
Qed.

(** C08 holds for the player of a rating period: 0.75 for winning the
    shoot-out, a draw for losing it. *)
Theorem C08_fifa_penalties_period : forall r opp I o,
  fifa_rating_period (mkFifa (Fin r)) [(mkFifa (Fin opp), o, mkFifaConfig (Fin I) false true)] =
  mkFifa (Fin (fifa_upd I r opp (match o with WIN => 3 / 4 | LOSS | DRAW => 1 / 2 end))).
Proof. exact C08_period_proof. Qed.
Print Assumptions C08_fifa_penalties_period.
(** C08 is false for [fifa]: the full claim would be scores (0.75, 0.5) when
    team one wins and (0.5, 0.75) when team two wins. *)
Theorem C08_fifa_penalties_refuted : forall r1 r2 I, I <> 0 ->
  fifa (mkFifa (Fin r1)) (mkFifa (Fin r2)) WIN (mkFifaConfig (Fin I) false true) <>
    (mkFifa (Fin (fifa_upd I r1 r2 (3 / 4))), mkFifa (Fin (fifa_upd I r2 r1 (1 / 2)))) /\
  fifa (mkFifa (Fin r1)) (mkFifa (Fin r2)) LOSS (mkFifaConfig (Fin I) false true) <>
    (mkFifa (Fin (fifa_upd I r1 r2 (1 / 2))), mkFifa (Fin (fifa_upd I r2 r1 (3 / 4)))).
Proof. exact C08_refuted_proof. Qed.
Print Assumptions C08_fifa_penalties_refuted.
(** C08: what [fifa] does: both teams get 0.75 when team one wins the
    shoot-out, both get 0.5 when team two wins it.  Missing: the score of team
    two. *)
Theorem C08_fifa_penalties_partial : forall r1 r2 I,
  fifa (mkFifa (Fin r1)) (mkFifa (Fin r2)) WIN (mkFifaConfig (Fin I) false true) =
    (mkFifa (Fin (fifa_upd I r1 r2 (3 / 4))), mkFifa (Fin (fifa_upd I r2 r1 (3 / 4)))) /\
  fifa (mkFifa (Fin r1)) (mkFifa (Fin r2)) LOSS (mkFifaConfig (Fin I) false true) =
    (mkFifa (Fin (fifa_upd I r1 r2 (1 / 2))), mkFifa (Fin (fifa_upd I r2 r1 (1 / 2)))) /\
  fifa (mkFifa (Fin r1)) (mkFifa (Fin r2)) DRAW (mkFifaConfig (Fin I) false true) =
    (mkFifa (Fin (fifa_upd I r1 r2 (1 / 2))), mkFifa (Fin (fifa_upd I r2 r1 (1 / 2)))).
Proof. exact C08_partial_proof. Qed.
Print Assumptions C08_fifa_penalties_partial.
Example C08_case : 10 <> 0. Proof. lra. Qed.

(** C70: a rating period is the sequence of its matches, in every arithmetic. *)
Theorem C70_fifa_period : forall (F : Type) (A : Arith F) (p : FifaRating F) rs,
  fifa_rating_period p rs = fold_left (fun q r => fst (fifa q (fst (fst r)) (snd (fst r)) (snd r))) rs p /\
  fifa_rating_period p [] = p /\
  (forall rs', fifa_rating_period p (rs ++ rs') = fifa_rating_period (fifa_rating_period p rs) rs').
Proof. exact C70_proof. Qed.
Print Assumptions C70_fifa_period.
