(** Property theorems for FIFA (fifa.rs). *)
From Coq Require Import ZArith NArith List Bool Reals Lra.
From Verif Require Import Arith XR ModelLib ModelElo ModelFifa Spec ProofFifa.
Import ListNotations.
Local Open Scope R_scope.

(** C06: the published SUM update; conservation; expectations. *)
@THM C06_fifa_update C06_proof
Example C06_case : fifa (mkFifa (Fin 1000)) (mkFifa (Fin 1000)) WIN (mkFifaConfig (Fin 10) false false)
  = (mkFifa (Fin 1005), mkFifa (Fin 995)).
Proof.
  rewrite (proj1 (C06_fifa_update _ _ _ _)). unfold fifa_upd; rewrite fifa_We_equal; cbn [points invert].
  do 2 f_equal; f_equal; lra.
Qed.
(** C06: direction of the update. *)
@THM C06_fifa_direction C06_direction_proof
Example C06_direction_case : 0 < 10. Proof. lra. Qed.

(** C07: with the knock-out flag the result is the better of old rating and
    update ([u] without, [k] with the flag). *)
@THM C07_fifa_knockout C07_proof
(** C07, rating period: any number of knock-out matches, each with its own
    opponent, outcome, importance and penalty flag. *)
@THM C07_fifa_knockout_period C07_period_proof
Example C07_case : fifa_rating_period (mkFifa (Fin 1000))
  (fifa_games [((1000, LOSS), (10, false)); ((1000, WIN), (10, false))] true) = mkFifa (Fin 1005).
Proof.
  cbn [fifa_games map]. rewrite fifa_period_fold. cbn [fold_left fst snd]. rewrite fifa_eval. cbn [fst].
  rewrite fifa_eval. cbn [fst ko_max code_W1 points]. unfold fifa_upd. rewrite fifa_We_equal.
  rewrite (Rmax_left 1000 (1000 + 10 * (0 - 1 / 2))) by lra. rewrite fifa_We_equal.
  rewrite Rmax_right by lra. do 2 f_equal. lra.
Qed.

(** C08 holds for the player of a rating period: 0.75 for winning the
    shoot-out, a draw for losing it. *)
@THM C08_fifa_penalties_period C08_period_proof
(** C08 is false for [fifa]: the full claim would be scores (0.75, 0.5) when
    team one wins and (0.5, 0.75) when team two wins. *)
@THM C08_fifa_penalties_refuted C08_refuted_proof
(** C08: what [fifa] does: both teams get 0.75 when team one wins the
    shoot-out, both get 0.5 when team two wins it.  Missing: the score of team
    two. *)
@THM C08_fifa_penalties_partial C08_partial_proof
Example C08_case : 10 <> 0. Proof. lra. Qed.

(** C70: a rating period is the sequence of its matches, in every arithmetic. *)
@THM C70_fifa_period C70_proof
