(** C121 for TrueSkill rating periods. *)
From Coq Require Import ZArith NArith List Bool Reals Lra.
From Verif Require Import Arith XR ModelLib ModelTS Spec SpecTS SpecInTS ProofTS ProofTSTwist.
Import Spec ListNotations.
Local Open Scope R_scope.

(** C121 (TrueSkill) fails: for every player, all uncertainties of two opponents and every configuration with a
    dynamics factor that is not huge there are opponents such that the player would be rated higher after the period
    had the first game been lost instead of won. *)
@THM C121_trueskill_refuted C121_ts_refuted_proof
(** C121 (TrueSkill), partial: in the last game of a period a win is better than a loss. *)
@THM C121_trueskill_partial C121_ts_last_proof

(** The default configuration and new players: beta 25/6, tau 25/300, uncertainty 25/3. *)
Example C121_ts_case : 0 < 25 / 3 /\ (25 / 300) ^ 2 < 2 * (25 / 6) ^ 2 + (25 / 3) ^ 2. Proof. lra. Qed.
(** The empty period leaves a player of rating 25 and uncertainty 25/3 as it was. *)
Example C121_ts_last_case dp beta tau : trueskill_rating_period (ts_in (25, 25 / 3)) [] (ts_cfg dp beta tau) = ts_in (25, 25 / 3). Proof. reflexivity. Qed.
