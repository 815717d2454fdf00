(** C121 for TrueSkill rating periods. *)
From Coq Require Import ZArith NArith List Bool Reals Lra.
From Verif Require Import Arith XR ModelLib ModelTS Spec SpecTS SpecInTS ProofTS ProofTSTwist.
Import Spec ListNotations.
Local Open Scope R_scope.

(** C121 (TrueSkill) fails: for every player, all uncertainties of two opponents and every configuration with a
    dynamics factor that is not huge there are opponents such that the player would be rated higher after the period
    had the first game been lost instead of won. *)
Theorem C121_trueskill_refuted : forall m s s2 s3 dp beta tau, 0 < s -> 0 < s2 -> 0 < s3 -> tau ^ 2 < 2 * beta ^ 2 + s2 ^ 2 -> tau ^ 2 < 2 * beta ^ 2 + s3 ^ 2 ->
  exists m2 m3 a b,
  ts_rating (trueskill_rating_period (ts_in (m, s)) [(ts_in (m2, s2), WIN); (ts_in (m3, s3), LOSS)] (ts_cfg dp beta tau)) = Fin a /\
  ts_rating (trueskill_rating_period (ts_in (m, s)) [(ts_in (m2, s2), LOSS); (ts_in (m3, s3), LOSS)] (ts_cfg dp beta tau)) = Fin b /\ a < b.
Proof. exact C121_ts_refuted_proof. Qed.
Print Assumptions C121_trueskill_refuted.
(** C121 (TrueSkill), partial: in the last game of a period a win is better than a loss. *)
Theorem C121_trueskill_partial : forall p rs m s m2 s2 dp beta tau, 0 < s -> 0 < s2 ->
  trueskill_rating_period p rs (ts_cfg dp beta tau) = ts_in (m, s) ->
  exists w l,
  ts_rating (trueskill_rating_period p (rs ++ [(ts_in (m2, s2), WIN)]) (ts_cfg dp beta tau)) = Fin w /\
  ts_rating (trueskill_rating_period p (rs ++ [(ts_in (m2, s2), LOSS)]) (ts_cfg dp beta tau)) = Fin l /\ l < m < w.
Proof. exact C121_ts_last_proof. Qed.
Print Assumptions C121_trueskill_partial.

(** The default configuration and new players: beta 25/6, tau 25/300, uncertainty 25/3. *)
Example C121_ts_case : 0 < 25 / 3 /\ (25 / 300) ^ 2 < 2 * (25 / 6) ^ 2 + (25 / 3) ^ 2. Proof. lra. Qed.
(** The empty period leaves a player of rating 25 and uncertainty 25/3 as it was. *)
Example C121_ts_last_case dp beta tau : trueskill_rating_period (ts_in (25, 25 / 3)) [] (ts_cfg dp beta tau) = ts_in (25, 25 / 3). Proof. reflexivity. Qed.
