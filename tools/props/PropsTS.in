(** Property theorems for the closed-form part of TrueSkill (trueskill/mod.rs,
    math.rs, erf.rs, weights.rs).  [ts_in]/[tst_in] inject (rating, uncertainty)
    reals and teams of them into the model. *)
From Coq Require Import ZArith NArith List Bool Reals Lra Lia.
From Verif Require Import Arith XR ModelLib ModelWengLin ModelTS ModelTSGraph ModelTSMatrix Spec SpecTS SpecInTS ProofTS.
Import ListNotations.
Local Open Scope R_scope.

(** C49: validation of weights. *)
@THM C49_ts_weights_rate C49_rate_proof
@THM C49_ts_weights_quality C49_quality_proof
@THM C49_ts_weights_default C49_default_proof
Example C49_case : weight_error (fun w => w < 0) [[mkTS 25 8]; [mkTS 20 3; mkTS 1 1]] [[1]; [2; -3]] (WeightErr 1 1).
Proof.
  exists [[mkTS 25 8]], [mkTS 20 3; mkTS 1 1], [], [[1]], [2; -3], [], [2], (-3), [].
  repeat split; try (repeat constructor; lra); try lra.
Qed.

(** C50: the 1v1 update. *)
@THM C50_ts_1v1 C50_proof
Example C50_case : 0 < 25/3 /\ 0 < 3. Proof. lra. Qed.

(** C51: two teams. *)
@THM C51_ts_two_single C51_single_proof
@THM C51_ts_two_formula C51_formula_proof
@THM C51_ts_two_swap_partial C51_swap_proof
@THM C51_ts_two_shape C51_shape_proof
Example C51_case : wl_ok [(25, 25/3); (30, 4)] /\ WIN <> DRAW.
Proof. split; [|discriminate]. split; [discriminate|]. repeat constructor; cbn; lra. Qed.

(** C54: expected scores. *)
@THM C54_ts_expected C54_players_proof
@THM C54_ts_expected_teams C54_teams_proof
@THM C54_ts_expected_period C54_period_proof
@THM C54_ts_expected_multi C54_multi_proof
@THM C54_ts_expected_one_team C54_one_team_proof
@THM C54_ts_expected_mono_partial C54_mono_proof
@THM C54_ts_expected_mono_refuted C54_refuted_proof
Example C54_case : 0 < 25/6 /\ (2 <= length [[(25, 25/3)]; [(20, 2); (1, 1)]])%nat /\ concat [[(25, 25/3)]; [(20, 2); (1, 1)]] <> [] /\
  (20 < 25 /\ (25 <= 25 \/ 25 < 20)).
Proof. repeat split; try lra; [cbn; lia|discriminate]. Qed.

(** C55: match quality. *)
@THM C55_ts_quality C55_players_proof
@THM C55_ts_quality_teams C55_teams_proof
Example C55_case : map snd [(25, 25/3); (20, 2)] = map snd [(1, 25/3); (2, 2)] /\ Rabs (25 - 24) < Rabs (25 - 20).
Proof. split; [reflexivity|]. rewrite !Rabs_right; lra. Qed.

(** C57: rating periods. *)
@THM C57_ts_period C57_proof
Example C57_case : trueskill_rating_period (mkTS (Fin 25) (Fin 8)) [] (ts_cfg (1/10) 4 0) = mkTS (Fin 25) (Fin 8).
Proof. reflexivity. Qed.

(** C58: the new uncertainty can be NaN. *)
@THM C58_ts_uncertainty_refuted C58_refuted_proof
Example C58_case : 0 < 25/3 /\ 0 < 3. Proof. lra. Qed.

(** C59: conservative rank and draw margin. *)
@THM C59_ts_rank C59_rank_proof
@THM C59_ts_margin C59_margin_proof
Example C59_case : 0 <= 2. Proof. lra. Qed.

(** C78: equal players. *)
@THM C78_ts_expected_swap_partial C78_swap_proof
@THM C78_ts_expected_swap_refuted C78_refuted_proof
Example C78_case : 0 < 25/6 /\ 25 <> 26. Proof. lra. Qed.
