(** Property theorems about TrueSkill against the true normal distribution
    function [Ncdf] (an integral, SpecNormal.v) and about drawn games. *)
From Coq Require Import ZArith NArith List Bool Reals Lra Lia.
From Verif Require Import Arith XR ModelLib ModelWengLin ModelTS Spec SpecTS SpecInTS SpecNormal ProofTS ProofTSAcc ProofTSZero.
Import ListNotations.
Local Open Scope R_scope.

(** C51: swapping the teams; no restriction on the outcome for draw
    probabilities of at least 1% and uncertainties up to 5000 beta. *)
@THM C51_ts_two_swap_range_partial C51_swap_range_proof
@THM C51_ts_two_swap_refuted C51_swap_refuted_proof
Example C51_range_case : wl_ok [(25, 25/3); (30, 4)] /\ Forall (fun p => snd p <= 5000 * (25/6)) ([(25, 25/3); (30, 4)] ++ [(20, 2)]) /\ 0.01 <= 0.1 <= 1.
Proof. repeat split; try discriminate; try lra; repeat constructor; cbn; lra. Qed.

(** C59: the margin makes the configured draw probability come true: a normal
    performance difference of [n] players falls within it with probability
    [dp]. *)
@THM C59_ts_margin_probability C59_margin_acc_proof
Example C59_margin_case : 0 <= 1/10 <= 1 /\ 0 < 25/6 /\ 0 < 2. Proof. lra. Qed.

(** C86: expected scores are normal probabilities. *)
@THM C86_ts_expected_normal C86_players_proof
@THM C86_ts_expected_normal_teams C86_teams_proof
@THM C86_ts_expected_normal_period C86_period_proof
@THM C86_ts_expected_normal_multi C86_multi_proof
Example C86_case : 0 < 25/6 /\ (2 <= length [[(25, 25/3)]; [(20, 2); (1, 1)]])%nat /\ concat [[(25, 25/3)]; [(20, 2); (1, 1)]] <> [] /\
  [(25, 25/3)] ++ [(20, 2); (1, 1)] <> [].
Proof. repeat split; try lra; try (cbn; lia); discriminate. Qed.

(** C88: the documented meaning of beta. *)
@THM C88_ts_beta_80_refuted C88_beta_proof

(** C87: draws. *)
@THM C87_ts_draw_partial C87_draw_proof
@THM C87_ts_draw_refuted C87_refuted_proof
@THM C87_ts_draw_zero_refuted C87_zero_refuted_proof
(* Fresh players of the default configuration with draw probability 0. *)
Example C87_zero_case : 0 < 25/6 /\ 2 * (25/6) <= 25/3. Proof. lra. Qed.
Example C87_case : 0.01 <= 0.1 <= 1 /\ 0 < 25/6 /\ 0 < 25/3 <= 5000 * (25/6) /\ 0 < 3 <= 5000 * (25/6). Proof. lra. Qed.
