(** Property theorems about TrueSkill games against the corrections of the true
    truncated Gaussian (SpecTSN.v). *)
From Coq Require Import ZArith NArith List Bool Reals Lra Lia.
From Coquelicot Require Import Coquelicot.
From Verif Require Import Arith XR ModelLib ModelTS Spec SpecTS SpecInTS SpecNormal SpecTSN ProofTS ProofTSNorm.
Import ListNotations.
Local Open Scope R_scope.

(** C102: rating and variance changes of a game or a two-team match. *)
@THM C102_ts_normal_1v1 C102_player_proof
@THM C102_ts_normal_teams C102_teams_proof
@THM C102_ts_normal_expected C102_expected_proof
@THM C102_ts_normal_expected_teams C102_expected_teams_proof
(** What the reference corrections are: mean and variance of a standard normal
    variable conditioned on the result, and [Ncdf] is a distribution function. *)
@THM C102_ts_normal_moments C102_moments_proof
@THM C102_ts_normal_distribution C102_total_proof
Example C102_case : 0 < 25/3 /\ 0.01 <= 0.1 <= 1 /\ 0 < 25/6 /\ (25/3) ^ 2 + (25/3) ^ 2 <= 2 * (1400 * 0.1 ^ 2 - 1) * (25/6) ^ 2.
Proof. lra. Qed.
Example C102_teams_case : let t1 := [(25, 25/3); (30, 4)] in let t2 := [(20, 2)] in
  wl_ok t1 /\ wl_ok t2 /\ side_var t1 + side_var t2 <= INR (length t1 + length t2) * (1400 * 0.1 ^ 2 - 1) * (25/6) ^ 2 /\ t1 ++ t2 <> [].
Proof. cbn. repeat split; try discriminate; try (repeat constructor; cbn; lra). Qed.
(** An upset by 20 deviations and a close game both count as ordinary. *)
Example C102_lead_case : -26 <= lead WIN (-20) 1 /\ -26 <= lead LOSS 0 (1/10) /\ lead WIN (-30) 1 < -26 /\ lead WIN (-30) 0 < 0.
Proof. unfold lead. lra. Qed.
