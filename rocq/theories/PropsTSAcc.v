(** Property theorems about TrueSkill against the true normal distribution
    function [Ncdf] (an integral, SpecNormal.v) and about drawn games. *)
From Coq Require Import ZArith NArith List Bool Reals Lra Lia.
From Verif Require Import Arith XR ModelLib ModelWengLin ModelTS Spec SpecTS SpecInTS SpecNormal ProofTS ProofTSAcc ProofTSZero.
Import ListNotations.
Local Open Scope R_scope.

(** C51: swapping the teams; no restriction on the outcome for draw
    probabilities of at least 1% and uncertainties up to 5000 beta. *)
Theorem C51_ts_two_swap_range_partial : forall t1 t2 o dp beta tau, wl_ok t1 -> wl_ok t2 -> 0.01 <= dp <= 1 -> 0 < beta ->
  Forall (fun p => snd p <= 5000 * beta) (t1 ++ t2) ->
  let '(t1', t2') := trueskill_two_teams (tst_in t1) (tst_in t2) o (ts_cfg dp beta tau) in
  trueskill_two_teams (tst_in t2) (tst_in t1) (invert o) (ts_cfg dp beta tau) = (t2', t1').
Proof. exact C51_swap_range_proof. Qed.
Print Assumptions C51_ts_two_swap_range_partial.
Theorem C51_ts_two_swap_refuted : exists t1 t2 dp beta tau, wl_ok t1 /\ wl_ok t2 /\ 0 < dp < 1 /\ 0 < beta /\ t1 = t2 /\
  let '(t1', t2') := trueskill_two_teams (tst_in t1) (tst_in t2) DRAW (ts_cfg dp beta tau) in
  trueskill_two_teams (tst_in t2) (tst_in t1) (invert DRAW) (ts_cfg dp beta tau) <> (t2', t1').
Proof. exact C51_swap_refuted_proof. Qed.
Print Assumptions C51_ts_two_swap_refuted.
Example C51_range_case : wl_ok [(25, 25/3); (30, 4)] /\ Forall (fun p => snd p <= 5000 * (25/6)) ([(25, 25/3); (30, 4)] ++ [(20, 2)]) /\ 0.01 <= 0.1 <= 1.
Proof. repeat split; try discriminate; try lra; repeat constructor; cbn; lra. Qed.

(** C59: the margin makes the configured draw probability come true: a normal
    performance difference of [n] players falls within it with probability
    [dp]. *)
Theorem C59_ts_margin_probability : forall dp beta n, 0 <= dp <= 1 -> 0 < beta -> 0 < n ->
  exists e, ts_draw_margin (Fin dp) (Fin beta) (Fin n) = Fin e /\ 0 <= e /\
    let x := e / (sqrt n * beta) in Rabs (Ncdf x - Ncdf (- x) - dp) <= 0.000012.
Proof. exact C59_margin_acc_proof. Qed.
Print Assumptions C59_ts_margin_probability.
Example C59_margin_case : 0 <= 1/10 <= 1 /\ 0 < 25/6 /\ 0 < 2. Proof. lra. Qed.

(** C86: expected scores are normal probabilities. *)
Theorem C86_ts_expected_normal : forall m1 s1 m2 s2 dp beta tau, 0 < beta ->
  exists e, ts_expected_score (ts_in (m1, s1)) (ts_in (m2, s2)) (ts_cfg dp beta tau) = (Fin e, Fin (1 - e)) /\
    Rabs (e - Ncdf ((m1 - m2) / sqrt (2 * beta ^ 2 + s1 ^ 2 + s2 ^ 2))) <= 0.0000051.
Proof. exact C86_players_proof. Qed.
Print Assumptions C86_ts_expected_normal.
Theorem C86_ts_expected_normal_teams : forall t1 t2 dp beta tau, 0 < beta -> t1 ++ t2 <> [] ->
  exists e, ts_expected_score_two_teams (tst_in t1) (tst_in t2) (ts_cfg dp beta tau) = (Fin e, Fin (1 - e)) /\
    Rabs (e - Ncdf ((side_mu t1 - side_mu t2) / sqrt (INR (length t1 + length t2) * beta ^ 2 + side_var t1 + side_var t2))) <= 0.0000051.
Proof. exact C86_teams_proof. Qed.
Print Assumptions C86_ts_expected_normal_teams.
Theorem C86_ts_expected_normal_period : forall m s os dp beta tau, 0 < beta ->
  exists es, ts_expected_score_rating_period (ts_in (m, s)) (tst_in os) (ts_cfg dp beta tau) = map Fin es /\
    Forall2 (fun e o => Rabs (e - Ncdf ((m - fst o) / sqrt (2 * beta ^ 2 + s ^ 2 + snd o ^ 2))) <= 0.0000051) es os.
Proof. exact C86_period_proof. Qed.
Print Assumptions C86_ts_expected_normal_period.
Theorem C86_ts_expected_normal_multi : forall ts dp beta tau, 0 < beta -> (2 <= length ts)%nat -> concat ts <> [] ->
  let k := INR (length ts) in
  exists es, ts_expected_score_multi_team (map tst_in ts) (ts_cfg dp beta tau) = map Fin es /\
    Forall2 (fun e i => Rabs (e - rowN beta ts i / (k * (k - 1) / 2)) <= 0.000016) es (seq 0 (length ts)).
Proof. exact C86_multi_proof. Qed.
Print Assumptions C86_ts_expected_normal_multi.
Example C86_case : 0 < 25/6 /\ (2 <= length [[(25, 25/3)]; [(20, 2); (1, 1)]])%nat /\ concat [[(25, 25/3)]; [(20, 2); (1, 1)]] <> [] /\
  [(25, 25/3)] ++ [(20, 2); (1, 1)] <> [].
Proof. repeat split; try lra; try (cbn; lia); discriminate. Qed.

(** C88: the documented meaning of beta. *)
Theorem C88_ts_beta_80_refuted : forall m s1 s2 dp beta tau, 0 < beta ->
  exists e, fst (ts_expected_score (ts_in (m + beta, s1)) (ts_in (m, s2)) (ts_cfg dp beta tau)) = Fin e /\ e < 0.77.
Proof. exact C88_beta_proof. Qed.
Print Assumptions C88_ts_beta_80_refuted.

(** C87: draws. *)
Theorem C87_ts_draw_partial : forall m1 s1 m2 s2 dp beta tau, 0.01 <= dp <= 1 -> 0 < beta -> 0 < s1 <= 5000 * beta -> 0 < s2 <= 5000 * beta ->
  exists m1' u1 m2' u2, trueskill (ts_in (m1, s1)) (ts_in (m2, s2)) DRAW (ts_cfg dp beta tau) = (mkTS (Fin m1') u1, mkTS (Fin m2') u2) /\
    (m2 < m1 -> m1' < m1 /\ m2 < m2') /\ (m1 < m2 -> m1 < m1' /\ m2' < m2) /\ (m1 = m2 -> m1' = m1 /\ m2' = m2).
Proof. exact C87_draw_proof. Qed.
Print Assumptions C87_ts_draw_partial.
Theorem C87_ts_draw_refuted : forall m, exists m1' u1 m2' u2, let p := ts_in (m, 1000000000) in
  trueskill p p DRAW (ts_cfg (1/10) (25/6) 0) = (mkTS (Fin m1') u1, mkTS (Fin m2') u2) /\ m1' > m /\ m2' < m.
Proof. exact C87_refuted_proof. Qed.
Print Assumptions C87_ts_draw_refuted.
Theorem C87_ts_draw_zero_refuted : forall m s beta tau, 0 < beta -> 2 * beta <= s ->
  exists m1' u1 m2' u2, trueskill (ts_in (m, s)) (ts_in (m, s)) DRAW (ts_cfg 0 beta tau) = (mkTS (Fin m1') u1, mkTS (Fin m2') u2) /\ m1' > m /\ m2' < m.
Proof. exact C87_zero_refuted_proof. Qed.
Print Assumptions C87_ts_draw_zero_refuted.
(* Fresh players of the default configuration with draw probability 0. *)
Example C87_zero_case : 0 < 25/6 /\ 2 * (25/6) <= 25/3. Proof. lra. Qed.
Example C87_case : 0.01 <= 0.1 <= 1 /\ 0 < 25/6 /\ 0 < 25/3 <= 5000 * (25/6) /\ 0 < 3 <= 5000 * (25/6). Proof. lra. Qed.
