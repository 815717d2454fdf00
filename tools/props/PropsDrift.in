(** Does the mean rating move when results follow the expected scores? *)
From Coq Require Import ZArith NArith List Bool Reals Lra Lia.
From Verif Require Import Arith XR ModelLib ModelElo ModelFifa ModelIngo ModelUscf ModelEgf ModelDwz ModelGlicko ModelWengLin ModelTS ModelSticko ModelBoost
  Spec SpecIn SpecTS SpecInTS ProofElo ProofGlicko MathTS MathTSNorm2 ProofDrift ProofDrift2.
Import Spec ListNotations.
Local Open Scope R_scope.

(** C108: a win, draw and loss come with probabilities pw, pd, pl whose mean score
    is the value of [expected_score]; f o is the new rating after outcome o. *)
@THM C108_no_drift_elo C108_elo_proof
@THM C108_no_drift_fifa C108_fifa_proof
@THM C108_no_drift_ingo C108_ingo_proof
@THM C108_no_drift_weng_lin C108_wl_proof
@THM C108_no_drift_weng_lin_teams C108_wl_teams_proof
@THM C108_no_drift_trueskill C108_ts_proof
@THM C108_no_drift_dwz C108_dwz_proof
@THM C108_no_drift_uscf_partial C108_uscf_proof
(** Where the claim fails, and in which direction. *)
@THM C108_drift_glicko C108_glicko_proof
@THM C108_drift_egf C108_egf_proof
@THM C108_drift_sticko C108_sticko_proof
@THM C108_drift_boost C108_boost_proof
@THM C108_drift_dwz C108_dwz_age_proof
@THM C108_drift_fifa_knockout C108_fifa_ko_proof
@THM C108_no_drift_uscf_refuted C108_uscf_refuted_proof
(* Elo 1200 against 1000 with a quarter of draws. *)
Example C108_case : exists e1 e2 pw pd pl, elo_expected_score (mkElo (Fin 1200)) (mkElo (Fin 1000)) = (Fin e1, Fin e2) /\
  pw + pd + pl = 1 /\ pw + pd / 2 = e1 /\ 0 < pw /\ pd = 1 / 4 /\ 0 < pl.
Proof.
  destruct (C03_proof 1200 1000) as (e1 & e2 & E & R & _). destruct (C03_proof 1000 1000) as (e & e' & E' & _ & _ & _ & _ & X & _ & M).
  destruct (M 1200 e1 e2 ltac:(lra) E) as [H _]. destruct (X eq_refl) as [X1 _].
  assert (U : e1 < 7 / 8).
  { rewrite elo_expected_eval in E. injection E as <- _. unfold elo_E. replace ((1000 - 1200) / 400) with (- / 2) by field. rewrite Rpower_Ropp, Rpower_sqrt by lra.
    assert (S : 0 < sqrt 10 < 7) by (split; [apply sqrt_lt_R0; lra|]; rewrite <- (sqrt_pow2 7) by lra; apply sqrt_lt_1_alt; lra).
    assert (/ 7 < / sqrt 10) by (apply Rinv_lt_contravar; [nra|lra]). unfold Rdiv at 1. rewrite Rmult_1_l. replace (7 / 8) with (/ (1 + / 7)) by field. apply Rinv_lt_contravar; [|lra]. apply Rmult_lt_0_compat; lra. }
  exists e1, e2, (e1 - 1 / 8), (1 / 4), (7 / 8 - e1). repeat split; auto; lra.
Qed.
(* TrueSkill players of equal strength: the three probabilities are far from zero. *)
Example C108_ts_case : tiny <= Phi (0 - 0.1) /\ tiny <= Phi (- 0 - 0.1) /\ Rabs 0 <> 0.1.
Proof. rewrite Rabs_R0. repeat split; [apply Phi_not_tiny; lra|apply Phi_not_tiny; lra|lra]. Qed.
(* Default Sticko and Glicko-Boost settings satisfy the side conditions. *)
Example C108_default_case : 0 <= 10 /\ 0 <= 2 /\ (1.96 = 0 \/ 1 <= 1.96) /\ 0 <= 0.20139 /\ 0 <= 17.5 /\ 1500 < 1500 + 30.
Proof. repeat split; try lra. Qed.
