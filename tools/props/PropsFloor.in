(** How certain a rating can become over a whole career. *)
From Coq Require Import ZArith NArith List Bool Reals Lra Lia.
From Verif Require Import Arith XR ModelLib ModelGlicko ModelSticko ModelTS ModelWengLin Spec SpecIn SpecTS SpecInTS ProofElo ProofAcc ProofTS ProofFloor.
Import Spec ListNotations.
Local Open Scope R_scope.

(** C124: with at most m games per rating period the deviation of a Glicko
    player never falls below F, whatever the opponents and the results are, for
    every F that one best possible period does not lower. *)
@THM C124_glicko_floor C124_glicko_proof
(** The largest such F has a closed form ... *)
@THM C124_glicko_floor_value C124_floor_value_proof
(** ... and is the limit: m draws per period against equal opponents of
    deviation 0 approach it geometrically, from above. *)
@THM C124_glicko_floor_sharp C124_glicko_sharp_proof
(** With the default settings and one call of glicko() per game the deviation
    never falls below 141. *)
@THM C124_glicko_default_floor C124_glicko_default_proof
@THM C124_sticko_floor C124_sticko_proof
(** TrueSkill, decided games: tau keeps the uncertainty up. *)
@THM C124_trueskill_floor C124_ts_proof
@THM C124_trueskill_default_floor C124_ts_default_proof
(** Weng-Lin has no such floor: draws between equals drive the uncertainty below
    every positive bound. *)
@THM C124_weng_lin_no_floor C124_wl_proof

(* 63.2 per period and five games per period: no deviation below 89. *)
Example C124_glicko_case : 0 < 89 <= 350 /\ / Rmin (89 ^ 2 + 63.2 ^ 2) (350 ^ 2) + INR 5 * (gq ^ 2 / 4) <= / 89 ^ 2.
Proof. split; [lra|]. rewrite Rmin_left by lra. pose proof gq_rng as Q. assert (gq ^ 2 <= 0.00576 ^ 2) by (apply pow_incr; lra). replace (INR 5) with 5 by (simpl; lra). lra. Qed.
(* The floor of the default setting with one game per period meets the
   hypotheses of the sharpness theorem. *)
Example C124_sharp_case : exists F, 0 < F <= 350 /\ F ^ 2 + 63.2 ^ 2 <= 350 ^ 2 /\ / (F ^ 2 + 63.2 ^ 2) + INR 1 * (gq ^ 2 / 4) = / F ^ 2.
Proof.
  destruct (floor_value 63.2 1 ltac:(lra) (le_n 1)) as [P E]. cbv zeta in P, E. set (F := sqrt _) in *. exists F.
  assert (B : F ^ 2 + 63.2 ^ 2 <= 350 ^ 2).
  { apply Rnot_lt_le. intro C. assert (F2 : 0 < F ^ 2) by (apply pow_lt; auto). pose proof gq_rng as Q. assert (Q2 : 0.00575 ^ 2 <= gq ^ 2) by (apply pow_incr; lra). cbn [INR] in E.
    assert (E1 : / F ^ 2 - / (F ^ 2 + 63.2 ^ 2) = 63.2 ^ 2 * (/ F ^ 2 * / (F ^ 2 + 63.2 ^ 2))) by (field; lra).
    assert (I1 : / F ^ 2 <= / 118505) by (apply Rinv_le_contravar; lra). assert (I2 : / (F ^ 2 + 63.2 ^ 2) <= / 122500) by (apply Rinv_le_contravar; lra).
    assert (0 < / (F ^ 2 + 63.2 ^ 2)) by (apply Rinv_0_lt_compat; lra). assert (0 < / F ^ 2) by (apply Rinv_0_lt_compat; lra).
    assert (/ F ^ 2 * / (F ^ 2 + 63.2 ^ 2) <= / 118505 * / 122500) by (apply Rmult_le_compat; lra). lra. }
  split; [|split; [exact B|exact E]]. split; [exact P|]. apply Rnot_lt_le. intro C. assert (350 ^ 2 < F ^ 2) by (apply pow_lt_l || (replace (350 ^ 2) with (350 * 350) by ring; replace (F ^ 2) with (F * F) by ring; apply Rmult_le_0_lt_compat; lra)). lra.
Qed.
Example C124_default_case : 141 <= 350 /\ List.Forall (fun g : R * R * Outcomes => 0 < snd (fst g)) [(1500, 350, WIN); (1800, 60, DRAW)].
Proof. split; [lra|]. repeat constructor; cbn; lra. Qed.
Example C124_sticko_case : 0 <= 10 /\ 0 < 40 <= 350 /\ / (Rmin (40 ^ 2 + 10 ^ 2) (350 ^ 2) + 10) + INR 1 * (gq ^ 2 / 4) <= / 40 ^ 2 /\ 40 ^ 2 <= Rmin (40 ^ 2 + 10 ^ 2) (350 ^ 2).
Proof. rewrite Rmin_left by lra. pose proof gq_rng as Q. assert (gq ^ 2 <= 0.00576 ^ 2) by (apply pow_incr; lra). replace (INR 1) with 1 by (simpl; lra). repeat split; lra. Qed.
Example C124_trueskill_case : 0 < 0.69 <= 25 / 3 /\ (25 / 300) ^ 2 <= 2 * (25 / 6) ^ 2 /\ 0.69 ^ 2 * (0.69 ^ 2 + (25 / 300) ^ 2) <= (25 / 300) ^ 2 * (2 * (25 / 6) ^ 2 - (25 / 300) ^ 2).
Proof. repeat split; lra. Qed.
Example C124_weng_lin_case : 0 < 25 / 3 /\ 0 < 1 / 10000 <= 3 / 4 /\ 0 < 0.01.
Proof. repeat split; lra. Qed.
