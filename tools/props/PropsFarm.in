(** Property theorems: beating the same opponent again and again (C140). *)
From Coq Require Import ZArith NArith List Bool Reals Lra Lia.
From Verif Require Import Arith XR ModelLib ModelGlicko ModelGlicko2 ModelWengLin ModelTS Spec SpecTS SpecInTS ProofFarm ProofFarm2 ProofFarm3.
Import ListNotations.
Local Open Scope R_scope.

(** C140, Glicko: every win helps, the rating passes every bound, but the odds
    10^(g (x - ro)/400) grow by at most 400 per game. *)
@THM C140_glicko_farming C140_glicko_proof
(** Weng-Lin: likewise; the odds exp((x - mo)/c) grow by at most 3 per game. *)
@THM C140_weng_lin_farming C140_wl_proof
(** TrueSkill: every win helps and the rating passes every bound, with or without
    a dynamics factor. *)
@THM C140_trueskill_farming C140_ts_proof
(** Glicko-2: any career in which every game returns. *)
@THM C140_glicko2_farming C140_glicko2_proof
(** Such careers exist for players who are not too far behind the opponent. *)
@THM C140_glicko2_career C140_glicko2_run_proof

Example C140_case : exists x d,
  (forall n, Nat.iter n (fun p => fst (glicko p (mkGlicko (Fin 1500) (Fin 80)) WIN (mkGlickoConfig (Fin 0)))) (mkGlicko (Fin 1500) (Fin 350)) = mkGlicko (Fin (x n)) (Fin (d n))) /\
  x 0%nat = 1500 /\ exists n, 3000 < x n.
Proof.
  destruct (C140_glicko_farming 1500 350 1500 80 0 ltac:(lra) ltac:(lra)) as (x & d & E & _ & U & _). exists x, d. split; [exact E|]. split; [specialize (E 0%nat); cbn in E; injection E; auto|]. destruct (U 3000) as [N H]. exists N. apply H. lia.
Qed.
Example C140_wl_case : 0 < 25 / 3 /\ 0 < 2 /\ 0 < / 10000 <= 1. Proof. lra. Qed.
Example C140_ts_case : exists x d,
  (forall n, Nat.iter n (fun p => fst (trueskill p (ts_in (25, 25 / 3)) WIN (ts_cfg (1 / 10) (25 / 6) (25 / 300)))) (ts_in (25, 25 / 3)) = ts_in (x n, d n)) /\ exists n, 1000 < x n.
Proof.
  destruct (C140_trueskill_farming 25 (25 / 3) 25 (25 / 3) (1 / 10) (25 / 6) (25 / 300) ltac:(lra) ltac:(lra) ltac:(lra)) as (x & d & E & _ & _ & U). exists x, d. split; [exact E|]. destruct (U 1000) as [N H]. exists N. apply H. lia.
Qed.
Example C140_glicko2_case : exists (p : nat -> Glicko2Rating XR) x,
  (forall n, exists fuel q, glicko2 fuel (p n) (mkGlicko2 (Fin 1500) (Fin 80) (Fin (6 / 100))) WIN (mkGlicko2Config (Fin (1 / 2)) (Fin (/ 1000000))) = Some (p (S n), q)) /\
  (forall n, g2_rating (p n) = Fin (x n)) /\ x 0%nat = 1500 /\ exists n, 3000 < x n.
Proof.
  destruct (C140_glicko2_career 1500 350 (6 / 100) 1500 80 (6 / 100) (1 / 2) (/ 1000000) ltac:(lra) ltac:(lra) ltac:(lra) ltac:(lra)) as (p & P0 & PS).
  { replace ((1500 - 1500) / g2s) with 0 by (unfold Rdiv; ring). rewrite exp_0. lra. }
  destruct (C140_glicko2_farming 1500 350 (6 / 100) 1500 80 (6 / 100) (1 / 2) (/ 1000000) p ltac:(lra) ltac:(lra) ltac:(lra) ltac:(lra) ltac:(lra) P0 PS) as (x & E & _ & U).
  exists p, x. split; [exact PS|]. split; [exact E|]. split; [specialize (E 0%nat); rewrite P0 in E; cbn in E; injection E; auto|]. destruct (U 3000) as [N H]. exists N. apply H. lia.
Qed.
