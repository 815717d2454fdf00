(** Property theorems: players who stay away (C143). *)
From Coq Require Import ZArith NArith List Bool Reals Lra Lia.
From Verif Require Import Arith XR ModelLib ModelGlicko ModelGlicko2 ModelSticko ModelBoost Spec SpecIn ProofIdle.
Import Spec ListNotations.
Local Open Scope R_scope.

(** C143: n empty rating periods in a row. *)
@THM C143_idle_glicko C143_glicko_proof
@THM C143_idle_sticko C143_sticko_proof
@THM C143_idle_glicko2 C143_glicko2_proof
@THM C143_idle_boost C143_boost_proof
(** The favourite's forecast after an absence. *)
@THM C143_idle_forecast C143_forecast_proof

Example C143_case : exists d, Nat.iter 30 (fun p => glicko_rating_period p [] (mkGlickoConfig (Fin (632 / 10)))) (mkGlicko (Fin 1500) (Fin 50)) = mkGlicko (Fin 1500) (Fin d) /\ d < 350 /\
  exists d', Nat.iter 31 (fun p => glicko_rating_period p [] (mkGlickoConfig (Fin (632 / 10)))) (mkGlicko (Fin 1500) (Fin 50)) = mkGlicko (Fin 1500) (Fin d') /\ d' = 350.
Proof.
  destruct (C143_idle_glicko 1500 50 (632 / 10) 30 ltac:(lra)) as (d & E & D & C). exists d. split; [exact E|]. replace (INR 30) with 30 in * by (cbn; lra). split.
  - assert (d <= 350) by (rewrite D; apply Rmin_r). destruct (Req_dec d 350) as [Q|Q]; [apply C in Q; lra|lra].
  - destruct (C143_idle_glicko 1500 50 (632 / 10) 31 ltac:(lra)) as (d' & E' & _ & C'). exists d'. split; [exact E'|]. apply C'. replace (INR 31) with 31 by (cbn; lra). lra.
Qed.
Example C143_boost_case : 0 <= 50 <= 350. Proof. lra. Qed.
