(** Property theorems: the later result counts more (C149). *)
From Coq Require Import ZArith NArith List Bool Reals Lra Lia.
From Verif Require Import Arith XR ModelLib ModelElo ModelFifa ModelIngo Spec ProofBoost2 ProofRecent.
Import ListNotations.
Local Open Scope R_scope.

(** C149: the best and the worst order of given results against one opponent. *)
@THM C149_elo_orders C149_elo_proof
@THM C149_fifa_orders C149_fifa_proof
(** Exchanging two games within any other games. *)
@THM C149_elo_later C149_elo_swap_proof
@THM C149_ingo_later C149_ingo_swap_proof

Example C149_case : 0 < 32 /\ 32 * ln 10 <= 1600 /\ 0 < 60 /\ 60 * ln 10 <= 2400. Proof. pose proof ln10_close. lra. Qed.
(* Loss then win is better than win then loss, against an equal opponent. *)
Example C149_later_case : exists x x',
  elo_rating_period (mkElo (Fin 1500)) [(mkElo (Fin 1500), LOSS); (mkElo (Fin 1500), WIN); (mkElo (Fin 1700), DRAW)] (mkEloConfig (Fin 32)) = mkElo (Fin x) /\
  elo_rating_period (mkElo (Fin 1500)) [(mkElo (Fin 1500), WIN); (mkElo (Fin 1500), LOSS); (mkElo (Fin 1700), DRAW)] (mkEloConfig (Fin 32)) = mkElo (Fin x') /\ x' < x.
Proof.
  pose proof ln10_close. destruct (C149_elo_later 32 1500 [] [(1700, DRAW)] 1500 LOSS 1500 WIN ltac:(lra) ltac:(lra)) as (y & e1 & e2 & x & x' & _ & _ & _ & E1 & E2 & L). exists x, x'. split; [exact E1|]. split; [exact E2|]. apply L. left. split; [reflexivity|cbn; lra].
Qed.
