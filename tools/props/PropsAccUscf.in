(** Property theorems in IEEE-754 double precision, continued: USCF games and
    rating periods (C106). *)
From Coq Require Import ZArith NArith List Bool Reals Lra Lia.
From Flocq Require Import Core.Raux IEEE754.BinarySingleNaN.
From Verif Require Import Arith XR B64 SpecB64 SpecAcc ModelLib Spec Tac ModelUscf
  MathB64 ProofB64c ProofB64g ProofAccUscf.
Import Spec ListNotations.
Local Open Scope R_scope.

(** C106: one game, one rating period. *)
@THM C106_f64_uscf_game C106_game_proof
@THM C106_f64_uscf_period C106_period_proof

(** The correctly rounded libm meets the contract. *)
Example C106_libm_case : pow10_accurate libm_rounded.
Proof. exact libm_pow_accurate. Qed.
(** An established player (30 games) rated 1800 against a provisional one (5 games) rated 1300; bonus threshold 14. *)
Example C106_case : num_in 0 4000 (b64_of_Z 1800) /\ num_in 0 4000 (b64_of_Z 1300) /\ num_in 0 1000 (b64_of_Z 14) /\
  (30 <=? 8)%N = false /\ (5 <=? 8)%N = true.
Proof.
  destruct (ext_ofZ 1800 ltac:(vm_compute; discriminate)) as [F1 E1]. destruct (ext_ofZ 1300 ltac:(vm_compute; discriminate)) as [F2 E2]. destruct (ext_ofZ 14 ltac:(vm_compute; discriminate)) as [F3 E3].
  rewrite (ext_fin _ F1) in E1. rewrite (ext_fin _ F2) in E2. rewrite (ext_fin _ F3) in E3.
  split; [split; [exact F1|lra]|]. split; [split; [exact F2|lra]|]. split; [split; [exact F3|lra]|]. split; reflexivity.
Qed.
