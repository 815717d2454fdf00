(** Property theorems: sharing the result within a Weng-Lin team, and games of many teams (C145). *)
From Coq Require Import ZArith NArith List Bool Reals Lra Lia.
From Verif Require Import Arith XR ModelLib ModelWengLin Spec SpecIn ProofShare.
Import Spec ListNotations.
Local Open Scope R_scope.

(** C145: all members of a team move by the same amount per unit of variance, by less than
    their own uncertainty per opponent team. *)
@THM C145_team_shares C145_share_proof
(** From a certain number of equal players on, one game puts every uncertainty to its
    floor, whatever the ranks; the rating of the winner grows linearly with the field. *)
@THM C145_large_game C145_collapse_proof

(* Seventeen players with the default rating and configuration. *)
Example C145_case : exists m', nth_error (weng_lin_multi_team (map (fun k => ([mkWL (Fin 25) (Fin (25 / 3))], mto_new k)) [1; 2; 3; 4; 5; 6; 7; 8; 9; 10; 11; 12; 13; 14; 15; 16; 17]%N) (mkWLConfig (Fin (25 / 6)) (Fin (/ 1000000)))) 0 =
  Some [mkWL (Fin m') (Fin (25 / 3 * sqrt (/ 1000000)))] /\ 66 < m'.
Proof.
  assert (Q : sqrt (2 * (25 / 3) ^ 2 + 2 * (25 / 6) ^ 2) = 25 / 3 * sqrt (5 / 2)) by (replace (2 * (25 / 3) ^ 2 + 2 * (25 / 6) ^ 2) with ((25 / 3) ^ 2 * (5 / 2)) by lra; rewrite sqrt_mult_alt, sqrt_pow2; lra).
  assert (B : 0 < sqrt (5 / 2) < 1.5812) by (split; [apply sqrt_lt_R0; lra|rewrite <- (sqrt_pow2 1.5812) by lra; apply sqrt_lt_1_alt; lra]). pose proof (pow2_sqrt (5 / 2) ltac:(lra)) as P2.
  destruct (C145_large_game 25 (25 / 3) (25 / 6) (/ 1000000) [] 1%N [2; 3; 4; 5; 6; 7; 8; 9; 10; 11; 12; 13; 14; 15; 16; 17]%N ltac:(lra) ltac:(lra)) as (m' & E & W & _).
  - rewrite Q. replace (25 / 3 * sqrt (5 / 2) / (25 / 3)) with (sqrt (5 / 2)) by field. cbn [app length INR]. cbn [pow] in *. nra.
  - exists m'. split; [exact E|]. rewrite W; [|intros k I; cbn in I; repeat (destruct I as [<-|I]; [lia|]); contradiction]. rewrite Q. cbn [app length INR]. set (q := sqrt (5 / 2)) in *. assert (I : / q > 0.6324) by (apply Rlt_gt, Rmult_lt_reg_r with q; [lra|]; rewrite Rinv_l; lra).
    replace ((25 / 3) ^ 2 / (2 * (25 / 3 * q))) with (25 / 6 * / q) by (field; lra). lra.
Qed.
Example C145_share_case : Forall (fun y => wl_ok (fst y)) ([([(25, 2); (30, 5)], 1%N)] ++ ([(20, 3)], 2%N) :: []) /\ [([(25, 2); (30, 5)], 1%N)] ++ [] <> [].
Proof. split; [|discriminate]. repeat constructor; cbn; try lra; discriminate. Qed.
