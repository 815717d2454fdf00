(** Property theorems for Weng-Lin (weng_lin.rs).  [wlt_in]/[wlr_in] inject
    lists of (rating, uncertainty) reals into the model's teams. *)
From Coq Require Import ZArith NArith List Bool Reals Lra Lia Permutation.
From Verif Require Import Arith XR ModelLib ModelWengLin Spec SpecIn ProofWengLin.
Import ListNotations.
Local Open Scope R_scope.

(** C42: the 1v1 update. *)
@THM C42_weng_lin_1v1 C42_proof
Example C42_case : 0 < 25/3 /\ 0 < 1/1000000 <= 1. Proof. lra. Qed.

(** C43: agreement of the three update functions. *)
@THM C43_weng_lin_single C43_single_proof
@THM C43_weng_lin_multi_two C43_multi_proof
Example C43_case : wl_ok [(25, 25/3); (30, 4)]. Proof. split; [discriminate|]. repeat constructor; cbn; lra. Qed.

(** C44: shape, equivariance, empty teams, ranks. *)
@THM C44_weng_lin_permutation C44_perm_proof
@THM C44_weng_lin_shape C44_shape_proof
@THM C44_weng_lin_two_shape C44_shape_two_proof
@THM C44_weng_lin_empty C44_empty_proof
@THM C44_weng_lin_ranks C44_ranks_proof
Example C44_case : forall a b, In a (map snd [(25, 1%N); (30, 7%N)]) -> In b (map snd [(25, 1%N); (30, 7%N)]) ->
  N.compare (a + 2) (b + 2) = N.compare a b.
Proof. cbn. intros a b [<-|[<-|[]]] [<-|[<-|[]]]; reflexivity. Qed.

(** C45: expected scores. *)
@THM C45_weng_lin_expected C45_players_proof
@THM C45_weng_lin_expected_teams C45_teams_proof
@THM C45_weng_lin_expected_multi C45_multi_proof
@THM C45_weng_lin_expected_single C45_single_proof
Example C45_case : 0 < 25/6 /\ [[(25, 25/3)]; [(20, 2); (1, 1)]; []] <> []. Proof. split; [lra|discriminate]. Qed.

(** C46: multi-team formula, direction and uncertainties. *)
@THM C46_weng_lin_formula C46_formula_proof
@THM C46_weng_lin_direction C46_proof
Example C46_case : Forall (fun x => wl_ok (fst x)) ([([(20, 3)], 2%N)] ++ ([(25, 25/3); (30, 4)], 1%N) :: [([(1, 1)], 3%N)]) /\
  (forall x, In x ([([(20, 3)], 2%N)] ++ [([(1, 1)], 3%N)]) -> (1 < snd x)%N).
Proof.
  split.
  - repeat constructor; cbn; try discriminate; lra.
  - cbn. intros x [<-|[<-|[]]]; cbn; lia.
Qed.

(** C48: rating periods. *)
@THM C48_weng_lin_period C48_proof
Example C48_case : weng_lin_rating_period (mkWL (Fin 25) (Fin 1)) [] (mkWLConfig (Fin 4) (Fin 1)) = mkWL (Fin 25) (Fin 1).
Proof. reflexivity. Qed.

(** C77: precision-weighted conservation. *)
@THM C77_weng_lin_conservation C77_proof
