(** Property theorems for Ingo (ingo.rs).  Lower ratings are better. *)
From Coq Require Import ZArith NArith List Bool Reals Lra Permutation.
From Verif Require Import Arith XR ModelLib ModelElo ModelIngo Spec ProofIngo.
Import ListNotations.
Local Open Scope R_scope.

(** C23: the published update; the result lies between the old rating and the
    performance; ages are kept. *)
@THM C23_ingo_update C23_proof
Example C23_case : fst (ingo (mkIngo (Fin 230) 26) (mkIngo (Fin 200) 18) WIN) = mkIngo (Fin (4750 / 21)) 26.
Proof.
  rewrite (proj1 (C23_ingo_update _ _ _ _ _)). cbn [fst]. do 2 f_equal.
  unfold ingo_upd, ingo_perf, ingo_D; cbn [N.leb N.compare Pos.compare Pos.compare_cont points]. lra.
Qed.
(** C24: tournament formula, for every non-empty list of results. *)
@THM C24_ingo_period_formula C24_formula_proof
Example C24_formula_case : [(230, 26%N, WIN); (100, 18%N, LOSS)] <> []. Proof. congruence. Qed.
(** C24: order of results does not matter. *)
@THM C24_ingo_period_perm C24_perm_proof
Example C24_perm_case : Permutation [(230, 26%N, WIN); (100, 18%N, LOSS)] [(100, 18%N, LOSS); (230, 26%N, WIN)].
Proof. apply perm_swap. Qed.
(** C24: one result is one game. *)
@THM C24_ingo_period_single C24_single_proof
(** C24, last clause (a player without games keeps the rating) is false: every
    empty period gives NaN. *)
@THM C24_ingo_period_empty_refuted C24_empty_refuted_proof

(** C25: the two numbers sum to 1; they are in [0,1] exactly when the ratings
    differ by at most 50.  Missing: the bound for all ratings, which is false. *)
@THM C25_ingo_expected_partial C25_partial_proof
@THM C25_ingo_expected_refuted C25_refuted_proof

(** C71: a win improves (lowers) the rating exactly when the opponent is less
    than 50 points worse, and worsens it when the opponent is more than 50
    points worse. *)
@THM C71_ingo_direction C71_proof
Example C71_case : exists r1' r2',
  ingo (mkIngo (Fin 100) 26) (mkIngo (Fin 230) 26) WIN = (mkIngo (Fin r1') 26, mkIngo (Fin r2') 26) /\ 100 < r1'.
Proof.
  do 2 eexists. rewrite (proj1 (C23_ingo_update _ _ _ _ _)). split; [reflexivity|].
  unfold ingo_upd, ingo_perf, ingo_D; cbn [N.leb N.compare Pos.compare Pos.compare_cont points]. lra.
Qed.
