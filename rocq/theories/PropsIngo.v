(** Property theorems for Ingo (ingo.rs).  Lower ratings are better. *)
From Coq Require Import ZArith NArith List Bool Reals Lra Permutation.
From Verif Require Import Arith XR ModelLib ModelElo ModelIngo Spec ProofIngo.
Import ListNotations.
Local Open Scope R_scope.

(** C23: the published update; the result lies between the old rating and the
    performance; ages are kept. *)
Theorem C23_ingo_update : forall r1 a1 r2 a2 o,
  ingo (mkIngo (Fin r1) a1) (mkIngo (Fin r2) a2) o =
    (mkIngo (Fin (ingo_upd 1 r1 (ingo_D a1) r2 (points o))) a1,
     mkIngo (Fin (ingo_upd 1 r2 (ingo_D a2) r1 (points (invert o)))) a2) /\
  Rmin r1 (ingo_perf r2 (points o)) <= ingo_upd 1 r1 (ingo_D a1) r2 (points o)
    <= Rmax r1 (ingo_perf r2 (points o)).
Proof. exact C23_proof. Qed.
Print Assumptions C23_ingo_update.
Example C23_case : fst (ingo (mkIngo (Fin 230) 26) (mkIngo (Fin 200) 18) WIN) = mkIngo (Fin (4750 / 21)) 26.
Proof.
  rewrite (proj1 (C23_ingo_update _ _ _ _ _)). cbn [fst]. do 2 f_equal.
  unfold ingo_upd, ingo_perf, ingo_D; cbn [N.leb N.compare Pos.compare Pos.compare_cont points]. lra.
Qed.
(** C24: tournament formula, for every non-empty list of results. *)
Theorem C24_ingo_period_formula : forall r a rs, rs <> [] ->
  ingo_rating_period (mkIngo (Fin r) a) (ingo_games rs) =
  mkIngo (Fin (ingo_upd (INR (length rs)) r (ingo_D a)
                 (avg (map (fun g => fst (fst g)) rs)) (avg (map (fun g => points (snd g)) rs)))) a.
Proof. exact C24_formula_proof. Qed.
Print Assumptions C24_ingo_period_formula.
Example C24_formula_case : [(230, 26%N, WIN); (100, 18%N, LOSS)] <> []. Proof. congruence. Qed.
(** C24: order of results does not matter. *)
Theorem C24_ingo_period_perm : forall r a rs rs', Permutation rs rs' ->
  ingo_rating_period (mkIngo (Fin r) a) (ingo_games rs) = ingo_rating_period (mkIngo (Fin r) a) (ingo_games rs').
Proof. exact C24_perm_proof. Qed.
Print Assumptions C24_ingo_period_perm.
Example C24_perm_case : Permutation [(230, 26%N, WIN); (100, 18%N, LOSS)] [(100, 18%N, LOSS); (230, 26%N, WIN)].
Proof. apply perm_swap. Qed.
(** C24: one result is one game. *)
Theorem C24_ingo_period_single : forall r a r2 a2 o,
  ingo_rating_period (mkIngo (Fin r) a) [(mkIngo (Fin r2) a2, o)] =
  fst (ingo (mkIngo (Fin r) a) (mkIngo (Fin r2) a2) o).
Proof. exact C24_single_proof. Qed.
Print Assumptions C24_ingo_period_single.
(** C24, last clause (a player without games keeps the rating) is false: every
    empty period gives NaN. *)
Theorem C24_ingo_period_empty_refuted : forall r a,
  ingo_rating_period (mkIngo (Fin r) a) [] = mkIngo NaN a.
Proof. exact C24_empty_refuted_proof. Qed.
Print Assumptions C24_ingo_period_empty_refuted.

(** C25: the two numbers sum to 1; they are in [0,1] exactly when the ratings
    differ by at most 50.  Missing: the bound for all ratings, which is false. *)
Theorem C25_ingo_expected_partial : forall r1 a1 r2 a2,
  exists e1 e2,
    ingo_expected_score (mkIngo (Fin r1) a1) (mkIngo (Fin r2) a2) = (Fin e1, Fin e2) /\
    e1 + e2 = 1 /\
    ingo_expected_score (mkIngo (Fin r2) a2) (mkIngo (Fin r1) a1) = (Fin e2, Fin e1) /\
    e1 = 1 / 2 + (r2 - r1) / 100 /\
    (Rabs (r1 - r2) <= 50 <-> 0 <= e1 <= 1 /\ 0 <= e2 <= 1).
Proof. exact C25_partial_proof. Qed.
Print Assumptions C25_ingo_expected_partial.
Theorem C25_ingo_expected_refuted : exists r1 a1 r2 a2 e1 e2,
  ingo_expected_score (mkIngo (Fin r1) a1) (mkIngo (Fin r2) a2) = (Fin e1, Fin e2) /\ 1 < e1 /\ e2 < 0.
Proof. exact C25_refuted_proof. Qed.
Print Assumptions C25_ingo_expected_refuted.

(** C71: a win improves (lowers) the rating exactly when the opponent is less
    than 50 points worse, and worsens it when the opponent is more than 50
    points worse. *)
Theorem C71_ingo_direction : forall r1 a1 r2 a2 r1' r2' a1' a2',
  ingo (mkIngo (Fin r1) a1) (mkIngo (Fin r2) a2) WIN = (mkIngo (Fin r1') a1', mkIngo (Fin r2') a2') ->
  (r1' < r1 <-> r2 < r1 + 50) /\ (r1 < r1' <-> r1 + 50 < r2) /\ (r2 < r2' <-> r2 < r1 + 50).
Proof. exact C71_proof. Qed.
Print Assumptions C71_ingo_direction.
Example C71_case : exists r1' r2',
  ingo (mkIngo (Fin 100) 26) (mkIngo (Fin 230) 26) WIN = (mkIngo (Fin r1') 26, mkIngo (Fin r2') 26) /\ 100 < r1'.
Proof.
  do 2 eexists. rewrite (proj1 (C23_ingo_update _ _ _ _ _)). split; [reflexivity|].
  unfold ingo_upd, ingo_perf, ingo_D; cbn [N.leb N.compare Pos.compare Pos.compare_cont points]. lra.
Qed.
