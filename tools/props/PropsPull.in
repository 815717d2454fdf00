(** Property theorems: uncertainty and expected scores (C142). *)
From Coq Require Import ZArith NArith List Bool Reals Lra Lia.
From Verif Require Import Arith XR ModelLib ModelGlicko ModelGlicko2 ModelSticko ModelBoost ModelWengLin ModelTS Spec SpecIn SpecTS SpecInTS ProofPull.
Import Spec ListNotations.
Local Open Scope R_scope.

(** C142: the favourite's expected score falls when the deviations grow and tends
    to one half. *)
@THM C142_pull_glicko C142_glicko_proof
@THM C142_pull_glicko2 C142_glicko2_proof
@THM C142_pull_sticko C142_sticko_proof
@THM C142_pull_boost C142_boost_proof
(** Teams: the same ratings with a larger total variance. *)
@THM C142_pull_weng_lin C142_wl_proof
@THM C142_pull_trueskill C142_ts_proof
(** With a large total variance the expected score is near one half, for any ratings. *)
@THM C142_limit_weng_lin C142_wl_limit_proof
@THM C142_limit_trueskill C142_ts_limit_proof
(** TrueSkill puts very uncertain favourites below one half. *)
@THM C142_trueskill_favourite_refuted C142_ts_refuted_proof

Example C142_case : exists e e', fst (glicko_expected_score (mkGlicko (Fin 1700) (Fin 50)) (mkGlicko (Fin 1500) (Fin 50))) = Fin e /\
  fst (glicko_expected_score (mkGlicko (Fin 1700) (Fin 350)) (mkGlicko (Fin 1500) (Fin 50))) = Fin e' /\ 1 / 2 < e' < e.
Proof. apply C142_pull_glicko; lra. Qed.
Example C142_team_case : let t1 := [(25, 2); (27, 3)] in let t2 := [(20, 4); (21, 2)] in let t1' := [(25, 8); (27, 8)] in
  Rsum (map fst t1') = Rsum (map fst t1) /\ Rsum (map fst t2) < Rsum (map fst t1) /\
  Rsum (map (fun p => snd p ^ 2) t1) + Rsum (map (fun p => snd p ^ 2) t2) < Rsum (map (fun p => snd p ^ 2) t1') + Rsum (map (fun p => snd p ^ 2) t2).
Proof. cbn [map fst snd]. unfold Rsum. cbn [fold_right]. lra. Qed.
