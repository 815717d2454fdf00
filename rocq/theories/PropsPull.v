(** Property theorems: uncertainty and expected scores (C142). *)
From Coq Require Import ZArith NArith List Bool Reals Lra Lia.
From Verif Require Import Arith XR ModelLib ModelGlicko ModelGlicko2 ModelSticko ModelBoost ModelWengLin ModelTS Spec SpecIn SpecTS SpecInTS ProofPull.
Import Spec ListNotations.
Local Open Scope R_scope.

(** C142: the favourite's expected score falls when the deviations grow and tends
    to one half. *)
Theorem C142_pull_glicko : forall a b, (forall A A' B B', b < a -> A ^ 2 + B ^ 2 < A' ^ 2 + B' ^ 2 -> exists e e', fst (glicko_expected_score (mkGlicko (Fin a) (Fin A)) (mkGlicko (Fin b) (Fin B))) = Fin e /\
  fst (glicko_expected_score (mkGlicko (Fin a) (Fin A')) (mkGlicko (Fin b) (Fin B'))) = Fin e' /\ 1 / 2 < e' < e) /\
  (forall eps, 0 < eps -> exists D, forall A B, D <= A \/ D <= B -> exists e, fst (glicko_expected_score (mkGlicko (Fin a) (Fin A)) (mkGlicko (Fin b) (Fin B))) = Fin e /\ Rabs (e - 1 / 2) < eps).
Proof. exact C142_glicko_proof. Qed.
Print Assumptions C142_pull_glicko.
Theorem C142_pull_glicko2 : forall a b s s', (forall A A' B B' v v', b < a -> A ^ 2 + B ^ 2 < A' ^ 2 + B' ^ 2 -> exists e e', fst (glicko2_expected_score (mkGlicko2 (Fin a) (Fin A) (Fin s)) (mkGlicko2 (Fin b) (Fin B) (Fin s'))) = Fin e /\
  fst (glicko2_expected_score (mkGlicko2 (Fin a) (Fin A') (Fin v)) (mkGlicko2 (Fin b) (Fin B') (Fin v'))) = Fin e' /\ 1 / 2 < e' < e) /\
  (forall eps, 0 < eps -> exists D, forall A B, D <= A \/ D <= B -> exists e, fst (glicko2_expected_score (mkGlicko2 (Fin a) (Fin A) (Fin s)) (mkGlicko2 (Fin b) (Fin B) (Fin s'))) = Fin e /\ Rabs (e - 1 / 2) < eps).
Proof. exact C142_glicko2_proof. Qed.
Print Assumptions C142_pull_glicko2.
Theorem C142_pull_sticko : forall a b h beta lambda gamma c, let cfg := mkStickoConfig (Fin h) (Fin beta) (Fin lambda) (Fin gamma) (Fin c) in
  (forall A A' B B', b < a + gamma -> A ^ 2 + B ^ 2 < A' ^ 2 + B' ^ 2 -> exists e e', fst (sticko_expected_score (mkSticko (Fin a) (Fin A)) (mkSticko (Fin b) (Fin B)) cfg) = Fin e /\
  fst (sticko_expected_score (mkSticko (Fin a) (Fin A')) (mkSticko (Fin b) (Fin B')) cfg) = Fin e' /\ 1 / 2 < e' < e) /\
  (forall eps, 0 < eps -> exists D, forall A B, D <= A \/ D <= B -> exists e, fst (sticko_expected_score (mkSticko (Fin a) (Fin A)) (mkSticko (Fin b) (Fin B)) cfg) = Fin e /\ Rabs (e - 1 / 2) < eps).
Proof. exact C142_sticko_proof. Qed.
Print Assumptions C142_pull_sticko.
Theorem C142_pull_boost : forall a b c, let cfg := mkBoostConfig (Fin (bc_eta c)) (Fin (bc_k c)) (Fin (bc_b0 c)) (Fin (bc_b1 c)) (Fin (bc_a0 c)) (Fin (bc_a1 c)) (Fin (bc_a2 c)) (Fin (bc_a3 c)) (Fin (bc_a4 c)) in
  (forall A A' B B', b < a + bc_eta c -> A ^ 2 + B ^ 2 < A' ^ 2 + B' ^ 2 -> exists e e', fst (boost_expected_score (mkBoost (Fin a) (Fin A)) (mkBoost (Fin b) (Fin B)) cfg) = Fin e /\
  fst (boost_expected_score (mkBoost (Fin a) (Fin A')) (mkBoost (Fin b) (Fin B')) cfg) = Fin e' /\ 1 / 2 < e' < e) /\
  (forall eps, 0 < eps -> exists D, forall A B, D <= A \/ D <= B -> exists e, fst (boost_expected_score (mkBoost (Fin a) (Fin A)) (mkBoost (Fin b) (Fin B)) cfg) = Fin e /\ Rabs (e - 1 / 2) < eps).
Proof. exact C142_boost_proof. Qed.
Print Assumptions C142_pull_boost.
(** Teams: the same ratings with a larger total variance. *)
Theorem C142_pull_weng_lin : forall t1 t1' t2 t2' beta kappa, 0 < beta -> Rsum (map fst t1') = Rsum (map fst t1) -> Rsum (map fst t2') = Rsum (map fst t2) -> Rsum (map fst t2) < Rsum (map fst t1) ->
  Rsum (map (fun p => snd p ^ 2) t1) + Rsum (map (fun p => snd p ^ 2) t2) < Rsum (map (fun p => snd p ^ 2) t1') + Rsum (map (fun p => snd p ^ 2) t2') ->
  let cfg := mkWLConfig (Fin beta) kappa in exists e f e' f', wl_expected_score_two_teams (wlt_in t1) (wlt_in t2) cfg = (Fin e, Fin f) /\ wl_expected_score_two_teams (wlt_in t1') (wlt_in t2') cfg = (Fin e', Fin f') /\ 1 / 2 < e' < e.
Proof. exact C142_wl_proof. Qed.
Print Assumptions C142_pull_weng_lin.
Theorem C142_pull_trueskill : forall t1 t1' t2 t2' dp beta tau, 0 < beta -> t1 ++ t2 <> [] -> length t1' = length t1 -> length t2' = length t2 -> Rsum (map fst t1') = Rsum (map fst t1) -> Rsum (map fst t2') = Rsum (map fst t2) -> Rsum (map fst t2) < Rsum (map fst t1) ->
  Rsum (map (fun p => snd p ^ 2) t1) + Rsum (map (fun p => snd p ^ 2) t2) < Rsum (map (fun p => snd p ^ 2) t1') + Rsum (map (fun p => snd p ^ 2) t2') ->
  let cfg := ts_cfg dp beta tau in exists e f e' f', ts_expected_score_two_teams (tst_in t1) (tst_in t2) cfg = (Fin e, Fin f) /\ ts_expected_score_two_teams (tst_in t1') (tst_in t2') cfg = (Fin e', Fin f') /\ 0.4999999 < e' < e.
Proof. exact C142_ts_proof. Qed.
Print Assumptions C142_pull_trueskill.
(** With a large total variance the expected score is near one half, for any ratings. *)
Theorem C142_limit_weng_lin : forall a b eps beta kappa, 0 < beta -> 0 < eps -> exists V, forall t1 t2, Rsum (map fst t1) = a -> Rsum (map fst t2) = b ->
  V <= Rsum (map (fun p => snd p ^ 2) t1) + Rsum (map (fun p => snd p ^ 2) t2) -> exists e f, wl_expected_score_two_teams (wlt_in t1) (wlt_in t2) (mkWLConfig (Fin beta) kappa) = (Fin e, Fin f) /\ Rabs (e - 1 / 2) < eps.
Proof. exact C142_wl_limit_proof. Qed.
Print Assumptions C142_limit_weng_lin.
Theorem C142_limit_trueskill : forall a b eps dp beta tau, 0 < beta -> 0 < eps -> exists V, forall t1 t2, Rsum (map fst t1) = a -> Rsum (map fst t2) = b ->
  V <= Rsum (map (fun p => snd p ^ 2) t1) + Rsum (map (fun p => snd p ^ 2) t2) -> exists e f, ts_expected_score_two_teams (tst_in t1) (tst_in t2) (ts_cfg dp beta tau) = (Fin e, Fin f) /\ Rabs (e - 1 / 2) < 0.00000005 + eps.
Proof. exact C142_ts_limit_proof. Qed.
Print Assumptions C142_limit_trueskill.
(** TrueSkill puts very uncertain favourites below one half. *)
Theorem C142_trueskill_favourite_refuted : forall m1 m2 s2 dp beta tau, 0 < beta -> m2 < m1 -> exists S, 0 < S /\ forall s1, S <= s1 -> exists e f, ts_expected_score (ts_in (m1, s1)) (ts_in (m2, s2)) (ts_cfg dp beta tau) = (Fin e, Fin f) /\ e < 1 / 2.
Proof. exact C142_ts_refuted_proof. Qed.
Print Assumptions C142_trueskill_favourite_refuted.

Example C142_case : exists e e', fst (glicko_expected_score (mkGlicko (Fin 1700) (Fin 50)) (mkGlicko (Fin 1500) (Fin 50))) = Fin e /\
  fst (glicko_expected_score (mkGlicko (Fin 1700) (Fin 350)) (mkGlicko (Fin 1500) (Fin 50))) = Fin e' /\ 1 / 2 < e' < e.
Proof. apply C142_pull_glicko; lra. Qed.
Example C142_team_case : let t1 := [(25, 2); (27, 3)] in let t2 := [(20, 4); (21, 2)] in let t1' := [(25, 8); (27, 8)] in
  Rsum (map fst t1') = Rsum (map fst t1) /\ Rsum (map fst t2) < Rsum (map fst t1) /\
  Rsum (map (fun p => snd p ^ 2) t1) + Rsum (map (fun p => snd p ^ 2) t2) < Rsum (map (fun p => snd p ^ 2) t1') + Rsum (map (fun p => snd p ^ 2) t2).
Proof. cbn [map fst snd]. unfold Rsum. cbn [fold_right]. lra. Qed.
