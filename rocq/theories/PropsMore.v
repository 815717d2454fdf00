(** Property theorems: one more team in a game, one more player in a team (C141). *)
From Coq Require Import ZArith NArith List Bool Reals Lra Lia Permutation.
From Verif Require Import Arith XR ModelLib ModelWengLin ModelTS Spec SpecIn SpecTS SpecInTS ProofMore.
Import Spec ListNotations.
Local Open Scope R_scope.

(** C141: with one more team [x] in a Weng-Lin game, wherever it stands in the list,
    every team that beats it ends higher, every team that loses to it lower, and a team
    that ties with it moves towards it; nobody gets more uncertain. *)
Theorem C141_one_more_team : forall beta kappa pre post pre' post' t r x, 0 <= kappa -> Forall (fun y => wl_ok (fst y)) (x :: pre ++ (t, r) :: post) -> Permutation (x :: pre ++ post) (pre' ++ post') ->
  let cfg := mkWLConfig (Fin beta) (Fin kappa) in exists a b,
  nth_error (weng_lin_multi_team (map wlr_in (pre ++ (t, r) :: post)) cfg) (length pre) = Some (wlt_in a) /\
  nth_error (weng_lin_multi_team (map wlr_in (pre' ++ (t, r) :: post')) cfg) (length pre') = Some (wlt_in b) /\
  ((r < snd x)%N -> Forall2 (fun p q => fst p < fst q) a b) /\ ((snd x < r)%N -> Forall2 (fun p q => fst q < fst p) a b) /\
  (snd x = r -> Rsum (map fst t) < Rsum (map fst (fst x)) -> Forall2 (fun p q => fst p < fst q) a b) /\ (snd x = r -> Rsum (map fst (fst x)) < Rsum (map fst t) -> Forall2 (fun p q => fst q < fst p) a b) /\
  (snd x = r -> Rsum (map fst t) = Rsum (map fst (fst x)) -> Forall2 (fun p q => fst p = fst q) a b) /\ Forall2 (fun p q => snd q <= snd p) a b.
Proof. exact C141_team_proof. Qed.
Print Assumptions C141_one_more_team.
(** One more player in a Weng-Lin team: a player of positive rating raises an underdog's
    expected score, one of negative rating lowers a favourite's. *)
Theorem C141_weng_lin_one_more_player : forall t1 t2 m u beta kappa, 0 < beta -> 0 < u -> let cfg := mkWLConfig (Fin beta) kappa in let d := Rsum (map fst t1) - Rsum (map fst t2) in exists e f e' f',
  wl_expected_score_two_teams (wlt_in t1) (wlt_in t2) cfg = (Fin e, Fin f) /\ wl_expected_score_two_teams (wlt_in (t1 ++ [(m, u)])) (wlt_in t2) cfg = (Fin e', Fin f') /\
  (d <= 0 -> 0 <= m -> 0 < m \/ d < 0 -> e < e') /\ (0 <= d -> m <= 0 -> m < 0 \/ 0 < d -> e' < e) /\ (d = 0 -> m = 0 -> e' = e).
Proof. exact C141_wl_member_proof. Qed.
Print Assumptions C141_weng_lin_one_more_player.
(** A favourite can lose from taking in a player of positive rating. *)
Theorem C141_weng_lin_one_more_player_refuted : forall t1 t2 u beta kappa, 0 < beta -> 0 < u -> Rsum (map fst t2) < Rsum (map fst t1) -> let cfg := mkWLConfig (Fin beta) kappa in exists m e f e' f', 0 < m /\
  wl_expected_score_two_teams (wlt_in t1) (wlt_in t2) cfg = (Fin e, Fin f) /\ wl_expected_score_two_teams (wlt_in (t1 ++ [(m, u)])) (wlt_in t2) cfg = (Fin e', Fin f') /\ e' < e.
Proof. exact C141_wl_refuted_proof. Qed.
Print Assumptions C141_weng_lin_one_more_player_refuted.
(** TrueSkill: likewise, as long as the favourite stays the favourite. *)
Theorem C141_trueskill_one_more_player : forall t1 t2 m u dp beta tau, 0 < beta -> t1 <> [] -> let cfg := ts_cfg dp beta tau in let d := Rsum (map fst t1) - Rsum (map fst t2) in exists e f e' f',
  ts_expected_score_two_teams (tst_in t1) (tst_in t2) cfg = (Fin e, Fin f) /\ ts_expected_score_two_teams (tst_in (t1 ++ [(m, u)])) (tst_in t2) cfg = (Fin e', Fin f') /\
  (d <= 0 -> 0 <= m <= - d -> 0 < m \/ d < 0 -> e < e') /\ (0 < d -> - d < m <= 0 -> e' < e).
Proof. exact C141_ts_member_proof. Qed.
Print Assumptions C141_trueskill_one_more_player.
Theorem C141_trueskill_one_more_player_refuted : forall t1 t2 u dp beta tau, 0 < beta -> t1 <> [] -> Rsum (map fst t2) < Rsum (map fst t1) -> let cfg := ts_cfg dp beta tau in exists m e f e' f', 0 < m /\
  ts_expected_score_two_teams (tst_in t1) (tst_in t2) cfg = (Fin e, Fin f) /\ ts_expected_score_two_teams (tst_in (t1 ++ [(m, u)])) (tst_in t2) cfg = (Fin e', Fin f') /\ e' < e.
Proof. exact C141_ts_refuted_proof. Qed.
Print Assumptions C141_trueskill_one_more_player_refuted.

(* A game of two teams joined by a third one that comes in second, placed first in the list. *)
Example C141_case : let x := ([(20, 5)], 2%N) in let t1 := ([(25, 8); (30, 2)], 1%N) in let t2 := ([(28, 3)], 3%N) in
  Forall (fun y : list (R * R) * N => wl_ok (fst y)) (x :: [] ++ t1 :: [t2]) /\ Permutation (x :: [] ++ [t2]) ([x] ++ [t2]) /\ (snd t1 < snd x)%N /\ (snd x < snd t2)%N.
Proof. cbn. split; [repeat (constructor; [split; [discriminate|repeat (constructor; [cbn; lra|]); constructor]|]); constructor|]. split; [apply Permutation_refl|lia]. Qed.
Example C141_member_case : let t1 := [(25, 8); (30, 2)] in let t2 := [(28, 3)] in Rsum (map fst t2) < Rsum (map fst t1) /\ t1 <> [] /\ 0 < 25 / 6 /\ - (Rsum (map fst t1) - Rsum (map fst t2)) < -20 <= 0.
Proof. cbn. split; [lra|]. split; [discriminate|]. lra. Qed.
