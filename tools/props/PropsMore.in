(** Property theorems: one more team in a game, one more player in a team (C141). *)
From Coq Require Import ZArith NArith List Bool Reals Lra Lia Permutation.
From Verif Require Import Arith XR ModelLib ModelWengLin ModelTS Spec SpecIn SpecTS SpecInTS ProofMore.
Import Spec ListNotations.
Local Open Scope R_scope.

(** C141: with one more team [x] in a Weng-Lin game, wherever it stands in the list,
    every team that beats it ends higher, every team that loses to it lower, and a team
    that ties with it moves towards it; nobody gets more uncertain. *)
@THM C141_one_more_team C141_team_proof
(** One more player in a Weng-Lin team: a player of positive rating raises an underdog's
    expected score, one of negative rating lowers a favourite's. *)
@THM C141_weng_lin_one_more_player C141_wl_member_proof
(** A favourite can lose from taking in a player of positive rating. *)
@THM C141_weng_lin_one_more_player_refuted C141_wl_refuted_proof
(** TrueSkill: likewise, as long as the favourite stays the favourite. *)
@THM C141_trueskill_one_more_player C141_ts_member_proof
@THM C141_trueskill_one_more_player_refuted C141_ts_refuted_proof

(* A game of two teams joined by a third one that comes in second, placed first in the list. *)
Example C141_case : let x := ([(20, 5)], 2%N) in let t1 := ([(25, 8); (30, 2)], 1%N) in let t2 := ([(28, 3)], 3%N) in
  Forall (fun y : list (R * R) * N => wl_ok (fst y)) (x :: [] ++ t1 :: [t2]) /\ Permutation (x :: [] ++ [t2]) ([x] ++ [t2]) /\ (snd t1 < snd x)%N /\ (snd x < snd t2)%N.
Proof. cbn. split; [repeat (constructor; [split; [discriminate|repeat (constructor; [cbn; lra|]); constructor]|]); constructor|]. split; [apply Permutation_refl|lia]. Qed.
Example C141_member_case : let t1 := [(25, 8); (30, 2)] in let t2 := [(28, 3)] in Rsum (map fst t2) < Rsum (map fst t1) /\ t1 <> [] /\ 0 < 25 / 6 /\ - (Rsum (map fst t1) - Rsum (map fst t2)) < -20 <= 0.
Proof. cbn. split; [lra|]. split; [discriminate|]. lra. Qed.
