(** Property theorems: the same results in one rating period or in several (C150). *)
From Coq Require Import ZArith NArith List Bool Reals Lra Lia.
From Verif Require Import Arith XR ModelLib ModelElo ModelFifa ModelWengLin ModelTS ModelIngo ModelUscf ModelEgf Spec ProofSplit.
Import ListNotations.
Local Open Scope R_scope.

(** C150: in any arithmetic (also f64), for any division into periods, empty ones included. *)
@THM C150_sequential_split C150_sequential_proof
(** Provisional USCF players: only the last period may reach beyond the ninth game. *)
@THM C150_uscf_split C150_uscf_proof
@THM C150_ingo_split C150_ingo_proof
@THM C150_egf_split C150_egf_proof

Example C150_uscf_case : let ps := [[(1500, 30%N, WIN); (1400, 4%N, LOSS)]; []; [(1700, 12%N, DRAW)]] in
  (5 + N.of_nat (length (concat ps)) <= 8)%N /\ (5 + N.of_nat (length (concat ps)) + N.of_nat (length [(1500, 30%N, WIN)]) < 2 ^ 64)%N.
Proof. cbn [concat app length]. split; [cbn; lia|reflexivity]. Qed.
(* A win in one period and a loss in the next. *)
Example C150_ingo_case : exists x y, ingo_rating_period (mkIngo (Fin 150) 30) (map (fun g => (mkIngo (Fin (fst (fst g))) (snd (fst g)), snd g)) ([(150, 30%N, WIN)] ++ [(150, 30%N, LOSS)])) = mkIngo (Fin x) 30 /\
  ingo_rating_period (ingo_rating_period (mkIngo (Fin 150) 30) (map (fun g => (mkIngo (Fin (fst (fst g))) (snd (fst g)), snd g)) [(150, 30%N, WIN)])) (map (fun g => (mkIngo (Fin (fst (fst g))) (snd (fst g)), snd g)) [(150, 30%N, LOSS)]) = mkIngo (Fin y) 30 /\
  y = 440 / 441 * x + 1 / 441 * 200.
Proof.
  destruct (C150_ingo_split 150 30 [(150, 30%N, WIN)] [(150, 30%N, LOSS)] ltac:(discriminate) ltac:(discriminate)) as (x & y & X & Y & E & _). exists x, y. split; [exact X|]. split; [exact Y|]. rewrite E. unfold ingo_D. cbn [N.leb N.compare Pos.compare Pos.compare_cont length INR map fst snd points]. rewrite Rsum_cons, Rsum_nil. field.
Qed.
Example C150_egf_case : -900 <= 1500 < 3300 /\ [1500; 1600] <> [] /\ [1400] <> [] /\ Forall (fun ro => ro < 3300) ([1500; 1600] ++ [1400]).
Proof. repeat split; try lra; try discriminate. repeat constructor; lra. Qed.
