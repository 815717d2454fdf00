(** Property theorems: ranks in a Weng-Lin game of many teams (C122). *)
From Coq Require Import ZArith NArith List Bool Reals Lra Lia.
From Verif Require Import Arith XR ModelLib ModelWengLin Spec SpecIn ProofRank.
Import Spec ListNotations.
Local Open Scope R_scope.

(** C122: a better rank never costs a team anything and gains it something exactly when it passes, catches up with or leaves another team. *)
@THM C122_better_rank_own C122_own_proof
(** The teams passed, caught up with or left behind lose by it, the others do not notice. *)
@THM C122_better_rank_others C122_others_proof
(** A game of many teams changes a player's rating by the sum of the changes of all two-team games it consists of. *)
@THM C122_sum_of_pairs C122_pairs_proof

(** Four teams; the second moves from rank 4 to rank 1 past ranks 2 and 3. *)
Example C122_case : let pre := [([(20, 3)], 2%N)] in let post := [([(1, 1)], 3%N); ([(30, 2); (28, 5)], 5%N)] in
  Forall (fun x => wl_ok (fst x)) (pre ++ ([(25, 25/3); (30, 4)], 4%N) :: post) /\ (1 < 4)%N /\
  (exists x, In x (pre ++ post) /\ (1 <= snd x <= 4)%N) /\ nth_error (pre ++ ([(25, 25/3); (30, 4)], 4%N) :: post) 3 = Some ([(30, 2); (28, 5)], 5%N) /\
  ~ (1 <= 5 <= 4)%N /\ nth_error [(25, 25/3); (30, 4)] 1 = Some (30, 4).
Proof.
  cbn. split; [repeat constructor; cbn; try discriminate; lra|]. split; [lia|]. split; [exists ([(20, 3)], 2%N); cbn; split; [auto|lia]|]. split; [reflexivity|]. split; [lia|reflexivity].
Qed.
