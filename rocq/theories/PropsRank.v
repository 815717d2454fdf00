(** Property theorems: ranks in a Weng-Lin game of many teams (C122). *)
From Coq Require Import ZArith NArith List Bool Reals Lra Lia.
From Verif Require Import Arith XR ModelLib ModelWengLin Spec SpecIn ProofRank.
Import Spec ListNotations.
Local Open Scope R_scope.

(** C122: a better rank never costs a team anything and gains it something exactly when it passes, catches up with or leaves another team. *)
Theorem C122_better_rank_own : forall beta kappa pre t r r' post, 0 <= kappa -> (r' < r)%N -> Forall (fun x => wl_ok (fst x)) (pre ++ (t, r) :: post) ->
  let cfg := mkWLConfig (Fin beta) (Fin kappa) in
  exists a b, nth_error (weng_lin_multi_team (map wlr_in (pre ++ (t, r) :: post)) cfg) (length pre) = Some (wlt_in a) /\
    nth_error (weng_lin_multi_team (map wlr_in (pre ++ (t, r') :: post)) cfg) (length pre) = Some (wlt_in b) /\
    Forall2 (fun p q => snd p = snd q) a b /\ Forall2 (fun p q => fst p <= fst q) a b /\
    ((exists x, In x (pre ++ post) /\ (r' <= snd x <= r)%N) -> Forall2 (fun p q => fst p < fst q) a b) /\
    ((forall x, In x (pre ++ post) -> ~ (r' <= snd x <= r)%N) -> a = b).
Proof. exact C122_own_proof. Qed.
Print Assumptions C122_better_rank_own.
(** The teams passed, caught up with or left behind lose by it, the others do not notice. *)
Theorem C122_better_rank_others : forall beta kappa pre t r r' post i t2 r2, 0 <= kappa -> (r' < r)%N -> Forall (fun x => wl_ok (fst x)) (pre ++ (t, r) :: post) ->
  i <> length pre -> nth_error (pre ++ (t, r) :: post) i = Some (t2, r2) ->
  let cfg := mkWLConfig (Fin beta) (Fin kappa) in
  exists a b, nth_error (weng_lin_multi_team (map wlr_in (pre ++ (t, r) :: post)) cfg) i = Some (wlt_in a) /\
    nth_error (weng_lin_multi_team (map wlr_in (pre ++ (t, r') :: post)) cfg) i = Some (wlt_in b) /\
    Forall2 (fun p q => snd p = snd q) a b /\
    ((r' <= r2 <= r)%N -> Forall2 (fun p q => fst q < fst p) a b) /\ (~ (r' <= r2 <= r)%N -> a = b).
Proof. exact C122_others_proof. Qed.
Print Assumptions C122_better_rank_others.
(** A game of many teams changes a player's rating by the sum of the changes of all two-team games it consists of. *)
Theorem C122_sum_of_pairs : forall beta kappa pre t r post k m s, 0 <= kappa -> Forall (fun x => wl_ok (fst x)) (pre ++ (t, r) :: post) -> nth_error t k = Some (m, s) ->
  let cfg := mkWLConfig (Fin beta) (Fin kappa) in
  exists a ds s', nth_error (weng_lin_multi_team (map wlr_in (pre ++ (t, r) :: post)) cfg) (length pre) = Some (wlt_in a) /\
    nth_error a k = Some (m + Rsum ds, s') /\
    Forall2 (fun x d => exists s'', nth_error (fst (weng_lin_two_teams (wlt_in t) (wlt_in (fst x)) (match N.compare r (snd x) with Lt => WIN | Eq => DRAW | Gt => LOSS end) cfg)) k = Some (mkWL (Fin (m + d)) (Fin s''))) (pre ++ post) ds.
Proof. exact C122_pairs_proof. Qed.
Print Assumptions C122_sum_of_pairs.

(** Four teams; the second moves from rank 4 to rank 1 past ranks 2 and 3. *)
Example C122_case : let pre := [([(20, 3)], 2%N)] in let post := [([(1, 1)], 3%N); ([(30, 2); (28, 5)], 5%N)] in
  Forall (fun x => wl_ok (fst x)) (pre ++ ([(25, 25/3); (30, 4)], 4%N) :: post) /\ (1 < 4)%N /\
  (exists x, In x (pre ++ post) /\ (1 <= snd x <= 4)%N) /\ nth_error (pre ++ ([(25, 25/3); (30, 4)], 4%N) :: post) 3 = Some ([(30, 2); (28, 5)], 5%N) /\
  ~ (1 <= 5 <= 4)%N /\ nth_error [(25, 25/3); (30, 4)] 1 = Some (30, 4).
Proof.
  cbn. split; [repeat constructor; cbn; try discriminate; lra|]. split; [lia|]. split; [exists ([(20, 3)], 2%N); cbn; split; [auto|lia]|]. split; [reflexivity|]. split; [lia|reflexivity].
Qed.
