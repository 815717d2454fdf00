(** Property theorems: the same results in one rating period or in several (C150). *)
From Coq Require Import ZArith NArith List Bool Reals Lra Lia.
From Verif Require Import Arith XR ModelLib ModelElo ModelFifa ModelWengLin ModelTS ModelIngo ModelUscf ModelEgf Spec ProofSplit.
Import ListNotations.
Local Open Scope R_scope.

(** C150: in any arithmetic (also f64), for any division into periods, empty ones included. *)
Theorem C150_sequential_split : forall (F : Type) (A : Arith F),
  (forall p ps c, elo_rating_period p (concat ps) c = fold_left (fun p l => elo_rating_period p l c) ps p) /\
  (forall p ps, fifa_rating_period p (concat ps) = fold_left fifa_rating_period ps p) /\
  (forall p ps c, weng_lin_rating_period p (concat ps) c = fold_left (fun p l => weng_lin_rating_period p l c) ps p) /\
  (forall p ps c, trueskill_rating_period p (concat ps) c = fold_left (fun p l => trueskill_rating_period p l c) ps p).
Proof. exact C150_sequential_proof. Qed.
Print Assumptions C150_sequential_split.
(** Provisional USCF players: only the last period may reach beyond the ninth game. *)
Theorem C150_uscf_split : forall r n (ps : list (list (R * N * Outcomes))) l t,
  let play := fun p rs => uscf_rating_period p (map (fun g => (mkUscf (Fin (fst (fst g))) (snd (fst g)), snd g)) rs) (mkUscfConfig (Fin t)) in
  (n + N.of_nat (length (concat ps)) <= 8)%N -> (n + N.of_nat (length (concat ps)) + N.of_nat (length l) < 2 ^ 64)%N ->
  fold_left play (ps ++ [l]) (mkUscf (Fin r) n) = play (mkUscf (Fin r) n) (concat ps ++ l).
Proof. exact C150_uscf_proof. Qed.
Print Assumptions C150_uscf_split.
Theorem C150_ingo_split : forall r a (l1 l2 : list (R * N * Outcomes)), l1 <> [] -> l2 <> [] -> exists x y,
  let play := fun p rs => ingo_rating_period p (map (fun g => (mkIngo (Fin (fst (fst g))) (snd (fst g)), snd g)) rs) in
  let n1 := INR (length l1) in let n2 := INR (length l2) in let D := ingo_D a in let w := n1 * n2 / ((D + n1) * (D + n2)) in
  let perf2 := Rsum (map (fun g => fst (fst g) - (100 * points (snd g) - 50)) l2) / n2 in
  play (mkIngo (Fin r) a) (l1 ++ l2) = mkIngo (Fin x) a /\ play (play (mkIngo (Fin r) a) l1) l2 = mkIngo (Fin y) a /\
  y = (1 - w) * x + w * perf2 /\ 0 < w < 1.
Proof. exact C150_ingo_proof. Qed.
Print Assumptions C150_ingo_split.
Theorem C150_egf_split : forall r (l1 l2 : list R), -900 <= r < 3300 -> l1 <> [] -> l2 <> [] -> Forall (fun ro => ro < 3300) (l1 ++ l2) -> exists m x,
  let play := fun p l => egf_rating_period p (map (fun ro => (mkEgf (Fin ro), WIN, mkEgfConfig (Fin 0))) l) in
  play (mkEgf (Fin r)) l1 = mkEgf (Fin m) /\ play (mkEgf (Fin r)) (l1 ++ l2) = mkEgf (Fin x) /\
  (m < 3300 -> exists y, play (mkEgf (Fin m)) l2 = mkEgf (Fin y) /\ y < x).
Proof. exact C150_egf_proof. Qed.
Print Assumptions C150_egf_split.

Example C150_uscf_case : let ps := [[(1500, 30%N, WIN); (1400, 4%N, LOSS)]; []; [(1700, 12%N, DRAW)]] in
  (5 + N.of_nat (length (concat ps)) <= 8)%N /\ (5 + N.of_nat (length (concat ps)) + N.of_nat (length [(1500, 30%N, WIN)]) < 2 ^ 64)%N.
Proof. cbn [concat app length]. split; [cbn; lia|reflexivity]. Qed.
(* A win in one period and a loss in the next. *)
Example C150_ingo_case : exists x y, ingo_rating_period (mkIngo (Fin 150) 30) (map (fun g => (mkIngo (Fin (fst (fst g))) (snd (fst g)), snd g)) ([(150, 30%N, WIN)] ++ [(150, 30%N, LOSS)])) = mkIngo (Fin x) 30 /\
  ingo_rating_period (ingo_rating_period (mkIngo (Fin 150) 30) (map (fun g => (mkIngo (Fin (fst (fst g))) (snd (fst g)), snd g)) [(150, 30%N, WIN)])) (map (fun g => (mkIngo (Fin (fst (fst g))) (snd (fst g)), snd g)) [(150, 30%N, LOSS)]) = mkIngo (Fin y) 30 /\
  y = 440 / 441 * x + 1 / 441 * 200.
Proof.
  destruct (C150_ingo_split 150 30 [(150, 30%N, WIN)] [(150, 30%N, LOSS)] ltac:(discriminate) ltac:(discriminate)) as (x & y & X & Y & E & _). exists x, y. split; [exact X|]. split; [exact Y|]. rewrite E. unfold ingo_D. cbn [N.leb N.compare Pos.compare Pos.compare_cont length INR map fst snd points]. rewrite Rsum_cons, Rsum_nil. field.
Qed.
Example C150_egf_case : -900 <= 1500 < 3300 /\ [1500; 1600] <> [] /\ [1400] <> [] /\ Forall (fun ro => ro < 3300) ([1500; 1600] ++ [1400]).
Proof. repeat split; try lra; try discriminate. repeat constructor; lra. Qed.
