(** Property theorems: the later result counts more (C149). *)
From Coq Require Import ZArith NArith List Bool Reals Lra Lia.
From Verif Require Import Arith XR ModelLib ModelElo ModelFifa ModelIngo Spec ProofBoost2 ProofRecent.
Import ListNotations.
Local Open Scope R_scope.

(** C149: the best and the worst order of given results against one opponent. *)
Theorem C149_elo_orders : forall k ro r (l : list Outcomes), 0 < k -> k * ln 10 <= 1600 -> exists lo x hi,
  let n o := length (filter (fun x => match x, o with WIN, WIN | DRAW, DRAW | LOSS, LOSS => true | _, _ => false end) l) in
  let play l := elo_rating_period (mkElo (Fin r)) (map (fun o => (mkElo (Fin ro), o)) l) (mkEloConfig (Fin k)) in
  play (repeat WIN (n WIN) ++ repeat DRAW (n DRAW) ++ repeat LOSS (n LOSS)) = mkElo (Fin lo) /\ play l = mkElo (Fin x) /\
  play (repeat LOSS (n LOSS) ++ repeat DRAW (n DRAW) ++ repeat WIN (n WIN)) = mkElo (Fin hi) /\ lo <= x <= hi.
Proof. exact C149_elo_proof. Qed.
Print Assumptions C149_elo_orders.
Theorem C149_fifa_orders : forall k ro r (l : list Outcomes), 0 < k -> k * ln 10 <= 2400 -> exists lo x hi,
  let n o := length (filter (fun x => match x, o with WIN, WIN | DRAW, DRAW | LOSS, LOSS => true | _, _ => false end) l) in
  let play l := fifa_rating_period (mkFifa (Fin r)) (map (fun o => (mkFifa (Fin ro), o, mkFifaConfig (Fin k) false false)) l) in
  play (repeat WIN (n WIN) ++ repeat DRAW (n DRAW) ++ repeat LOSS (n LOSS)) = mkFifa (Fin lo) /\ play l = mkFifa (Fin x) /\
  play (repeat LOSS (n LOSS) ++ repeat DRAW (n DRAW) ++ repeat WIN (n WIN)) = mkFifa (Fin hi) /\ lo <= x <= hi.
Proof. exact C149_fifa_proof. Qed.
Print Assumptions C149_fifa_orders.
(** Exchanging two games within any other games. *)
Theorem C149_elo_later : forall k r (pre post : list (R * Outcomes)) o1 s1 o2 s2, 0 < k -> k * ln 10 < 1600 -> exists y e1 e2 x x',
  let g := map (fun g => (mkElo (Fin (fst g)), snd g)) in let play l := elo_rating_period (mkElo (Fin r)) (g l) (mkEloConfig (Fin k)) in
  play pre = mkElo (Fin y) /\ fst (elo_expected_score (mkElo (Fin y)) (mkElo (Fin o1))) = Fin e1 /\ fst (elo_expected_score (mkElo (Fin y)) (mkElo (Fin o2))) = Fin e2 /\
  play (pre ++ [(o1, s1); (o2, s2)] ++ post) = mkElo (Fin x) /\ play (pre ++ [(o2, s2); (o1, s1)] ++ post) = mkElo (Fin x') /\
  ((o1 = o2 /\ points s1 < points s2) \/ (points s1 < e1 /\ e2 < points s2) -> x' < x).
Proof. exact C149_elo_swap_proof. Qed.
Print Assumptions C149_elo_later.
Theorem C149_ingo_later : forall r a (post : list (R * N * Outcomes)) o1 a1 s1 o2 a2 s2, exists x x',
  let play l := fold_left (fun p g => fst (ingo p (mkIngo (Fin (fst (fst g))) (snd (fst g))) (snd g))) l (mkIngo (Fin r) a) in
  let perf o s := o - (100 * points s - 50) in
  play ((o1, a1, s1) :: (o2, a2, s2) :: post) = mkIngo (Fin x) a /\ play ((o2, a2, s2) :: (o1, a1, s1) :: post) = mkIngo (Fin x') a /\
  x - x' = (perf o2 s2 - perf o1 s1) / (1 + ingo_D a) ^ 2 * (ingo_D a / (1 + ingo_D a)) ^ length post.
Proof. exact C149_ingo_swap_proof. Qed.
Print Assumptions C149_ingo_later.

Example C149_case : 0 < 32 /\ 32 * ln 10 <= 1600 /\ 0 < 60 /\ 60 * ln 10 <= 2400. Proof. pose proof ln10_close. lra. Qed.
(* Loss then win is better than win then loss, against an equal opponent. *)
Example C149_later_case : exists x x',
  elo_rating_period (mkElo (Fin 1500)) [(mkElo (Fin 1500), LOSS); (mkElo (Fin 1500), WIN); (mkElo (Fin 1700), DRAW)] (mkEloConfig (Fin 32)) = mkElo (Fin x) /\
  elo_rating_period (mkElo (Fin 1500)) [(mkElo (Fin 1500), WIN); (mkElo (Fin 1500), LOSS); (mkElo (Fin 1700), DRAW)] (mkEloConfig (Fin 32)) = mkElo (Fin x') /\ x' < x.
Proof.
  pose proof ln10_close. destruct (C149_elo_later 32 1500 [] [(1700, DRAW)] 1500 LOSS 1500 WIN ltac:(lra) ltac:(lra)) as (y & e1 & e2 & x & x' & _ & _ & _ & E1 & E2 & L). exists x, x'. split; [exact E1|]. split; [exact E2|]. apply L. left. split; [reflexivity|cbn; lra].
Qed.
