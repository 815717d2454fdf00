(** Property theorems: the starting rating is forgotten (C147). *)
From Coq Require Import ZArith NArith List Bool Reals Lra Lia.
From Verif Require Import Arith XR ModelLib ModelElo ModelFifa ModelIngo ModelUscf Spec ProofBoost2 ProofForget ProofForget2.
Import ListNotations.
Local Open Scope R_scope.

(** C147: two players with different starting ratings and the same games and results. *)
Theorem C147_elo_forgets : forall k B (f : nat -> R * Outcomes) r r', 0 < k -> k * ln 10 < 1600 -> (forall n, Rabs (fst (f n)) <= B) -> r < r' -> exists x y : nat -> R,
  (forall n, elo_rating_period (mkElo (Fin r)) (map (fun i => (mkElo (Fin (fst (f i))), snd (f i))) (seq 0 n)) (mkEloConfig (Fin k)) = mkElo (Fin (x n))) /\
  (forall n, elo_rating_period (mkElo (Fin r')) (map (fun i => (mkElo (Fin (fst (f i))), snd (f i))) (seq 0 n)) (mkEloConfig (Fin k)) = mkElo (Fin (y n))) /\
  (forall n, x n < y n) /\ (forall n, y (S n) - x (S n) < y n - x n) /\ Un_cv (fun n => y n - x n) 0.
Proof. exact C147_elo_proof. Qed.
Print Assumptions C147_elo_forgets.
Theorem C147_fifa_forgets : forall i B (f : nat -> R * Outcomes) r r', 0 < i -> i * ln 10 < 2400 -> (forall n, Rabs (fst (f n)) <= B) -> r < r' -> exists x y : nat -> R,
  (forall n, fifa_rating_period (mkFifa (Fin r)) (map (fun j => (mkFifa (Fin (fst (f j))), snd (f j), mkFifaConfig (Fin i) false false)) (seq 0 n)) = mkFifa (Fin (x n))) /\
  (forall n, fifa_rating_period (mkFifa (Fin r')) (map (fun j => (mkFifa (Fin (fst (f j))), snd (f j), mkFifaConfig (Fin i) false false)) (seq 0 n)) = mkFifa (Fin (y n))) /\
  (forall n, x n < y n) /\ (forall n, y (S n) - x (S n) < y n - x n) /\ Un_cv (fun n => y n - x n) 0.
Proof. exact C147_fifa_proof. Qed.
Print Assumptions C147_fifa_forgets.
(** Ingo: exactly, whatever the opponents. *)
Theorem C147_ingo_forgets : forall a (ps : list (list (R * N * Outcomes))) r r', List.Forall (fun rs => rs <> []) ps -> exists x y,
  let play := fold_left (fun p rs => ingo_rating_period p (map (fun g => (mkIngo (Fin (fst (fst g))) (snd (fst g)), snd g)) rs)) ps in
  play (mkIngo (Fin r) a) = mkIngo (Fin x) a /\ play (mkIngo (Fin r') a) = mkIngo (Fin y) a /\
  y - x = (r' - r) * fold_right Rmult 1 (map (fun rs => ingo_D a / (ingo_D a + INR (length rs))) ps) /\ Rabs (y - x) <= Rabs (r' - r) * (20 / 21) ^ length ps.
Proof. exact C147_ingo_proof. Qed.
Print Assumptions C147_ingo_forgets.
(** Provisional USCF players: exactly, and at once before the first game. *)
Theorem C147_uscf_forgets : forall n (rs : list (R * N * Outcomes)) r r' t, (n <= 8)%N -> rs <> [] -> (n + N.of_nat (length rs) < 2 ^ 64)%N -> exists x y,
  let play z := uscf_rating_period (mkUscf (Fin z) n) (map (fun g => (mkUscf (Fin (fst (fst g))) (snd (fst g)), snd g)) rs) (mkUscfConfig (Fin t)) in
  uscf_rating (play r) = Fin x /\ uscf_rating (play r') = Fin y /\
  y - x = (r' - r) * (IZR (Z.of_N n) / (IZR (Z.of_N n) + INR (length rs))) /\ (n = 0%N -> x = y).
Proof. exact C147_uscf_proof. Qed.
Print Assumptions C147_uscf_forgets.
(** Knock-out matches are an exception: losing them keeps every rating for ever. *)
Theorem C147_fifa_knockout_refuted : forall i r ro n, 0 <= i -> fifa_rating_period (mkFifa (Fin r)) (repeat (mkFifa (Fin ro), LOSS, mkFifaConfig (Fin i) true false) n) = mkFifa (Fin r).
Proof. exact C147_fifa_knockout_proof. Qed.
Print Assumptions C147_fifa_knockout_refuted.

(* Starting at 0 or at 3000: any games against opponents rated between -4000 and 4000. *)
Example C147_case : 0 < 32 /\ 32 * ln 10 < 1600 /\ (forall n : nat, Rabs (fst (if Nat.even n then 4000 else -4000, WIN)) <= 4000) /\ 0 < 3000.
Proof. pose proof ln10_close. repeat split; try lra. intros n. cbn [fst]. destruct (Nat.even n); apply Rabs_le; lra. Qed.
Example C147_ingo_case : List.Forall (fun rs : list (R * N * Outcomes) => rs <> []) [[(100, 30%N, WIN); (90, 20%N, LOSS)]; [(120, 40%N, DRAW)]].
Proof. repeat constructor; discriminate. Qed.
Example C147_uscf_case : (3 <= 8)%N /\ [(1400, 20%N, WIN); (1300, 9%N, LOSS)] <> [] /\ (3 + N.of_nat 2 < 2 ^ 64)%N.
Proof. repeat split; try discriminate; lia. Qed.
