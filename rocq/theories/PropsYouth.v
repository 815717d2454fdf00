(** How age and experience change the effect of a DWZ result. *)
From Coq Require Import ZArith NArith List Bool Reals Lra Lia.
From Verif Require Import Arith XR ModelLib ModelDwz Spec SpecIn ProofElo ProofDrift2.
Import Spec ListNotations.
Local Open Scope R_scope.

(** C123: a younger player with fewer rated tournaments (index i, age a) reacts
    at least as strongly to the same results as an older, more experienced one
    (index j, age b) of the same rating. *)
Theorem C123_dwz_age_game : forall r i j a b r2 i2 a2 o, (1 <= i <= j)%N -> (1 <= i2)%N -> (a <= b)%N -> r <= 2000 \/ (20 <= a)%N \/ o = LOSS ->
  exists x y, dwz_rating (fst (dwz (mkDwz (Fin r) i a) (mkDwz (Fin r2) i2 a2) o)) = Fin x /\ dwz_rating (fst (dwz (mkDwz (Fin r) j b) (mkDwz (Fin r2) i2 a2) o)) = Fin y /\
    Rabs (y - r) <= Rabs (x - r) /\ (o = WIN -> r < y <= x) /\ (o = LOSS -> x <= y < r).
Proof. exact C123_game_proof. Qed.
Print Assumptions C123_dwz_age_game.
Theorem C123_dwz_age_period : forall r i j a b rs, (1 <= i <= j)%N -> (a <= b)%N ->
  let games := map (fun g : R * N * N * Outcomes => let '(x, k, y, o) := g in (mkDwz (Fin x) k y, o)) rs in
  let S := Rsum (map (fun g : R * N * N * Outcomes => points (snd g)) rs) in
  let We := Rsum (map (fun g : R * N * N * Outcomes => elo_E r (fst (fst (fst g)))) rs) in
  r <= 2000 \/ (20 <= a)%N \/ S < We ->
  exists x y, dwz_rating (dwz_rating_period (mkDwz (Fin r) i a) games) = Fin x /\ dwz_rating (dwz_rating_period (mkDwz (Fin r) j b) games) = Fin y /\
    Rabs (y - r) <= Rabs (x - r) /\ (We < S -> r < y <= x) /\ (S < We -> x <= y < r).
Proof. exact C123_period_proof. Qed.
Print Assumptions C123_dwz_age_period.
(** Above 2000 a junior gains less from a win than a player aged 20. *)
Theorem C123_dwz_strong_junior_refuted : forall r i a r2 i2 a2, 2000 < r <= 2200 -> (6 <= i)%N -> (a < 20)%N -> (1 <= i2)%N ->
  exists x y, dwz_rating (fst (dwz (mkDwz (Fin r) i a) (mkDwz (Fin r2) i2 a2) WIN)) = Fin x /\ dwz_rating (fst (dwz (mkDwz (Fin r) i 20) (mkDwz (Fin r2) i2 a2) WIN)) = Fin y /\ r < x < y.
Proof. exact C123_refuted_proof. Qed.
Print Assumptions C123_dwz_strong_junior_refuted.
(* A 16-year-old with index 4 and a 30-year-old with index 50, both rated 1500. *)
Example C123_case : (1 <= 4 <= 50)%N /\ (1 <= 7)%N /\ (16 <= 30)%N /\ (1500 <= 2000 \/ (20 <= 16)%N \/ WIN = LOSS).
Proof. repeat split; try lia. left. lra. Qed.
Example C123_refuted_case : 2000 < 2100 <= 2200 /\ (6 <= 12)%N /\ (18 < 20)%N /\ (1 <= 3)%N.
Proof. repeat split; try lia; lra. Qed.
