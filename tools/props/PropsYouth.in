(** How age and experience change the effect of a DWZ result. *)
From Coq Require Import ZArith NArith List Bool Reals Lra Lia.
From Verif Require Import Arith XR ModelLib ModelDwz Spec SpecIn ProofElo ProofDrift2.
Import Spec ListNotations.
Local Open Scope R_scope.

(** C123: a younger player with fewer rated tournaments (index i, age a) reacts
    at least as strongly to the same results as an older, more experienced one
    (index j, age b) of the same rating. *)
@THM C123_dwz_age_game C123_game_proof
@THM C123_dwz_age_period C123_period_proof
(** Above 2000 a junior gains less from a win than a player aged 20. *)
@THM C123_dwz_strong_junior_refuted C123_refuted_proof
(* A 16-year-old with index 4 and a 30-year-old with index 50, both rated 1500. *)
Example C123_case : (1 <= 4 <= 50)%N /\ (1 <= 7)%N /\ (16 <= 30)%N /\ (1500 <= 2000 \/ (20 <= 16)%N \/ WIN = LOSS).
Proof. repeat split; try lia. left. lra. Qed.
Example C123_refuted_case : 2000 < 2100 <= 2200 /\ (6 <= 12)%N /\ (18 < 20)%N /\ (1 <= 3)%N.
Proof. repeat split; try lia; lra. Qed.
