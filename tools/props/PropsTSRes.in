(** TrueSkill: the better the result, the better the rating. *)
From Coq Require Import ZArith NArith List Bool Reals Lra Lia.
From Verif Require Import Arith XR ModelLib ModelTS Spec SpecTS SpecInTS ProofTS ProofTSRes.
Import Spec ListNotations.
Local Open Scope R_scope.

(** C126: a win is better than a draw and a draw better than a loss, for every
    rating difference. *)
@THM C126_trueskill_results C126_player_proof
@THM C126_trueskill_results_teams C126_teams_proof

Example C126_case : 0 < 25/3 /\ 0.01 <= 0.1 <= 1 /\ 0 < 25/6 /\ (25/3) ^ 2 + (25/3) ^ 2 <= 2 * (1400 * 0.1 ^ 2 - 1) * (25/6) ^ 2.
Proof. lra. Qed.
Example C126_teams_case : let t1 := [(25, 25/3); (30, 4)] in let t2 := [(20, 2)] in
  wl_ok t1 /\ wl_ok t2 /\ side_var t1 + side_var t2 <= INR (length t1 + length t2) * (1400 * 0.1 ^ 2 - 1) * (25/6) ^ 2.
Proof. cbn. repeat split; try discriminate; try (repeat constructor; cbn; lra); try lra. Qed.
