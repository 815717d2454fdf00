(** How good the forecasts of a long run of games are. *)
From Coq Require Import ZArith NArith List Bool Reals Lra Lia.
From Verif Require Import Arith XR ModelLib ModelElo ModelFifa Spec SpecIn SpecLeague SpecRegret ProofElo ProofFifa ProofBoost2 ProofRegret.
Import Spec ListNotations.
Local Open Scope R_scope.

(** C125: whoever plays whom and whatever the results are, the log loss of the
    expected scores of Elo, each computed just before its game, exceeds that of
    any fixed strengths [us] by at most the stated amount. *)
@THM C125_elo_regret C125_elo_proof
@THM C125_fifa_regret C125_fifa_proof
(** One player who plays a list of opponents. *)
@THM C125_elo_period_regret C125_period_proof
(** If the results follow fixed strengths, the mean squared error of the expected
    scores comes down to k/2 / (3200/ln 10 - 2k) per game (0.012 for k = 32)
    whatever the starting ratings were. *)
@THM C125_elo_learns C125_elo_mean_proof
@THM C125_fifa_learns C125_fifa_mean_proof

(* Three players of different strength who all start at 1000. *)
Example C125_case : length [1000; 1000; 1000] = length [900; 1000; 1300] /\ gap2 [1000; 1000; 1000] [900; 1000; 1300] = 100000.
Proof. split; [reflexivity|]. cbn. lra. Qed.
(* Wins and losses only, with the chances that the strengths imply. *)
Example C125_follows_case : follows elo_E [900; 1000; 1300] (fun ij o => match o with WIN => elo_E (nth (fst ij) [900; 1000; 1300] 0) (nth (snd ij) [900; 1000; 1300] 0)
  | DRAW => 0 | LOSS => 1 - elo_E (nth (fst ij) [900; 1000; 1300] 0) (nth (snd ij) [900; 1000; 1300] 0) end).
Proof. intros i j. cbn [fst snd]. pose proof (elo_E_range (nth i [900; 1000; 1300] 0) (nth j [900; 1000; 1300] 0)). repeat split; lra. Qed.
(* The factor on the left is positive for every usual k. *)
Example C125_factor_case : 1300 < 3200 / ln 10 - 2 * 32.
Proof. pose proof ln10_close as L. apply Rmult_lt_reg_r with (ln 10); [lra|]. replace ((3200 / ln 10 - 2 * 32) * ln 10) with (3200 - 64 * ln 10) by (field; lra). lra. Qed.
