(** How good the forecasts of a long run of games are. *)
From Coq Require Import ZArith NArith List Bool Reals Lra Lia.
From Verif Require Import Arith XR ModelLib ModelElo ModelFifa Spec SpecIn SpecLeague SpecRegret ProofElo ProofFifa ProofBoost2 ProofRegret.
Import Spec ListNotations.
Local Open Scope R_scope.

(** C125: whoever plays whom and whatever the results are, the log loss of the
    expected scores of Elo, each computed just before its game, exceeds that of
    any fixed strengths [us] by at most the stated amount. *)
Theorem C125_elo_regret : forall rs us gs k, 0 < k -> length rs = length us ->
  let loss l := fun _ p q o => l (num (fst (elo_expected_score p q))) (points o) in
  let run := fun p q o => elo p q o (mkEloConfig (Fin k)) in
  let players := map (fun r => mkElo (Fin r)) in
  season_cost run (loss log_loss) (players rs) gs <= season_cost fixed (loss log_loss) (players us) gs + ln 10 / 400 * (gap2 rs us / (2 * k) + k * season_cost run (loss square_loss) (players rs) gs) /\
  season_cost run (loss square_loss) (players rs) gs <= INR (length gs).
Proof. exact C125_elo_proof. Qed.
Print Assumptions C125_elo_regret.
Theorem C125_fifa_regret : forall rs us gs i, 0 < i -> length rs = length us ->
  let loss l := fun _ p q o => l (num (fst (fifa_expected_score p q))) (points o) in
  let run := fun p q o => fifa p q o (mkFifaConfig (Fin i) false false) in
  let teams := map (fun r => mkFifa (Fin r)) in
  season_cost run (loss log_loss) (teams rs) gs <= season_cost fixed (loss log_loss) (teams us) gs + ln 10 / 600 * (gap2 rs us / (2 * i) + i * season_cost run (loss square_loss) (teams rs) gs) /\
  season_cost run (loss square_loss) (teams rs) gs <= INR (length gs).
Proof. exact C125_fifa_proof. Qed.
Print Assumptions C125_fifa_regret.
(** One player who plays a list of opponents. *)
Theorem C125_elo_period_regret : forall r u games k, 0 < k ->
  let gs := map (fun '(ro, o) => (mkElo (Fin ro), o)) games in
  let loss p (g : EloRating XR * Outcomes) := log_loss (num (fst (elo_expected_score p (fst g)))) (points (snd g)) in
  period_cost (fun before => elo_rating_period (mkElo (Fin r)) before (mkEloConfig (Fin k))) loss gs <= Rsum (map (loss (mkElo (Fin u))) gs) + ln 10 / 400 * ((r - u) ^ 2 / (2 * k) + k / 2 * INR (length games)).
Proof. exact C125_period_proof. Qed.
Print Assumptions C125_elo_period_regret.
(** If the results follow fixed strengths, the mean squared error of the expected
    scores comes down to k/2 / (3200/ln 10 - 2k) per game (0.012 for k = 32)
    whatever the starting ratings were. *)
Theorem C125_elo_learns : forall rs us ch ps k, 0 < k -> length rs = length us -> follows elo_E us ch ->
  (3200 / ln 10 - 2 * k) * mean_cost (fun p q o => elo p q o (mkEloConfig (Fin k))) (fun ij p q _ => (num (fst (elo_expected_score p q)) - elo_E (nth (fst ij) us 0) (nth (snd ij) us 0)) ^ 2) ch (map (fun r => mkElo (Fin r)) rs) ps <= gap2 rs us / k + k / 2 * INR (length ps).
Proof. exact C125_elo_mean_proof. Qed.
Print Assumptions C125_elo_learns.
Theorem C125_fifa_learns : forall rs us ch ps i, 0 < i -> length rs = length us -> follows fifa_We us ch ->
  (4800 / ln 10 - 2 * i) * mean_cost (fun p q o => fifa p q o (mkFifaConfig (Fin i) false false)) (fun ij p q _ => (num (fst (fifa_expected_score p q)) - fifa_We (nth (fst ij) us 0) (nth (snd ij) us 0)) ^ 2) ch (map (fun r => mkFifa (Fin r)) rs) ps <= gap2 rs us / i + i / 2 * INR (length ps).
Proof. exact C125_fifa_mean_proof. Qed.
Print Assumptions C125_fifa_learns.

(* Three players of different strength who all start at 1000. *)
Example C125_case : length [1000; 1000; 1000] = length [900; 1000; 1300] /\ gap2 [1000; 1000; 1000] [900; 1000; 1300] = 100000.
Proof. split; [reflexivity|]. cbn. lra. Qed.
(* Wins and losses only, with the chances that the strengths imply. *)
Example C125_follows_case : follows elo_E [900; 1000; 1300] (fun ij o => match o with WIN => elo_E (nth (fst ij) [900; 1000; 1300] 0) (nth (snd ij) [900; 1000; 1300] 0)
  | DRAW => 0 | LOSS => 1 - elo_E (nth (fst ij) [900; 1000; 1300] 0) (nth (snd ij) [900; 1000; 1300] 0) end).
Proof. intros i j. cbn [fst snd]. pose proof (elo_E_range (nth i [900; 1000; 1300] 0) (nth j [900; 1000; 1300] 0)). repeat split; lra. Qed.
(* The factor on the left is positive for every usual k. *)
Example C125_factor_case : 1300 < 3200 / ln 10 - 2 * 32.
Proof. pose proof ln10_close as L. apply Rmult_lt_reg_r with (ln 10); [lra|]. replace ((3200 / ln 10 - 2 * 32) * ln 10) with (3200 - 64 * ln 10) by (field; lra). lra. Qed.
