(** Property theorems in IEEE-754 double precision, continued: Glicko-2 (C115).
    [g2_updated] (SpecAcc3.v) compares with Glickman's formulas over the reals. *)
From Coq Require Import ZArith NArith List Bool Reals Lra Lia.
From Flocq Require Import Core.Raux IEEE754.BinarySingleNaN.
From Verif Require Import Arith B64 SpecB64 SpecAcc SpecAcc3 ModelLib Spec ModelGlicko2
  MathB64 MathAcc MathAcc2 ProofB64 ProofB64b ProofB64c ProofAcc ProofAccG2.
Import Spec ListNotations.
Local Open Scope R_scope.

(** C115: one game; a game without an upset, where no further condition is
    needed; a rating period. *)
Theorem C115_f64_glicko2_game : forall (L : Libm) (fuel : nat) (p1 p2 q1 q2 : Glicko2Rating B64) (o : Outcomes) (cfg : Glicko2Config B64),
  exp_accurate L -> lnw_accurate L -> hypots_accurate L ->
  num_in (- 10 ^ 4) (10 ^ 4) (g2_rating p1) -> num_in 1 350 (g2_deviation p1) -> num_in (/ 100) (3 / 10) (g2_volatility p1) ->
  num_in (- 10 ^ 4) (10 ^ 4) (g2_rating p2) -> num_in 1 350 (g2_deviation p2) -> num_in (/ 100) (3 / 10) (g2_volatility p2) ->
  num_in (/ 10) (12 / 10) (g2_tau cfg) -> finite (g2_convergence_tolerance cfg) -> 99 / 10 ^ 8 <= B2R (g2_convergence_tolerance cfg) ->
  let r1 := B2R (g2_rating p1) in let d1 := B2R (g2_deviation p1) in let r2 := B2R (g2_rating p2) in let d2 := B2R (g2_deviation p2) in
  let tau := B2R (g2_tau cfg) in let tol := B2R (g2_convergence_tolerance cfg) in
  let games1 := [(g2mu r2, g2phi d2, points o)] in let games2 := [(g2mu r1, g2phi d1, points (invert o))] in
  Rabs (r1 - r2) <= 800 -> g2_moderate r1 d1 tau games1 -> g2_moderate r2 d2 tau games2 ->
  glicko2 (A := B64A L) fuel p1 p2 o cfg = Some (q1, q2) ->
  g2_updated q1 r1 d1 (B2R (g2_volatility p1)) tau tol games1 /\ g2_updated q2 r2 d2 (B2R (g2_volatility p2)) tau tol games2.
Proof. exact C115_game_proof. Qed.
Print Assumptions C115_f64_glicko2_game.
Theorem C115_f64_glicko2_usual : forall (L : Libm) (fuel : nat) (p1 p2 q1 q2 : Glicko2Rating B64) (o : Outcomes) (cfg : Glicko2Config B64),
  exp_accurate L -> lnw_accurate L -> hypots_accurate L ->
  num_in (- 10 ^ 4) (10 ^ 4) (g2_rating p1) -> num_in 1 350 (g2_deviation p1) -> num_in (/ 100) (3 / 10) (g2_volatility p1) ->
  num_in (- 10 ^ 4) (10 ^ 4) (g2_rating p2) -> num_in 1 350 (g2_deviation p2) -> num_in (/ 100) (3 / 10) (g2_volatility p2) ->
  num_in (/ 10) (12 / 10) (g2_tau cfg) -> finite (g2_convergence_tolerance cfg) -> 99 / 10 ^ 8 <= B2R (g2_convergence_tolerance cfg) ->
  let r1 := B2R (g2_rating p1) in let d1 := B2R (g2_deviation p1) in let r2 := B2R (g2_rating p2) in let d2 := B2R (g2_deviation p2) in
  let tau := B2R (g2_tau cfg) in let tol := B2R (g2_convergence_tolerance cfg) in
  Rabs (r1 - r2) <= 800 -> (match o with WIN => r2 <= r1 | LOSS => r1 <= r2 | DRAW => Rabs (r1 - r2) <= 300 end) ->
  glicko2 (A := B64A L) fuel p1 p2 o cfg = Some (q1, q2) ->
  g2_updated q1 r1 d1 (B2R (g2_volatility p1)) tau tol [(g2mu r2, g2phi d2, points o)] /\
  g2_updated q2 r2 d2 (B2R (g2_volatility p2)) tau tol [(g2mu r1, g2phi d1, points (invert o))].
Proof. exact C115_usual_proof. Qed.
Print Assumptions C115_f64_glicko2_usual.
Theorem C115_f64_glicko2_period : forall (L : Libm) (fuel : nat) (p q : Glicko2Rating B64) (rs : list (Glicko2Rating B64 * Outcomes)) (cfg : Glicko2Config B64),
  exp_accurate L -> lnw_accurate L -> hypots_accurate L -> (1 <= length rs <= 100)%nat ->
  num_in (- 10 ^ 4) (10 ^ 4) (g2_rating p) -> num_in 1 350 (g2_deviation p) -> num_in (/ 100) (3 / 10) (g2_volatility p) ->
  num_in (/ 10) (12 / 10) (g2_tau cfg) -> finite (g2_convergence_tolerance cfg) -> 99 / 10 ^ 8 <= B2R (g2_convergence_tolerance cfg) ->
  let r := B2R (g2_rating p) in let d := B2R (g2_deviation p) in let tau := B2R (g2_tau cfg) in
  Forall (fun g => num_in (- 10 ^ 4) (10 ^ 4) (g2_rating (fst g)) /\ num_in 1 350 (g2_deviation (fst g)) /\ Rabs (r - B2R (g2_rating (fst g))) <= 800) rs ->
  let games := map (fun g => (g2mu (B2R (g2_rating (fst g))), g2phi (B2R (g2_deviation (fst g))), points (snd g))) rs in
  g2_moderate r d tau games ->
  glicko2_rating_period (A := B64A L) fuel p rs cfg = Some q ->
  g2_updated q r d (B2R (g2_volatility p)) tau (B2R (g2_convergence_tolerance cfg)) games.
Proof. exact C115_period_proof. Qed.
Print Assumptions C115_f64_glicko2_period.
(** Expected scores and the growth of the deviation. *)
Theorem C115_f64_glicko2_expected : forall (L : Libm) (p1 p2 : Glicko2Rating B64), exp_accurate L -> hypots_accurate L ->
  num_in (- 10 ^ 4) (10 ^ 4) (g2_rating p1) -> num_in 1 350 (g2_deviation p1) -> num_in (- 10 ^ 4) (10 ^ 4) (g2_rating p2) -> num_in 1 350 (g2_deviation p2) ->
  let E := g2E (g2mu (B2R (g2_rating p1))) (g2mu (B2R (g2_rating p2))) (sqrt (g2phi (B2R (g2_deviation p1)) ^ 2 + g2phi (B2R (g2_deviation p2)) ^ 2)) in
  near (fst (glicko2_expected_score (A := B64A L) p1 p2)) E (/ 10 ^ 11) /\ near (snd (glicko2_expected_score (A := B64A L) p1 p2)) (1 - E) (/ 10 ^ 11).
Proof. exact C115_expected_proof. Qed.
Print Assumptions C115_f64_glicko2_expected.
Theorem C115_f64_glicko2_expected_period : forall (L : Libm) (p : Glicko2Rating B64) (os : list (Glicko2Rating B64)), exp_accurate L -> hypots_accurate L ->
  num_in (- 10 ^ 4) (10 ^ 4) (g2_rating p) -> num_in 1 350 (g2_deviation p) ->
  Forall (fun q => num_in (- 10 ^ 4) (10 ^ 4) (g2_rating q) /\ num_in 1 350 (g2_deviation q)) os ->
  Forall2 (fun e q => near e (g2E (g2mu (B2R (g2_rating p))) (g2mu (B2R (g2_rating q))) (sqrt (g2phi (B2R (g2_deviation p)) ^ 2 + g2phi (B2R (g2_deviation q)) ^ 2))) (/ 10 ^ 11))
    (glicko2_expected_score_rating_period (A := B64A L) p os) os.
Proof. exact C115_expected_period_proof. Qed.
Print Assumptions C115_f64_glicko2_expected_period.
Theorem C115_f64_glicko2_decay : forall (L : Libm) (p : Glicko2Rating B64), hypots_accurate L -> num_in 1 350 (g2_deviation p) -> num_in 0 10 (g2_volatility p) ->
  let q := glicko2_decay_deviation (A := B64A L) p in
  g2_rating q = g2_rating p /\ g2_volatility q = g2_volatility p /\
  near (g2_deviation q) (Rmin (sqrt (B2R (g2_deviation p) ^ 2 + (g2s * B2R (g2_volatility p)) ^ 2)) 350) (/ 10 ^ 8).
Proof. exact C115_decay_proof. Qed.
Print Assumptions C115_f64_glicko2_decay.

(** The correctly rounded libm meets the contracts. *)
Example C115_libm_case : exp_accurate libm_rounded /\ lnw_accurate libm_rounded /\ hypots_accurate libm_rounded.
Proof. exact (conj libm_exp_accurate (conj libm_lnw_accurate libm_hypots_accurate)). Qed.
(** A player of 1700 beats one of 1500 (deviations 60 and 200, volatility 0.06,
    tau 0.5, tolerance 2): the hypotheses hold and the function returns. *)
Example C115_case : exists q1 q2, let p1 := mkGlicko2 (b64_of_Z 1700) (b64_of_Z 60) (b64_lit 6 100) in let p2 := mkGlicko2 (b64_of_Z 1500) (b64_of_Z 200) (b64_lit 6 100) in
  let tau := b64_lit 5 10 in let tol := b64_of_Z 2 in
  glicko2 (A := B64A libm_rounded) 1 p1 p2 WIN (mkGlicko2Config tau tol) = Some (q1, q2) /\
  g2_updated q1 1700 60 (B2R (b64_lit 6 100)) (B2R tau) 2 [(g2mu 1500, g2phi 200, 1)] /\
  g2_updated q2 1500 200 (B2R (b64_lit 6 100)) (B2R tau) 2 [(g2mu 1700, g2phi 60, 0)].
Proof.
  assert (H : forall z, (Z.abs z <= 2 ^ 53)%Z -> finite (b64_of_Z z) /\ B2R (b64_of_Z z) = IZR z).
  { intros z Hz. destruct (ext_ofZ z Hz) as [F E]. split; [exact F|]. rewrite <- (ext_fin _ F), E. reflexivity. }
  destruct (H 1700%Z ltac:(vm_compute; discriminate)) as [F1 E1]. destruct (H 60%Z ltac:(vm_compute; discriminate)) as [F2 E2].
  destruct (H 1500%Z ltac:(vm_compute; discriminate)) as [F3 E3]. destruct (H 200%Z ltac:(vm_compute; discriminate)) as [F4 E4]. destruct (H 2%Z ltac:(vm_compute; discriminate)) as [F5 E5].
  pose proof (lit_ap 6 100 1 ltac:(lia) ltac:(lia) ltac:(rewrite Rabs_pos_eq; lra) ltac:(apply okB; lra)) as [Fs As]. pose proof (lit_ap 5 10 1 ltac:(lia) ltac:(lia) ltac:(rewrite Rabs_pos_eq; lra) ltac:(apply okB; lra)) as [Ft At].
  rewrite (ext_fin _ Fs) in As. rewrite (ext_fin _ Ft) in At. unfold u0 in As, At. apply Rabs_le_inv in As. apply Rabs_le_inv in At.
  assert (G : Rabs (1700 - 1500) <= 800) by (rewrite Rabs_pos_eq; lra).
  destruct (game_quick libm_rounded 0 (b64_of_Z 1700) (b64_of_Z 60) (b64_lit 6 100) (b64_of_Z 1500) (b64_of_Z 200) (b64_lit 6 100) (b64_lit 5 10) (b64_of_Z 2) WIN libm_exp_accurate libm_lnw_accurate) as (q1 & q2 & Q);
    try (split; [assumption|]); rewrite ?E1, ?E2, ?E3, ?E4, ?E5; cbn [no_upset]; try assumption; try lra.
  exists q1, q2. cbv zeta. split; [exact Q|].
  pose proof (C115_f64_glicko2_usual libm_rounded 1 (mkGlicko2 (b64_of_Z 1700) (b64_of_Z 60) (b64_lit 6 100)) (mkGlicko2 (b64_of_Z 1500) (b64_of_Z 200) (b64_lit 6 100)) q1 q2 WIN (mkGlicko2Config (b64_lit 5 10) (b64_of_Z 2))
    libm_exp_accurate libm_lnw_accurate libm_hypots_accurate) as T. cbn [g2_rating g2_deviation g2_volatility g2_tau g2_convergence_tolerance points invert] in T. rewrite ?E1, ?E2, ?E3, ?E4, ?E5 in T.
  apply T; try (split; [assumption|]); rewrite ?E1, ?E2, ?E3, ?E4, ?E5; try assumption; try lra.
Qed.
