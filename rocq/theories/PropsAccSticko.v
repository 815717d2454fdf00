(** Property theorems in IEEE-754 double precision, continued: Sticko (C107). *)
From Coq Require Import ZArith NArith List Bool Reals Lra Lia.
From Flocq Require Import Core.Raux IEEE754.BinarySingleNaN.
From Verif Require Import Arith B64 SpecB64 SpecAcc ModelLib Spec ModelSticko
  MathB64 ProofB64 ProofB64b ProofB64c ProofB64g ProofAcc ProofAccSticko.
Import Spec ListNotations.
Local Open Scope R_scope.

(** C107: one game, one rating period, the expected scores. *)
Theorem C107_f64_sticko_game : forall (L : Libm) (p1 p2 : StickoRating B64) (o : Outcomes) (cfg : StickoConfig B64),
  pow10_nonneg L -> pow10_accurate L -> ln10_accurate L -> hypot_accurate L ->
  num_in (- (9000)) 9000 (st_rating p1) -> num_in 1 350 (st_deviation p1) -> num_in (- (9000)) 9000 (st_rating p2) -> num_in 1 350 (st_deviation p2) ->
  num_in 0 100 (st_h cfg) -> num_in (- (1)) 1 (st_beta cfg) -> num_in (- (100)) 100 (st_lambda cfg) -> num_in (- (1000)) 1000 (st_gamma cfg) -> num_in 0 1000 (st_c cfg) ->
  let h := B2R (st_h cfg) in let beta := B2R (st_beta cfg) in let lambda := B2R (st_lambda cfg) in let gamma := B2R (st_gamma cfg) in
  let r1 := B2R (st_rating p1) in let d1 := B2R (st_deviation p1) in let r2 := B2R (st_rating p2) in let d2 := B2R (st_deviation p2) in
  let P1 := gpre d1 (B2R (st_c cfg)) in let P2 := gpre d2 (B2R (st_c cfg)) in
  let games1 := [(r2, d2, o, true)] in let games2 := [(r1, d1, invert o, false)] in
  let new := sticko (A := B64A L) p1 p2 o cfg in
  (near (st_rating (fst new)) (sticko_r r1 P1 beta gamma lambda games1) (2 / 10 ^ 8) /\
   near (st_deviation (fst new)) (sticko_rd r1 P1 beta gamma h games1) (/ 10 ^ 8)) /\
  (near (st_rating (snd new)) (sticko_r r2 P2 beta gamma lambda games2) (2 / 10 ^ 8) /\
   near (st_deviation (snd new)) (sticko_rd r2 P2 beta gamma h games2) (/ 10 ^ 8)).
Proof. exact C107_game_proof. Qed.
Print Assumptions C107_f64_sticko_game.
Theorem C107_f64_sticko_period : forall (L : Libm) (p : StickoRating B64) (rs : list (StickoRating B64 * Outcomes * bool)) (cfg : StickoConfig B64),
  pow10_nonneg L -> pow10_accurate L -> ln10_accurate L -> hypot_accurate L ->
  num_in (- (9000)) 9000 (st_rating p) -> num_in 1 350 (st_deviation p) ->
  num_in 0 100 (st_h cfg) -> num_in (- (1)) 1 (st_beta cfg) -> num_in (- (100)) 100 (st_lambda cfg) -> num_in (- (1000)) 1000 (st_gamma cfg) -> num_in 0 1000 (st_c cfg) ->
  Forall (fun g => num_in (- (9000)) 9000 (st_rating (fst (fst g))) /\ num_in 1 350 (st_deviation (fst (fst g)))) rs ->
  (1 <= length rs <= 1000)%nat ->
  let r := B2R (st_rating p) in let P := gpre (B2R (st_deviation p)) (B2R (st_c cfg)) in
  let games := map (fun g => (B2R (st_rating (fst (fst g))), B2R (st_deviation (fst (fst g))), snd (fst g), snd g)) rs in
  let n := INR (length rs) in
  let new := sticko_rating_period (A := B64A L) p rs cfg in
  near (st_rating new) (sticko_r r P (B2R (st_beta cfg)) (B2R (st_gamma cfg)) (B2R (st_lambda cfg)) games) (2 * n * n / 10 ^ 8) /\
  near (st_deviation new) (sticko_rd r P (B2R (st_beta cfg)) (B2R (st_gamma cfg)) (B2R (st_h cfg)) games) (n / 10 ^ 8).
Proof. exact C107_period_proof. Qed.
Print Assumptions C107_f64_sticko_period.
Theorem C107_f64_sticko_expected : forall (L : Libm) (p1 p2 : StickoRating B64) (cfg : StickoConfig B64),
  pow10_nonneg L -> pow10_accurate L -> ln10_accurate L -> hypot_accurate L ->
  num_in (- (9000)) 9000 (st_rating p1) -> num_in 1 350 (st_deviation p1) -> num_in (- (9000)) 9000 (st_rating p2) -> num_in 1 350 (st_deviation p2) ->
  num_in (- (1000)) 1000 (st_gamma cfg) ->
  let E := gE (B2R (st_rating p1)) (B2R (st_rating p2) - B2R (st_gamma cfg)) (sqrt (B2R (st_deviation p1) ^ 2 + B2R (st_deviation p2) ^ 2)) in
  let e := sticko_expected_score (A := B64A L) p1 p2 cfg in
  near (fst e) E (2 / 10 ^ 12) /\ near (snd e) (1 - E) (2 / 10 ^ 12).
Proof. exact C107_expected_proof. Qed.
Print Assumptions C107_f64_sticko_expected.
Theorem C107_f64_sticko_expected_period : forall (L : Libm) (p : StickoRating B64) (os : list (StickoRating B64 * bool)) (cfg : StickoConfig B64),
  pow10_nonneg L -> pow10_accurate L -> ln10_accurate L -> hypot_accurate L ->
  num_in (- (9000)) 9000 (st_rating p) -> num_in 1 350 (st_deviation p) -> num_in (- (1000)) 1000 (st_gamma cfg) ->
  Forall (fun o => num_in (- (9000)) 9000 (st_rating (fst o)) /\ num_in 1 350 (st_deviation (fst o))) os ->
  Forall2 (fun (o : StickoRating B64 * bool) (e : B64) => near e (gE (B2R (st_rating p)) (B2R (st_rating (fst o)) - (if snd o then B2R (st_gamma cfg) else - B2R (st_gamma cfg)))
      (sqrt (B2R (st_deviation p) ^ 2 + B2R (st_deviation (fst o)) ^ 2))) (2 / 10 ^ 12))
    os (sticko_expected_score_rating_period (A := B64A L) p os cfg).
Proof. exact C107_expected_period_proof. Qed.
Print Assumptions C107_f64_sticko_expected_period.

(** The correctly rounded libm meets the contracts. *)
Example C107_libm_case : pow10_nonneg libm_rounded /\ pow10_accurate libm_rounded /\ ln10_accurate libm_rounded /\ hypot_accurate libm_rounded.
Proof. exact (conj libm_pow_nonneg (conj libm_pow_accurate (conj libm_ln10_accurate libm_hypot_accurate))). Qed.
(** Ratings 1500 and 2100, deviations 350 and 40, the default configuration but for an advantage of 30 points. *)
Example C107_case : num_in (- (9000)) 9000 (b64_of_Z 1500) /\ num_in (- (9000)) 9000 (b64_of_Z 2100) /\ num_in 1 350 (b64_of_Z 350) /\ num_in 1 350 (b64_of_Z 40) /\
  num_in 0 100 (b64_of_Z 10) /\ num_in (- (1)) 1 (b64_of_Z 0) /\ num_in (- (100)) 100 (b64_of_Z 2) /\ num_in (- (1000)) 1000 (b64_of_Z 30) /\ num_in 0 1000 (b64_of_Z 10).
Proof.
  assert (H : forall z lo hi, (Z.abs z <= 2 ^ 53)%Z -> lo <= IZR z <= hi -> num_in lo hi (b64_of_Z z)).
  { intros z lo hi Hz B. destruct (ext_ofZ z Hz) as [F E]. split; [exact F|]. rewrite <- (ext_fin _ F), E. exact B. }
  repeat match goal with |- num_in _ _ _ => apply H; [vm_compute; discriminate|lra] | |- _ /\ _ => split end.
Qed.
