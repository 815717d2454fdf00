(** Property theorems in IEEE-754 double precision, continued (C101): how far
    the computed numbers are from the published formulas, evaluated exactly. *)
From Coq Require Import ZArith NArith List Bool Reals Lra Lia.
From Flocq Require Import IEEE754.BinarySingleNaN.
From Verif Require Import Arith B64 SpecB64 SpecAcc ModelLib Spec ModelGlicko ModelFifa ModelWengLin ModelIngo ModelEgf
  MathB64 ProofB64 ProofB64b ProofB64c ProofAcc ProofAcc2 ProofAcc3.
Import ListNotations.
Local Open Scope R_scope.

(** C101 for Glicko: a game, a rating period and the expected score. *)
Theorem C101_f64_glicko : forall (L : Libm) (p1 p2 : GlickoRating B64) (o : Outcomes) (cfg : GlickoConfig B64),
  pow10_nonneg L -> pow10_accurate L -> ln10_accurate L -> hypot_accurate L ->
  num_in (- 10 ^ 4) (10 ^ 4) (gl_rating p1) -> num_in 1 350 (gl_deviation p1) ->
  num_in (- 10 ^ 4) (10 ^ 4) (gl_rating p2) -> num_in 1 350 (gl_deviation p2) -> num_in 0 1000 (gl_c cfg) ->
  let r1 := B2R (gl_rating p1) in let d1 := gpre (B2R (gl_deviation p1)) (B2R (gl_c cfg)) in
  let r2 := B2R (gl_rating p2) in let d2 := gpre (B2R (gl_deviation p2)) (B2R (gl_c cfg)) in
  let games1 := [(r2, B2R (gl_deviation p2), points o)] in let games2 := [(r1, B2R (gl_deviation p1), points (invert o))] in
  let new := glicko (A := B64A L) p1 p2 o cfg in
  near (gl_rating (fst new)) (glicko_r r1 d1 games1) (/ 10 ^ 8) /\ near (gl_deviation (fst new)) (glicko_rd r1 d1 games1) (/ 10 ^ 8) /\
  near (gl_rating (snd new)) (glicko_r r2 d2 games2) (/ 10 ^ 8) /\ near (gl_deviation (snd new)) (glicko_rd r2 d2 games2) (/ 10 ^ 8).
Proof. exact C101_glicko_proof. Qed.
Print Assumptions C101_f64_glicko.
Theorem C101_f64_glicko_period : forall (L : Libm) (p : GlickoRating B64) (rs : list (GlickoRating B64 * Outcomes)) (cfg : GlickoConfig B64),
  pow10_nonneg L -> pow10_accurate L -> ln10_accurate L -> hypot_accurate L ->
  num_in (- 10 ^ 4) (10 ^ 4) (gl_rating p) -> num_in 1 350 (gl_deviation p) -> num_in 0 1000 (gl_c cfg) ->
  Forall (fun r => num_in (- 10 ^ 4) (10 ^ 4) (gl_rating (fst r)) /\ num_in 1 350 (gl_deviation (fst r))) rs ->
  rs <> [] -> (length rs <= 1000)%nat ->
  let r := B2R (gl_rating p) in let d := gpre (B2R (gl_deviation p)) (B2R (gl_c cfg)) in
  let games := map (fun g => (B2R (gl_rating (fst g)), B2R (gl_deviation (fst g)), points (snd g))) rs in
  let n := INR (length rs) in
  let new := glicko_rating_period (A := B64A L) p rs cfg in
  near (gl_rating new) (glicko_r r d games) (n * n / 10 ^ 8) /\ near (gl_deviation new) (glicko_rd r d games) (n / 10 ^ 8).
Proof. exact C101_glicko_period_proof. Qed.
Print Assumptions C101_f64_glicko_period.
Theorem C101_f64_glicko_expected : forall (L : Libm) (p1 p2 : GlickoRating B64),
  pow10_accurate L -> ln10_accurate L -> hypot_accurate L ->
  num_in (- 10 ^ 4) (10 ^ 4) (gl_rating p1) -> num_in 1 350 (gl_deviation p1) ->
  num_in (- 10 ^ 4) (10 ^ 4) (gl_rating p2) -> num_in 1 350 (gl_deviation p2) ->
  let E := gE (B2R (gl_rating p1)) (B2R (gl_rating p2)) (sqrt (B2R (gl_deviation p1) ^ 2 + B2R (gl_deviation p2) ^ 2)) in
  let e := glicko_expected_score (A := B64A L) p1 p2 in
  near (fst e) E (2 / 10 ^ 12) /\ near (snd e) (1 - E) (2 / 10 ^ 12).
Proof. exact C101_glicko_expected_proof. Qed.
Print Assumptions C101_f64_glicko_expected.
(** C101 for FIFA. *)
Theorem C101_f64_fifa : forall (L : Libm) (p1 p2 : FifaRating B64) (o : Outcomes) (imp : B64) (knockout : bool),
  pow10_accurate L ->
  num_in (- 10 ^ 4) (10 ^ 4) (fifa_rating p1) -> num_in (- 10 ^ 4) (10 ^ 4) (fifa_rating p2) -> num_in (- 1000) 1000 imp ->
  let r1 := B2R (fifa_rating p1) in let r2 := B2R (fifa_rating p2) in
  let u1 := fifa_upd (B2R imp) r1 r2 (points o) in let u2 := fifa_upd (B2R imp) r2 r1 (points (invert o)) in
  let e := fifa_expected_score (A := B64A L) p1 p2 in
  let new := fifa (A := B64A L) p1 p2 o (mkFifaConfig imp knockout false) in
  near (fst e) (fifa_We r1 r2) (/ 10 ^ 14) /\ near (snd e) (fifa_We r2 r1) (/ 10 ^ 14) /\
  near (fifa_rating (fst new)) (if knockout then Rmax r1 u1 else u1) (/ 10 ^ 11) /\
  near (fifa_rating (snd new)) (if knockout then Rmax r2 u2 else u2) (/ 10 ^ 11).
Proof. exact C101_fifa_proof. Qed.
Print Assumptions C101_f64_fifa.
(** C101 for Weng-Lin. *)
Theorem C101_f64_weng_lin : forall (L : Libm) (p1 p2 : WengLinRating B64) (o : Outcomes) (cfg : WengLinConfig B64),
  exp_accurate L ->
  num_in (- 500) 500 (wl_rating p1) -> num_in (/ 1000) 100 (wl_uncertainty p1) -> num_in (- 500) 500 (wl_rating p2) -> num_in (/ 1000) 100 (wl_uncertainty p2) ->
  num_in 1 100 (wl_beta cfg) -> num_in 0 1 (wl_uncertainty_tolerance cfg) ->
  let m1 := B2R (wl_rating p1) in let s1 := B2R (wl_uncertainty p1) in let m2 := B2R (wl_rating p2) in let s2 := B2R (wl_uncertainty p2) in
  let kappa := B2R (wl_uncertainty_tolerance cfg) in
  let c := wlc (B2R (wl_beta cfg)) (s1 ^ 2) (s2 ^ 2) in let P1 := wlp m1 m2 c in let P2 := wlp m2 m1 c in
  let new := weng_lin (A := B64A L) p1 p2 o cfg in
  near (wl_rating (fst new)) (m1 + s1 ^ 2 / c * (points o - P1)) (/ 10 ^ 10) /\
  near (wl_uncertainty (fst new)) (s1 * sqrt (Rmax (1 - (s1 / c) ^ 3 * P1 * P2) kappa)) (3 / 10 ^ 12 * s1) /\
  near (wl_rating (snd new)) (m2 + s2 ^ 2 / c * (points (invert o) - P2)) (/ 10 ^ 10) /\
  near (wl_uncertainty (snd new)) (s2 * sqrt (Rmax (1 - (s2 / c) ^ 3 * P2 * P1) kappa)) (3 / 10 ^ 12 * s2).
Proof. exact C101_weng_lin_proof. Qed.
Print Assumptions C101_f64_weng_lin.
(** C101 for Ingo. *)
Theorem C101_f64_ingo : forall (L : Libm) (p1 p2 : IngoRating B64) (o : Outcomes),
  num_in (- 10 ^ 4) (10 ^ 4) (ingo_rating p1) -> num_in (- 10 ^ 4) (10 ^ 4) (ingo_rating p2) ->
  let r1 := B2R (ingo_rating p1) in let r2 := B2R (ingo_rating p2) in
  let e := ingo_expected_score (A := B64A L) p1 p2 in let new := ingo (A := B64A L) p1 p2 o in
  near (fst e) (1 / 2 + (r2 - r1) / 100) (/ 10 ^ 12) /\ near (snd e) (1 / 2 + (r1 - r2) / 100) (/ 10 ^ 12) /\
  near (ingo_rating (fst new)) (ingo_upd 1 r1 (ingo_D (ingo_age p1)) r2 (points o)) (2 / 10 ^ 11) /\
  near (ingo_rating (snd new)) (ingo_upd 1 r2 (ingo_D (ingo_age p2)) r1 (points (invert o))) (2 / 10 ^ 11).
Proof. exact C101_ingo_proof. Qed.
Print Assumptions C101_f64_ingo.
(** C101 for EGF, both ratings (raised by the handicap) up to 3200. *)
Theorem C101_f64_egf : forall (L : Libm) (p1 p2 : EGFRating B64) (o : Outcomes) (cfg : EGFConfig B64),
  ln_accurate L -> ln1p_accurate L -> pow16_accurate L -> exp_accurate L ->
  num_in (-900) 3200 (egf_rating p1) -> num_in (-900) 3200 (egf_rating p2) -> num_in (-20) 20 (egf_handicap cfg) ->
  let r1 := B2R (egf_rating p1) in let r2 := B2R (egf_rating p2) in let H := B2R (egf_handicap cfg) in
  egf_adj (egf_h1 H) r1 <= 3200 -> egf_adj (egf_h2 H) r2 <= 3200 ->
  let E := egf_E (egf_adj (egf_h1 H) r1) (egf_adj (egf_h2 H) r2) in
  let e := egf_expected_score (A := B64A L) p1 p2 cfg in
  let new := egf (A := B64A L) p1 p2 o cfg in
  near (fst e) E (5 / 10 ^ 13) /\ near (snd e) (1 - E) (5 / 10 ^ 13) /\
  near (egf_rating (fst new)) (egf_upd r1 (points o) E) (/ 10 ^ 10) /\
  near (egf_rating (snd new)) (egf_upd r2 (points (invert o)) (1 - E)) (/ 10 ^ 10).
Proof. exact C101_egf_proof. Qed.
Print Assumptions C101_f64_egf.

(** The correctly rounded libm meets the contracts. *)
Example C101_libm_case : pow10_nonneg libm_rounded /\ pow10_accurate libm_rounded /\ ln10_accurate libm_rounded /\
  hypot_accurate libm_rounded /\ exp_accurate libm_rounded /\ ln_accurate libm_rounded /\ ln1p_accurate libm_rounded /\ pow16_accurate libm_rounded.
Proof.
  exact (conj libm_pow_nonneg (conj libm_pow_accurate (conj libm_ln10_accurate (conj libm_hypot_accurate (conj libm_exp_accurate
    (conj libm_ln_accurate (conj libm_ln1p_accurate libm_pow16_accurate))))))).
Qed.
(** Ratings of 1500 and 2000, deviations of 350 and 30, c = 60; importance 50; Weng-Lin ratings 25 and 40,
    uncertainties 8 and 2, beta 4 and tolerance 1; EGF ratings 1500 and 2000 with a handicap of 3. *)
Example C101_case : num_in (- 10 ^ 4) (10 ^ 4) (b64_of_Z 1500) /\ num_in (- 10 ^ 4) (10 ^ 4) (b64_of_Z 2000) /\
  num_in 1 350 (b64_of_Z 350) /\ num_in 1 350 (b64_of_Z 30) /\ num_in 0 1000 (b64_of_Z 60) /\ num_in (- 1000) 1000 (b64_of_Z 50) /\
  num_in (- 500) 500 (b64_of_Z 25) /\ num_in (- 500) 500 (b64_of_Z 40) /\ num_in (/ 1000) 100 (b64_of_Z 8) /\ num_in (/ 1000) 100 (b64_of_Z 2) /\
  num_in 1 100 (b64_of_Z 4) /\ num_in 0 1 (b64_of_Z 1) /\ num_in (-900) 3200 (b64_of_Z 1500) /\ num_in (-900) 3200 (b64_of_Z 2000) /\ num_in (-20) 20 (b64_of_Z 3) /\
  egf_adj (egf_h1 3) 1500 <= 3200 /\ egf_adj (egf_h2 3) 2000 <= 3200.
Proof.
  assert (H : forall z lo hi, (Z.abs z <= 2 ^ 53)%Z -> lo <= IZR z <= hi -> num_in lo hi (b64_of_Z z)).
  { intros z lo hi Hz B. destruct (ext_ofZ z Hz) as [F E]. split; [exact F|]. rewrite <- (ext_fin _ F), E. exact B. }
  repeat match goal with |- num_in _ _ _ => apply H; [vm_compute; discriminate|lra] | |- _ /\ _ => split end;
    unfold egf_adj, egf_h1, egf_h2; destruct (Rlt_dec 3 0); try lra; destruct (Req_EM_T _ 0); lra.
Qed.
