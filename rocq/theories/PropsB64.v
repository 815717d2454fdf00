(** Property theorems in IEEE-754 double precision: every rounding error,
    overflow, infinity and NaN included. *)
From Coq Require Import ZArith NArith List Bool Reals Lra Lia.
From Flocq Require Import IEEE754.BinarySingleNaN.
From Verif Require Import Arith B64 SpecB64 ModelLib ModelElo ModelFifa ModelUscf ModelEgf ModelDwz ModelGlicko ModelSticko
  ModelBoost ModelGlicko2 ModelWengLin Spec ProofB64 ProofB64b ProofB64c.
Import ListNotations.
Local Open Scope R_scope.

(** The correctly rounded libm satisfies every assumption made about libm below. *)
Example libm_case : pow10_nonneg libm_rounded /\ pow10_unit libm_rounded /\ pow10_accurate libm_rounded
  /\ exp_overflows libm_rounded /\ exp_normal libm_rounded.
Proof.
  exact (conj libm_pow_nonneg (conj libm_pow_unit (conj libm_pow_accurate (conj libm_exp_overflows libm_exp_normal)))).
Qed.

(** C66: expected scores are finite and in [0,1]. *)
Theorem C66_f64_expected_elo : forall (L : Libm) (p1 p2 : EloRating B64),
  pow10_nonneg L -> finite (elo_rating p1) -> finite (elo_rating p2) ->
  let e := elo_expected_score (A := B64A L) p1 p2 in in01 (fst e) /\ in01 (snd e).
Proof. exact C66_elo_proof. Qed.
Print Assumptions C66_f64_expected_elo.
Theorem C66_f64_expected_fifa : forall (L : Libm) (p1 p2 : FifaRating B64),
  pow10_nonneg L -> finite (fifa_rating p1) -> finite (fifa_rating p2) ->
  let e := fifa_expected_score (A := B64A L) p1 p2 in in01 (fst e) /\ in01 (snd e).
Proof. exact C66_fifa_proof. Qed.
Print Assumptions C66_f64_expected_fifa.
Theorem C66_f64_expected_uscf : forall (L : Libm) (p1 p2 : USCFRating B64),
  pow10_nonneg L -> finite (uscf_rating p1) -> finite (uscf_rating p2) ->
  let e := uscf_expected_score (A := B64A L) p1 p2 in in01 (fst e) /\ in01 (snd e).
Proof. exact C66_uscf_proof. Qed.
Print Assumptions C66_f64_expected_uscf.
Theorem C66_f64_expected_dwz : forall (L : Libm) (p1 p2 : DWZRating B64),
  pow10_nonneg L -> finite (dwz_rating p1) -> finite (dwz_rating p2) ->
  let e := dwz_expected_score (A := B64A L) p1 p2 in in01 (fst e) /\ in01 (snd e).
Proof. exact C66_dwz_proof. Qed.
Print Assumptions C66_f64_expected_dwz.
Theorem C66_f64_expected_period : forall (L : Libm), pow10_nonneg L ->
  (forall p os, finite (elo_rating p) -> Forall (fun o => finite (elo_rating o)) os ->
     Forall in01 (elo_expected_score_rating_period (A := B64A L) p os)) /\
  (forall p os, finite (fifa_rating p) -> Forall (fun o => finite (fifa_rating o)) os ->
     Forall in01 (fifa_expected_score_rating_period (A := B64A L) p os)) /\
  (forall p os, finite (uscf_rating p) -> Forall (fun o => finite (uscf_rating o)) os ->
     Forall in01 (uscf_expected_score_rating_period (A := B64A L) p os)) /\
  (forall p os, finite (dwz_rating p) -> Forall (fun o => finite (dwz_rating o)) os ->
     Forall in01 (dwz_expected_score_rating_period (A := B64A L) p os)).
Proof. exact C66_period_proof. Qed.
Print Assumptions C66_f64_expected_period.
Example C66_case : finite (b64 1 1023) /\ finite (b64_of_Z (-1500)). Proof. split; reflexivity. Qed.

(** C67: direction of Elo updates. *)
Theorem C67_f64_elo_direction : forall (L : Libm) (p1 p2 : EloRating B64) (cfg : EloConfig B64),
  pow10_nonneg L -> finite (elo_rating p1) -> finite (elo_rating p2) -> finite (elo_k cfg) -> le64 zero64 (elo_k cfg) ->
  let one o := elo_rating (fst (elo (A := B64A L) p1 p2 o cfg)) in
  let two o := elo_rating (snd (elo (A := B64A L) p1 p2 o cfg)) in
  le64 (elo_rating p1) (one WIN) /\ le64 (one LOSS) (elo_rating p1) /\
  le64 (two WIN) (elo_rating p2) /\ le64 (elo_rating p2) (two LOSS) /\
  le64 (one LOSS) (one DRAW) /\ le64 (one DRAW) (one WIN) /\
  le64 (two WIN) (two DRAW) /\ le64 (two DRAW) (two LOSS).
Proof. exact C67_elo_proof. Qed.
Print Assumptions C67_f64_elo_direction.
Theorem C67_f64_elo_draw : forall (L : Libm) (p1 p2 : EloRating B64) (cfg : EloConfig B64),
  pow10_nonneg L -> pow10_unit L ->
  finite (elo_rating p1) -> finite (elo_rating p2) -> finite (elo_k cfg) -> le64 zero64 (elo_k cfg) ->
  let new := elo (A := B64A L) p1 p2 DRAW cfg in
  (le64 (elo_rating p1) (elo_rating p2) ->
     le64 (elo_rating p1) (elo_rating (fst new)) /\ le64 (elo_rating (snd new)) (elo_rating p2)) /\
  (le64 (elo_rating p2) (elo_rating p1) ->
     le64 (elo_rating (fst new)) (elo_rating p1) /\ le64 (elo_rating p2) (elo_rating (snd new))).
Proof. exact C67_draw_proof. Qed.
Print Assumptions C67_f64_elo_draw.
Theorem C67_f64_elo_finite : forall (L : Libm) (p1 p2 : EloRating B64) (o : Outcomes) (cfg : EloConfig B64),
  pow10_nonneg L -> finite (elo_rating p1) -> finite (elo_rating p2) -> finite (elo_k cfg) ->
  le64 (Babs (elo_rating p1)) (b64 1 1000) -> le64 (Babs (elo_rating p2)) (b64 1 1000) -> le64 (Babs (elo_k cfg)) (b64 1 1000) ->
  finite (elo_rating (fst (elo (A := B64A L) p1 p2 o cfg))) /\ finite (elo_rating (snd (elo (A := B64A L) p1 p2 o cfg))).
Proof. exact C67_finite_proof. Qed.
Print Assumptions C67_f64_elo_finite.
Example C67_case : finite (b64_of_Z 32) /\ le64 zero64 (b64_of_Z 32) /\ le64 (Babs (b64_of_Z (-1200))) (b64 1 1000)
  /\ le64 (b64_of_Z 1000) (b64_of_Z 1200).
Proof. repeat split; reflexivity. Qed.

(** C68: floors and caps for every f64. *)
Theorem C68_f64_uscf_floor : forall (L : Libm) (p1 p2 : USCFRating B64) (o : Outcomes) (cfg : USCFConfig B64),
  le64 (b64_of_Z 100) (uscf_rating (fst (uscf (A := B64A L) p1 p2 o cfg))) /\
  le64 (b64_of_Z 100) (uscf_rating (snd (uscf (A := B64A L) p1 p2 o cfg))).
Proof. exact C68_uscf_proof. Qed.
Print Assumptions C68_f64_uscf_floor.
Theorem C68_f64_egf_floor : forall (L : Libm) (p1 p2 : EGFRating B64) (o : Outcomes) (cfg : EGFConfig B64),
  le64 (b64_of_Z (-900)) (egf_rating (fst (egf (A := B64A L) p1 p2 o cfg))) /\
  le64 (b64_of_Z (-900)) (egf_rating (snd (egf (A := B64A L) p1 p2 o cfg))).
Proof. exact C68_egf_proof. Qed.
Print Assumptions C68_f64_egf_floor.
Theorem C68_f64_decay_cap : forall (L : Libm),
  (forall p cfg, le64 (gl_deviation (glicko_decay_deviation (A := B64A L) p cfg)) (b64_of_Z 350)) /\
  (forall p cfg, le64 (st_deviation (sticko_decay_deviation (A := B64A L) p cfg)) (b64_of_Z 350)) /\
  (forall p cfg, le64 (gb_deviation (boost_decay_deviation (A := B64A L) p cfg)) (b64_of_Z 350)) /\
  (forall p, le64 (g2_deviation (glicko2_decay_deviation (A := B64A L) p)) (b64_of_Z 350)).
Proof. exact C68_decay_proof. Qed.
Print Assumptions C68_f64_decay_cap.
Theorem C68_f64_games_cap : forall (L : Libm),
  (forall p1 p2 o cfg, le64 (st_deviation (fst (sticko (A := B64A L) p1 p2 o cfg))) (b64_of_Z 350) /\
                       le64 (st_deviation (snd (sticko (A := B64A L) p1 p2 o cfg))) (b64_of_Z 350)) /\
  (forall p rs cfg, le64 (st_deviation (sticko_rating_period (A := B64A L) p rs cfg)) (b64_of_Z 350)) /\
  (forall p1 p2 o cfg, le64 (gb_deviation (fst (glicko_boost (A := B64A L) p1 p2 o cfg))) (b64_of_Z 350) /\
                       le64 (gb_deviation (snd (glicko_boost (A := B64A L) p1 p2 o cfg))) (b64_of_Z 350)) /\
  (forall p rs cfg, le64 (gb_deviation (glicko_boost_rating_period (A := B64A L) p rs cfg)) (b64_of_Z 350)).
Proof. exact C68_games_proof. Qed.
Print Assumptions C68_f64_games_cap.
Example C68_case : le64 (b64_of_Z 100) (uscf_rating (fst (uscf (A := B64A libm_rounded)
  (mkUscf B754_nan 30) (mkUscf (B754_infinity false) 30) WIN (mkUscfConfig B754_nan)))).
Proof. exact (proj1 (C68_uscf_proof _ _ _ _ _)). Qed.

(** C69: FIFA knock-out protection for every f64. *)
Theorem C69_f64_knockout : forall (L : Libm) (p1 p2 : FifaRating B64) (o : Outcomes) (cfg : FifaConfig B64),
  fifa_knockout cfg = true ->
  not_below (fifa_rating (fst (fifa (A := B64A L) p1 p2 o cfg))) (fifa_rating p1) /\
  not_below (fifa_rating (snd (fifa (A := B64A L) p1 p2 o cfg))) (fifa_rating p2).
Proof. exact C69_game_proof. Qed.
Print Assumptions C69_f64_knockout.
Theorem C69_f64_knockout_period : forall (L : Libm) (p : FifaRating B64) (rs : list (FifaRating B64 * Outcomes * FifaConfig B64)),
  Forall (fun r => fifa_knockout (snd r) = true) rs ->
  not_below (fifa_rating (fifa_rating_period (A := B64A L) p rs)) (fifa_rating p).
Proof. exact C69_period_proof. Qed.
Print Assumptions C69_f64_knockout_period.
Example C69_case : Forall (fun r : FifaRating B64 * Outcomes * FifaConfig B64 => fifa_knockout (snd r) = true)
  [(mkFifa (b64_of_Z 1200), LOSS, mkFifaConfig (b64_of_Z 50) true false)].
Proof. repeat constructor. Qed.

(** C47: Weng-Lin expected scores can overflow to NaN, but not for ratings up to 800 beta. *)
Theorem C47_wl_f64_refuted : forall L : Libm, exp_overflows L ->
  exists p1 p2 : WengLinRating B64,
    finite (wl_rating p1) /\ finite (wl_uncertainty p1) /\ finite (wl_rating p2) /\ finite (wl_uncertainty p2) /\
    wl_uncertainty p1 = wl_uncertainty (wl_new (A := B64A L)) /\ wl_uncertainty p2 = wl_uncertainty (wl_new (A := B64A L)) /\
    let e := wl_expected_score (A := B64A L) p1 p2 (wl_config_new (A := B64A L)) in
    is_nan (fst e) = true /\ is_nan (snd e) = true.
Proof. exact C47_refuted_proof. Qed.
Print Assumptions C47_wl_f64_refuted.
Theorem C47_wl_f64_partial : forall (L : Libm) (p1 p2 : WengLinRating B64) (cfg : WengLinConfig B64),
  exp_normal L ->
  finite (wl_rating p1) -> finite (wl_rating p2) -> finite (wl_uncertainty p1) -> finite (wl_uncertainty p2) -> finite (wl_beta cfg) ->
  let b := B2R (wl_beta cfg) in
  / 2 ^ 500 <= b <= 2 ^ 500 ->
  0 <= B2R (wl_uncertainty p1) <= 2 ^ 500 -> 0 <= B2R (wl_uncertainty p2) <= 2 ^ 500 ->
  Rabs (B2R (wl_rating p1)) <= 800 * b -> Rabs (B2R (wl_rating p2)) <= 800 * b ->
  let e := wl_expected_score (A := B64A L) p1 p2 cfg in in01 (fst e) /\ in01 (snd e).
Proof. exact C47_partial_proof. Qed.
Print Assumptions C47_wl_f64_partial.
Example C47_case : let b := B2R (b64_of_Z 4) in finite (b64_of_Z 4) /\ / 2 ^ 500 <= b <= 2 ^ 500 /\
  0 <= B2R (b64_of_Z 8) <= 2 ^ 500 /\ Rabs (B2R (b64_of_Z 3000)) <= 800 * b.
Proof.
  cbv zeta. rewrite !B2R_ofZ by (vm_compute; discriminate).
  assert (H : 8 <= 2 ^ 500) by (rewrite (pow_IZR 2 500); apply IZR_le; vm_compute; discriminate).
  split; [reflexivity|]. split; [split; [|lra]|split; [lra|rewrite Rabs_pos_eq; lra]].
  apply Rle_trans with (/ 1); [apply Rinv_le_contravar; lra|lra].
Qed.

(** C82: accuracy of Elo. *)
Theorem C82_f64_elo_accuracy : forall (L : Libm) (p1 p2 : EloRating B64) (o : Outcomes) (cfg : EloConfig B64),
  pow10_accurate L -> finite (elo_rating p1) -> finite (elo_rating p2) -> finite (elo_k cfg) ->
  let r1 := B2R (elo_rating p1) in let r2 := B2R (elo_rating p2) in let k := B2R (elo_k cfg) in
  Rabs r1 <= 10000 -> Rabs r2 <= 10000 -> Rabs k <= 1000 ->
  let E := / (1 + Rpower 10 ((r2 - r1) / 400)) in
  let e := elo_expected_score (A := B64A L) p1 p2 in let new := elo (A := B64A L) p1 p2 o cfg in
  (Rabs (B2R (fst e) - E) <= / 10 ^ 12 /\ Rabs (B2R (snd e) - (1 - E)) <= / 10 ^ 12) /\
  (finite (elo_rating (fst new)) /\ Rabs (B2R (elo_rating (fst new)) - (r1 + k * (points o - E))) <= / 10 ^ 9) /\
  (finite (elo_rating (snd new)) /\ Rabs (B2R (elo_rating (snd new)) - (r2 + k * ((1 - points o) - (1 - E)))) <= / 10 ^ 9).
Proof. exact C82_elo_proof. Qed.
Print Assumptions C82_f64_elo_accuracy.
Example C82_case : Rabs (B2R (b64_of_Z 2800)) <= 10000 /\ Rabs (B2R (b64_of_Z 32)) <= 1000.
Proof. rewrite !B2R_ofZ by (vm_compute; discriminate). rewrite !Rabs_pos_eq; lra. Qed.
