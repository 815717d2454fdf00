(** Property theorems in IEEE-754 double precision, continued: results are
    numbers in range, and results move ratings the right way, in every system
    but Glicko-2, TrueSkill and Weng-Lin (for which see PropsB64c). *)
From Coq Require Import ZArith NArith List Bool Reals Lra Lia.
From Flocq Require Import IEEE754.BinarySingleNaN.
From Verif Require Import Arith B64 SpecB64 ModelLib ModelFifa ModelUscf ModelEgf ModelDwz ModelIngo ModelGlicko ModelSticko
  ModelBoost Spec ProofB64 ProofB64b ProofB64c ProofB64d ProofB64e ProofB64f ProofB64g.
Import ListNotations.
Local Open Scope R_scope.

(** The correctly rounded libm satisfies every assumption made about libm below. *)
Example libm_case_b : pow10_nonneg libm_rounded /\ ln10_sane libm_rounded /\ hypot_nonneg libm_rounded /\ expm1_nonneg libm_rounded /\
  exp_nonneg libm_rounded /\ exp_normal libm_rounded /\ ln_sane libm_rounded /\ ln1p_sane libm_rounded /\ pow16_sane libm_rounded.
Proof.
  exact (conj libm_pow_nonneg (conj libm_ln10 (conj libm_hypot (conj libm_expm1 (conj libm_exp (conj libm_exp_normal (conj libm_ln (conj libm_ln1p libm_pow16)))))))).
Qed.

(** C66: expected scores are finite and in [0,1]. *)
Theorem C66_f64_expected_glicko : forall (L : Libm) (p1 p2 : GlickoRating B64),
  pow10_nonneg L -> ln10_sane L -> hypot_nonneg L ->
  finite (gl_rating p1) -> le_2 1000 (gl_rating p1) -> finite (gl_rating p2) -> le_2 1000 (gl_rating p2) ->
  is_nan (gl_deviation p1) = false -> is_nan (gl_deviation p2) = false ->
  let e := glicko_expected_score (A := B64A L) p1 p2 in in01 (fst e) /\ in01 (snd e).
Proof. exact C66_glicko_proof. Qed.
Print Assumptions C66_f64_expected_glicko.
Theorem C66_f64_expected_sticko : forall (L : Libm) (p1 p2 : StickoRating B64) (cfg : StickoConfig B64),
  pow10_nonneg L -> ln10_sane L -> hypot_nonneg L ->
  finite (st_rating p1) -> le_2 1000 (st_rating p1) -> finite (st_rating p2) -> le_2 1000 (st_rating p2) ->
  finite (st_gamma cfg) -> le_2 1000 (st_gamma cfg) ->
  is_nan (st_deviation p1) = false -> is_nan (st_deviation p2) = false ->
  let e := sticko_expected_score (A := B64A L) p1 p2 cfg in in01 (fst e) /\ in01 (snd e).
Proof. exact C66_sticko_proof. Qed.
Print Assumptions C66_f64_expected_sticko.
Theorem C66_f64_expected_boost : forall (L : Libm) (p1 p2 : GlickoBoostRating B64) (cfg : GlickoBoostConfig B64),
  pow10_nonneg L -> ln10_sane L -> hypot_nonneg L ->
  finite (gb_rating p1) -> le_2 1000 (gb_rating p1) -> finite (gb_rating p2) -> le_2 1000 (gb_rating p2) ->
  finite (gb_eta cfg) -> le_2 1000 (gb_eta cfg) ->
  is_nan (gb_deviation p1) = false -> is_nan (gb_deviation p2) = false ->
  let e := boost_expected_score (A := B64A L) p1 p2 cfg in in01 (fst e) /\ in01 (snd e).
Proof. exact C66_boost_proof. Qed.
Print Assumptions C66_f64_expected_boost.
Theorem C66_f64_expected_egf : forall (L : Libm) (p1 p2 : EGFRating B64) (cfg : EGFConfig B64),
  exp_nonneg L -> ln_sane L ->
  finite (egf_rating p1) -> finite (egf_rating p2) -> finite (egf_handicap cfg) ->
  le64 (b64_of_Z (-900)) (egf_rating p1) -> le64 (b64_of_Z (-900)) (egf_rating p2) -> le64 (Babs (egf_handicap cfg)) (b64_of_Z 9) ->
  (le64 (egf_rating p1) (b64_of_Z 2399) /\ le64 (egf_rating p2) (b64_of_Z 2399) \/
   Beqb (egf_handicap cfg) zero64 = true /\ le64 (egf_rating p1) (b64_of_Z 3299) /\ le64 (egf_rating p2) (b64_of_Z 3299)) ->
  let e := egf_expected_score (A := B64A L) p1 p2 cfg in in01 (fst e) /\ in01 (snd e).
Proof. exact C66_egf_proof. Qed.
Print Assumptions C66_f64_expected_egf.

(** C97: new ratings are finite numbers and new deviations lie in [0, 350]. *)
Theorem C97_f64_glicko : forall (L : Libm) (p1 p2 : GlickoRating B64) (o : Outcomes) (cfg : GlickoConfig B64),
  pow10_nonneg L -> ln10_sane L -> hypot_nonneg L ->
  finite (gl_rating p1) -> le_2 1000 (gl_rating p1) -> finite (gl_rating p2) -> le_2 1000 (gl_rating p2) ->
  is_nan (gl_deviation p1) = false -> is_nan (gl_deviation p2) = false -> is_nan (gl_c cfg) = false ->
  let new := glicko (A := B64A L) p1 p2 o cfg in
  finite (gl_rating (fst new)) /\ finite (gl_rating (snd new)) /\
  (finite (gl_deviation (fst new)) /\ le64 zero64 (gl_deviation (fst new)) /\ le64 (gl_deviation (fst new)) (b64_of_Z 350)) /\
  (finite (gl_deviation (snd new)) /\ le64 zero64 (gl_deviation (snd new)) /\ le64 (gl_deviation (snd new)) (b64_of_Z 350)).
Proof. exact C97_glicko_proof. Qed.
Print Assumptions C97_f64_glicko.
Theorem C97_f64_glicko_period : forall (L : Libm) (p : GlickoRating B64) (rs : list (GlickoRating B64 * Outcomes)) (cfg : GlickoConfig B64),
  pow10_nonneg L -> ln10_sane L -> hypot_nonneg L ->
  finite (gl_rating p) -> le_2 1000 (gl_rating p) -> is_nan (gl_deviation p) = false -> is_nan (gl_c cfg) = false ->
  Forall (fun r => finite (gl_rating (fst r)) /\ le_2 1000 (gl_rating (fst r)) /\ is_nan (gl_deviation (fst r)) = false) rs ->
  (Z.of_nat (length rs) <= 2 ^ 53)%Z ->
  let new := glicko_rating_period (A := B64A L) p rs cfg in
  finite (gl_rating new) /\
  (finite (gl_deviation new) /\ le64 zero64 (gl_deviation new) /\ le64 (gl_deviation new) (b64_of_Z 350)).
Proof. exact C97_glicko_period_proof. Qed.
Print Assumptions C97_f64_glicko_period.
Theorem C97_f64_sticko : forall (L : Libm) (p1 p2 : StickoRating B64) (o : Outcomes) (cfg : StickoConfig B64),
  pow10_nonneg L -> ln10_sane L -> hypot_nonneg L ->
  finite (st_rating p1) -> le_2 400 (st_rating p1) -> finite (st_rating p2) -> le_2 400 (st_rating p2) ->
  finite (st_beta cfg) -> le_2 400 (st_beta cfg) -> finite (st_lambda cfg) -> le_2 400 (st_lambda cfg) ->
  finite (st_gamma cfg) -> le_2 400 (st_gamma cfg) ->
  is_nan (st_deviation p1) = false -> is_nan (st_deviation p2) = false -> is_nan (st_c cfg) = false ->
  let new := sticko (A := B64A L) p1 p2 o cfg in
  finite (st_rating (fst new)) /\ finite (st_rating (snd new)) /\
  (finite (st_deviation (fst new)) /\ le64 zero64 (st_deviation (fst new)) /\ le64 (st_deviation (fst new)) (b64_of_Z 350)) /\
  (finite (st_deviation (snd new)) /\ le64 zero64 (st_deviation (snd new)) /\ le64 (st_deviation (snd new)) (b64_of_Z 350)).
Proof. exact C97_sticko_proof. Qed.
Print Assumptions C97_f64_sticko.
Theorem C97_f64_boost : forall (L : Libm) (p1 p2 : GlickoBoostRating B64) (o : Outcomes) (cfg : GlickoBoostConfig B64),
  pow10_nonneg L -> ln10_sane L ->
  finite (gb_rating p1) -> le_2 1000 (gb_rating p1) -> finite (gb_rating p2) -> le_2 1000 (gb_rating p2) ->
  finite (gb_eta cfg) -> le_2 1000 (gb_eta cfg) ->
  is_nan (gb_deviation p1) = false -> is_nan (gb_deviation p2) = false ->
  let new := glicko_boost (A := B64A L) p1 p2 o cfg in
  finite (gb_rating (fst new)) /\ finite (gb_rating (snd new)) /\
  (finite (gb_deviation (fst new)) /\ le64 zero64 (gb_deviation (fst new)) /\ le64 (gb_deviation (fst new)) (b64_of_Z 350)) /\
  (finite (gb_deviation (snd new)) /\ le64 zero64 (gb_deviation (snd new)) /\ le64 (gb_deviation (snd new)) (b64_of_Z 350)).
Proof. exact C97_boost_proof. Qed.
Print Assumptions C97_f64_boost.
Theorem C97_f64_fifa : forall (L : Libm) (p1 p2 : FifaRating B64) (o : Outcomes) (cfg : FifaConfig B64),
  pow10_nonneg L -> finite (fifa_rating p1) -> finite (fifa_rating p2) -> finite (fifa_importance cfg) ->
  le_2 1000 (fifa_rating p1) -> le_2 1000 (fifa_rating p2) -> le_2 1000 (fifa_importance cfg) ->
  finite (fifa_rating (fst (fifa (A := B64A L) p1 p2 o cfg))) /\ finite (fifa_rating (snd (fifa (A := B64A L) p1 p2 o cfg))).
Proof. exact C97_fifa_proof. Qed.
Print Assumptions C97_f64_fifa.
Theorem C97_f64_uscf : forall (L : Libm) (p1 p2 : USCFRating B64) (o : Outcomes) (cfg : USCFConfig B64),
  pow10_nonneg L -> finite (uscf_rating p1) -> finite (uscf_rating p2) -> le_2 500 (uscf_rating p1) -> le_2 500 (uscf_rating p2) ->
  finite (uscf_rating (fst (uscf (A := B64A L) p1 p2 o cfg))) /\ finite (uscf_rating (snd (uscf (A := B64A L) p1 p2 o cfg))).
Proof. exact C97_uscf_proof. Qed.
Print Assumptions C97_f64_uscf.
Theorem C97_f64_dwz : forall (L : Libm) (p1 p2 : DWZRating B64) (o : Outcomes),
  pow10_nonneg L -> expm1_nonneg L ->
  finite (dwz_rating p1) -> finite (dwz_rating p2) -> le_2 200 (dwz_rating p1) -> le_2 200 (dwz_rating p2) ->
  finite (dwz_rating (fst (dwz (A := B64A L) p1 p2 o))) /\ finite (dwz_rating (snd (dwz (A := B64A L) p1 p2 o))).
Proof. exact C97_dwz_proof. Qed.
Print Assumptions C97_f64_dwz.
Theorem C97_f64_egf : forall (L : Libm) (p1 p2 : EGFRating B64) (o : Outcomes) (cfg : EGFConfig B64),
  exp_nonneg L -> exp_normal L -> ln_sane L -> ln1p_sane L -> pow16_sane L ->
  finite (egf_rating p1) -> finite (egf_rating p2) -> finite (egf_handicap cfg) ->
  le64 (b64_of_Z (-900)) (egf_rating p1) -> le64 (b64_of_Z (-900)) (egf_rating p2) -> le64 (Babs (egf_handicap cfg)) (b64_of_Z 9) ->
  (le64 (egf_rating p1) (b64_of_Z 2399) /\ le64 (egf_rating p2) (b64_of_Z 2399) \/
   Beqb (egf_handicap cfg) zero64 = true /\ le64 (egf_rating p1) (b64_of_Z 3299) /\ le64 (egf_rating p2) (b64_of_Z 3299)) ->
  let new := egf (A := B64A L) p1 p2 o cfg in
  finite (egf_rating (fst new)) /\ finite (egf_rating (snd new)) /\
  (o = WIN -> le64 (egf_rating p1) (egf_rating (fst new))) /\ (o = LOSS -> le64 (egf_rating p2) (egf_rating (snd new))).
Proof. exact C97_egf_proof. Qed.
Print Assumptions C97_f64_egf.
Theorem C97_f64_ingo : forall (L : Libm) (p1 p2 : IngoRating B64) (o : Outcomes),
  finite (ingo_rating p1) -> finite (ingo_rating p2) -> le_2 1000 (ingo_rating p1) -> le_2 1000 (ingo_rating p2) ->
  finite (ingo_rating (fst (ingo (A := B64A L) p1 p2 o))) /\ finite (ingo_rating (snd (ingo (A := B64A L) p1 p2 o))).
Proof. exact C97_ingo_proof. Qed.
Print Assumptions C97_f64_ingo.

(** C98: winners do not lose rating points, losers do not gain any. *)
Theorem C98_f64_glicko : forall (L : Libm) (p1 p2 : GlickoRating B64) (cfg : GlickoConfig B64),
  pow10_nonneg L -> ln10_sane L -> hypot_nonneg L ->
  finite (gl_rating p1) -> le_2 1000 (gl_rating p1) -> finite (gl_rating p2) -> le_2 1000 (gl_rating p2) ->
  is_nan (gl_deviation p1) = false -> is_nan (gl_deviation p2) = false -> is_nan (gl_c cfg) = false ->
  let one o := gl_rating (fst (glicko (A := B64A L) p1 p2 o cfg)) in
  let two o := gl_rating (snd (glicko (A := B64A L) p1 p2 o cfg)) in
  le64 (gl_rating p1) (one WIN) /\ le64 (one LOSS) (gl_rating p1) /\
  le64 (two WIN) (gl_rating p2) /\ le64 (gl_rating p2) (two LOSS) /\
  le64 (one LOSS) (one DRAW) /\ le64 (one DRAW) (one WIN) /\
  le64 (two WIN) (two DRAW) /\ le64 (two DRAW) (two LOSS).
Proof. exact C98_glicko_proof. Qed.
Print Assumptions C98_f64_glicko.
Theorem C98_f64_glicko_period : forall (L : Libm) (p : GlickoRating B64) (rs : list (GlickoRating B64 * Outcomes)) (cfg : GlickoConfig B64),
  pow10_nonneg L -> ln10_sane L -> hypot_nonneg L ->
  finite (gl_rating p) -> le_2 1000 (gl_rating p) -> is_nan (gl_deviation p) = false -> is_nan (gl_c cfg) = false ->
  Forall (fun r => finite (gl_rating (fst r)) /\ le_2 1000 (gl_rating (fst r)) /\ is_nan (gl_deviation (fst r)) = false) rs ->
  (Z.of_nat (length rs) <= 2 ^ 53)%Z ->
  let new := glicko_rating_period (A := B64A L) p rs cfg in
  (Forall (fun r => snd r = WIN) rs -> le64 (gl_rating p) (gl_rating new)) /\
  (Forall (fun r => snd r = LOSS) rs -> le64 (gl_rating new) (gl_rating p)).
Proof. exact C98_glicko_period_proof. Qed.
Print Assumptions C98_f64_glicko_period.
Theorem C98_f64_boost : forall (L : Libm) (p1 p2 : GlickoBoostRating B64) (o : Outcomes) (cfg : GlickoBoostConfig B64),
  pow10_nonneg L -> ln10_sane L ->
  finite (gb_rating p1) -> le_2 1000 (gb_rating p1) -> finite (gb_rating p2) -> le_2 1000 (gb_rating p2) ->
  finite (gb_eta cfg) -> le_2 1000 (gb_eta cfg) ->
  is_nan (gb_deviation p1) = false -> is_nan (gb_deviation p2) = false ->
  let new := glicko_boost (A := B64A L) p1 p2 o cfg in
  (o = WIN -> le64 (gb_rating p1) (gb_rating (fst new)) /\ le64 (gb_rating (snd new)) (gb_rating p2)) /\
  (o = LOSS -> le64 (gb_rating (fst new)) (gb_rating p1) /\ le64 (gb_rating p2) (gb_rating (snd new))).
Proof. exact C98_boost_proof. Qed.
Print Assumptions C98_f64_boost.
Theorem C98_f64_sticko : forall (L : Libm) (p1 p2 : StickoRating B64) (cfg : StickoConfig B64),
  pow10_nonneg L -> ln10_sane L -> hypot_nonneg L ->
  finite (st_rating p1) -> le_2 400 (st_rating p1) -> finite (st_rating p2) -> le_2 400 (st_rating p2) ->
  finite (st_beta cfg) -> le_2 400 (st_beta cfg) -> finite (st_lambda cfg) -> le_2 400 (st_lambda cfg) ->
  finite (st_gamma cfg) -> le_2 400 (st_gamma cfg) ->
  is_nan (st_deviation p1) = false -> is_nan (st_deviation p2) = false -> is_nan (st_c cfg) = false ->
  le64 zero64 (st_beta cfg) -> le64 zero64 (st_lambda cfg) ->
  let one o := st_rating (fst (sticko (A := B64A L) p1 p2 o cfg)) in
  let two o := st_rating (snd (sticko (A := B64A L) p1 p2 o cfg)) in
  let plain := Beqb (st_lambda cfg) zero64 = true in
  (plain \/ le64 (st_rating p1) (st_rating p2) -> le64 (st_rating p1) (one WIN)) /\
  (plain \/ le64 (st_rating p2) (st_rating p1) -> le64 (st_rating p2) (two LOSS)) /\
  (Beqb (st_beta cfg) zero64 = true ->
   (plain \/ le64 (st_rating p1) (st_rating p2) -> le64 (two WIN) (st_rating p2)) /\
   (plain \/ le64 (st_rating p2) (st_rating p1) -> le64 (one LOSS) (st_rating p1))).
Proof. exact C98_sticko_proof. Qed.
Print Assumptions C98_f64_sticko.
Theorem C98_f64_fifa : forall (L : Libm) (p1 p2 : FifaRating B64) (cfg : FifaConfig B64),
  pow10_nonneg L -> finite (fifa_rating p1) -> finite (fifa_rating p2) -> finite (fifa_importance cfg) ->
  le64 zero64 (fifa_importance cfg) -> fifa_penalties cfg = false ->
  let one o := fifa_rating (fst (fifa (A := B64A L) p1 p2 o cfg)) in
  let two o := fifa_rating (snd (fifa (A := B64A L) p1 p2 o cfg)) in
  le64 (fifa_rating p1) (one WIN) /\ le64 (one LOSS) (fifa_rating p1) /\
  le64 (two WIN) (fifa_rating p2) /\ le64 (fifa_rating p2) (two LOSS).
Proof. exact C98_fifa_proof. Qed.
Print Assumptions C98_f64_fifa.
Theorem C98_f64_uscf : forall (L : Libm) (p1 p2 : USCFRating B64) (cfg : USCFConfig B64),
  pow10_nonneg L -> finite (uscf_rating p1) -> finite (uscf_rating p2) -> le_2 500 (uscf_rating p1) -> le_2 500 (uscf_rating p2) ->
  le64 (b64_of_Z 100) (uscf_rating p1) -> le64 (b64_of_Z 100) (uscf_rating p2) ->
  let one o := uscf_rating (fst (uscf (A := B64A L) p1 p2 o cfg)) in
  let two o := uscf_rating (snd (uscf (A := B64A L) p1 p2 o cfg)) in
  ((8 < uscf_games p1)%N -> le64 (uscf_rating p1) (one WIN) /\ le64 (one LOSS) (uscf_rating p1)) /\
  ((8 < uscf_games p2)%N -> le64 (two WIN) (uscf_rating p2) /\ le64 (uscf_rating p2) (two LOSS)).
Proof. exact C98_uscf_proof. Qed.
Print Assumptions C98_f64_uscf.
Theorem C98_f64_dwz : forall (L : Libm) (p1 p2 : DWZRating B64),
  pow10_nonneg L -> expm1_nonneg L ->
  finite (dwz_rating p1) -> finite (dwz_rating p2) -> le_2 200 (dwz_rating p1) -> le_2 200 (dwz_rating p2) ->
  let one o := dwz_rating (fst (dwz (A := B64A L) p1 p2 o)) in
  let two o := dwz_rating (snd (dwz (A := B64A L) p1 p2 o)) in
  le64 (dwz_rating p1) (one WIN) /\ le64 (one LOSS) (dwz_rating p1) /\
  le64 (two WIN) (dwz_rating p2) /\ le64 (dwz_rating p2) (two LOSS).
Proof. exact C98_dwz_proof. Qed.
Print Assumptions C98_f64_dwz.

(** Ordinary values meet all the size conditions; infinite deviations are allowed too. *)
Example C97_case :
  (finite (b64_of_Z 1500) /\ le_2 200 (b64_of_Z 1500) /\ le_2 400 (b64_of_Z 1500) /\ le_2 500 (b64_of_Z 1500) /\ le_2 1000 (b64_of_Z 1500)) /\
  (finite (b64_of_Z (-700)) /\ le_2 200 (b64_of_Z (-700))) /\
  is_nan (b64_of_Z 350) = false /\ is_nan (B754_infinity false : B64) = false /\
  (le64 (b64_of_Z (-900)) (b64_of_Z 1500) /\ le64 (b64_of_Z 1500) (b64_of_Z 2399) /\ le64 (Babs (b64_of_Z (-4))) (b64_of_Z 9)) /\
  (Beqb zero64 zero64 = true /\ le64 (b64_of_Z 2800) (b64_of_Z 3299)).
Proof. repeat split; reflexivity. Qed.
Example C98_case :
  le64 zero64 (b64_of_Z 10) /\ le64 (b64_of_Z 100) (b64_of_Z 1500) /\ (8 < 30)%N /\
  (Beqb (b64_of_Z 0) zero64 = true \/ le64 (b64_of_Z 1500) (b64_of_Z 1600)).
Proof. repeat split; try reflexivity. left. reflexivity. Qed.
