(** Property theorems in IEEE-754 double precision, continued: Weng-Lin games,
    rating periods, two teams and any number of teams. *)
From Coq Require Import ZArith NArith List Bool Reals Lra Lia.
From Flocq Require Import IEEE754.BinarySingleNaN.
From Verif Require Import Arith B64 SpecB64 ModelLib ModelWengLin Spec ProofB64 ProofB64b ProofB64h.
Import ListNotations.
Local Open Scope R_scope.

(** C66: expected scores of teams are finite and in [0,1]. *)
Theorem C66_f64_expected_wl_teams : forall (L : Libm) (cfg : WengLinConfig B64) (t1 t2 : list (WengLinRating B64)),
  exp_normal L -> num_in (/ 2 ^ 100) (2 ^ 100) (wl_beta cfg) ->
  let fit t := (Z.of_nat (length t) <= 2 ^ 53)%Z /\ Forall (fun p => finite (wl_rating p) /\ INR (length t) * Rabs (B2R (wl_rating p)) <= 400 * B2R (wl_beta cfg) /\
                                num_in (/ 2 ^ 100) (2 ^ 100) (wl_uncertainty p)) t in
  fit t1 -> fit t2 -> let e := wl_expected_score_two_teams (A := B64A L) t1 t2 cfg in in01 (fst e) /\ in01 (snd e).
Proof. exact C66_wl_teams_proof. Qed.
Print Assumptions C66_f64_expected_wl_teams.
Theorem C66_f64_expected_wl_multi : forall (L : Libm) (cfg : WengLinConfig B64) (ts : list (list (WengLinRating B64))),
  exp_normal L -> num_in (/ 2 ^ 100) (2 ^ 100) (wl_beta cfg) ->
  let fit t := (Z.of_nat (length t) <= 2 ^ 53)%Z /\ Forall (fun p => finite (wl_rating p) /\ INR (length t) * Rabs (B2R (wl_rating p)) <= 400 * B2R (wl_beta cfg) /\
                                num_in (/ 2 ^ 100) (2 ^ 100) (wl_uncertainty p)) t in
  (Z.of_nat (length ts) <= 2 ^ 53)%Z -> Forall fit ts -> Forall in01 (wl_expected_score_multi_team (A := B64A L) ts cfg).
Proof. exact C66_wl_multi_proof. Qed.
Print Assumptions C66_f64_expected_wl_multi.

(** C97: new ratings are finite numbers; uncertainties stay positive and do not grow. *)
Theorem C97_f64_weng_lin : forall (L : Libm) (p1 p2 : WengLinRating B64) (cfg : WengLinConfig B64) (o : Outcomes),
  exp_normal L -> num_in (/ 2 ^ 100) (2 ^ 100) (wl_beta cfg) -> num_in (/ 2 ^ 200) 1 (wl_uncertainty_tolerance cfg) ->
  num_in (/ 2 ^ 100) (2 ^ 100) (wl_uncertainty p1) -> num_in (/ 2 ^ 100) (2 ^ 100) (wl_uncertainty p2) ->
  finite (wl_rating p1) -> finite (wl_rating p2) ->
  Rabs (B2R (wl_rating p1)) <= 800 * B2R (wl_beta cfg) -> Rabs (B2R (wl_rating p2)) <= 800 * B2R (wl_beta cfg) ->
  let n := weng_lin (A := B64A L) p1 p2 o cfg in
  (finite (wl_rating (fst n)) /\ finite (wl_uncertainty (fst n)) /\ 0 < B2R (wl_uncertainty (fst n)) <= B2R (wl_uncertainty p1)) /\
  (finite (wl_rating (snd n)) /\ finite (wl_uncertainty (snd n)) /\ 0 < B2R (wl_uncertainty (snd n)) <= B2R (wl_uncertainty p2)).
Proof. exact C97_weng_lin_proof. Qed.
Print Assumptions C97_f64_weng_lin.
Theorem C97_f64_weng_lin_period : forall (L : Libm) (p : WengLinRating B64) (rs : list (WengLinRating B64 * Outcomes)) (cfg : WengLinConfig B64),
  exp_normal L -> num_in (/ 2 ^ 100) (2 ^ 100) (wl_beta cfg) -> num_in (/ 2 ^ 200) 1 (wl_uncertainty_tolerance cfg) ->
  num_in (/ 2 ^ 100) (2 ^ 100) (wl_uncertainty p) -> B2R (wl_uncertainty p) <= 2 * B2R (wl_beta cfg) -> finite (wl_rating p) ->
  Forall (fun x => finite (wl_rating (fst x)) /\ Rabs (B2R (wl_rating (fst x))) <= 800 * B2R (wl_beta cfg) /\ num_in 0 (2 ^ 100) (wl_uncertainty (fst x))) rs ->
  Rabs (B2R (wl_rating p)) + 4 * INR (length rs) * B2R (wl_beta cfg) <= 800 * B2R (wl_beta cfg) ->
  let n := weng_lin_rating_period (A := B64A L) p rs cfg in
  finite (wl_rating n) /\ finite (wl_uncertainty n) /\ 0 < B2R (wl_uncertainty n) <= B2R (wl_uncertainty p).
Proof. exact C97_weng_lin_period_proof. Qed.
Print Assumptions C97_f64_weng_lin_period.
Theorem C97_f64_weng_lin_teams : forall (L : Libm) (cfg : WengLinConfig B64) (t1 t2 : list (WengLinRating B64)) (o : Outcomes),
  exp_normal L -> num_in (/ 2 ^ 100) (2 ^ 100) (wl_beta cfg) -> num_in (/ 2 ^ 200) 1 (wl_uncertainty_tolerance cfg) ->
  let fit t := (Z.of_nat (length t) <= 2 ^ 53)%Z /\ Forall (fun p => finite (wl_rating p) /\ INR (length t) * Rabs (B2R (wl_rating p)) <= 400 * B2R (wl_beta cfg) /\
                                num_in (/ 2 ^ 100) (2 ^ 100) (wl_uncertainty p)) t in
  fit t1 -> fit t2 ->
  let ok p p' := finite (wl_rating p') /\ finite (wl_uncertainty p') /\ 0 < B2R (wl_uncertainty p') <= B2R (wl_uncertainty p) in
  let n := weng_lin_two_teams (A := B64A L) t1 t2 o cfg in
  Forall2 ok t1 (fst n) /\ Forall2 ok t2 (snd n).
Proof. exact C97_weng_lin_teams_proof. Qed.
Print Assumptions C97_f64_weng_lin_teams.
Theorem C97_f64_weng_lin_multi : forall (L : Libm) (cfg : WengLinConfig B64) (ts : list (list (WengLinRating B64) * MultiTeamOutcome)),
  exp_normal L -> num_in (/ 2 ^ 100) (2 ^ 100) (wl_beta cfg) -> num_in (/ 2 ^ 200) 1 (wl_uncertainty_tolerance cfg) ->
  let fit t := (Z.of_nat (length t) <= 2 ^ 53)%Z /\ Forall (fun p => finite (wl_rating p) /\ INR (length t) * Rabs (B2R (wl_rating p)) <= 400 * B2R (wl_beta cfg) /\
                                num_in (/ 2 ^ 100) (2 ^ 100) (wl_uncertainty p)) t in
  (Z.of_nat (length ts) <= 2 ^ 53)%Z -> Forall (fun t => fit (fst t)) ts ->
  let ok p p' := finite (wl_rating p') /\ finite (wl_uncertainty p') /\ 0 < B2R (wl_uncertainty p') <= B2R (wl_uncertainty p) in
  Forall2 (fun t n => Forall2 ok (fst t) n) ts (weng_lin_multi_team (A := B64A L) ts cfg).
Proof. exact C97_weng_lin_multi_proof. Qed.
Print Assumptions C97_f64_weng_lin_multi.

(** C98: winners do not lose rating points, losers do not gain any. *)
Theorem C98_f64_weng_lin : forall (L : Libm) (p1 p2 : WengLinRating B64) (cfg : WengLinConfig B64),
  exp_normal L -> num_in (/ 2 ^ 100) (2 ^ 100) (wl_beta cfg) -> num_in (/ 2 ^ 200) 1 (wl_uncertainty_tolerance cfg) ->
  num_in (/ 2 ^ 100) (2 ^ 100) (wl_uncertainty p1) -> num_in (/ 2 ^ 100) (2 ^ 100) (wl_uncertainty p2) ->
  finite (wl_rating p1) -> finite (wl_rating p2) ->
  Rabs (B2R (wl_rating p1)) <= 800 * B2R (wl_beta cfg) -> Rabs (B2R (wl_rating p2)) <= 800 * B2R (wl_beta cfg) ->
  let one o := wl_rating (fst (weng_lin (A := B64A L) p1 p2 o cfg)) in let two o := wl_rating (snd (weng_lin (A := B64A L) p1 p2 o cfg)) in
  le64 (wl_rating p1) (one WIN) /\ le64 (two WIN) (wl_rating p2) /\ le64 (one LOSS) (wl_rating p1) /\ le64 (wl_rating p2) (two LOSS) /\
  le64 (one DRAW) (one WIN) /\ le64 (one LOSS) (one DRAW) /\ le64 (two WIN) (two DRAW) /\ le64 (two DRAW) (two LOSS).
Proof. exact C98_weng_lin_proof. Qed.
Print Assumptions C98_f64_weng_lin.
Theorem C98_f64_weng_lin_period : forall (L : Libm) (p : WengLinRating B64) (rs : list (WengLinRating B64 * Outcomes)) (cfg : WengLinConfig B64),
  exp_normal L -> num_in (/ 2 ^ 100) (2 ^ 100) (wl_beta cfg) -> num_in (/ 2 ^ 200) 1 (wl_uncertainty_tolerance cfg) ->
  num_in (/ 2 ^ 100) (2 ^ 100) (wl_uncertainty p) -> B2R (wl_uncertainty p) <= 2 * B2R (wl_beta cfg) -> finite (wl_rating p) ->
  Forall (fun x => finite (wl_rating (fst x)) /\ Rabs (B2R (wl_rating (fst x))) <= 800 * B2R (wl_beta cfg) /\ num_in 0 (2 ^ 100) (wl_uncertainty (fst x))) rs ->
  Rabs (B2R (wl_rating p)) + 4 * INR (length rs) * B2R (wl_beta cfg) <= 800 * B2R (wl_beta cfg) ->
  let n := weng_lin_rating_period (A := B64A L) p rs cfg in
  (Forall (fun x => snd x = WIN) rs -> le64 (wl_rating p) (wl_rating n)) /\ (Forall (fun x => snd x = LOSS) rs -> le64 (wl_rating n) (wl_rating p)).
Proof. exact C98_weng_lin_period_proof. Qed.
Print Assumptions C98_f64_weng_lin_period.
Theorem C98_f64_weng_lin_teams : forall (L : Libm) (cfg : WengLinConfig B64) (t1 t2 : list (WengLinRating B64)),
  exp_normal L -> num_in (/ 2 ^ 100) (2 ^ 100) (wl_beta cfg) -> num_in (/ 2 ^ 200) 1 (wl_uncertainty_tolerance cfg) ->
  let fit t := (Z.of_nat (length t) <= 2 ^ 53)%Z /\ Forall (fun p => finite (wl_rating p) /\ INR (length t) * Rabs (B2R (wl_rating p)) <= 400 * B2R (wl_beta cfg) /\
                                num_in (/ 2 ^ 100) (2 ^ 100) (wl_uncertainty p)) t in
  fit t1 -> fit t2 ->
  let rises p p' := le64 (wl_rating p) (wl_rating p') in let falls p p' := le64 (wl_rating p') (wl_rating p) in
  let n o := weng_lin_two_teams (A := B64A L) t1 t2 o cfg in
  Forall2 rises t1 (fst (n WIN)) /\ Forall2 falls t2 (snd (n WIN)) /\ Forall2 falls t1 (fst (n LOSS)) /\ Forall2 rises t2 (snd (n LOSS)).
Proof. exact C98_weng_lin_teams_proof. Qed.
Print Assumptions C98_f64_weng_lin_teams.
Theorem C98_f64_weng_lin_multi : forall (L : Libm) (cfg : WengLinConfig B64) (ts : list (list (WengLinRating B64) * MultiTeamOutcome)),
  exp_normal L -> num_in (/ 2 ^ 100) (2 ^ 100) (wl_beta cfg) -> num_in (/ 2 ^ 200) 1 (wl_uncertainty_tolerance cfg) ->
  let fit t := (Z.of_nat (length t) <= 2 ^ 53)%Z /\ Forall (fun p => finite (wl_rating p) /\ INR (length t) * Rabs (B2R (wl_rating p)) <= 400 * B2R (wl_beta cfg) /\
                                num_in (/ 2 ^ 100) (2 ^ 100) (wl_uncertainty p)) t in
  (Z.of_nat (length ts) <= 2 ^ 53)%Z -> Forall (fun t => fit (fst t)) ts ->
  let rises p p' := le64 (wl_rating p) (wl_rating p') in let falls p p' := le64 (wl_rating p') (wl_rating p) in
  forall i t rk, nth_error ts i = Some (t, rk) -> exists nt, nth_error (weng_lin_multi_team (A := B64A L) ts cfg) i = Some nt /\
  ((forall j t' rk', j <> i -> nth_error ts j = Some (t', rk') -> (mto_rank rk < mto_rank rk')%N) -> Forall2 rises t nt) /\
  ((forall j t' rk', j <> i -> nth_error ts j = Some (t', rk') -> (mto_rank rk' < mto_rank rk)%N) -> Forall2 falls t nt).
Proof. exact C98_weng_lin_multi_proof. Qed.
Print Assumptions C98_f64_weng_lin_multi.

(** The correctly rounded libm, beta = 4, uncertainties 8, ratings 25 and 3000 (40 and 20 in teams of three),
    tolerance 2^-20 and a period of ten games meet all the conditions. *)
Example C97_wl_case : exp_normal libm_rounded /\
  num_in (/ 2 ^ 100) (2 ^ 100) (b64_of_Z 4) /\ num_in (/ 2 ^ 100) (2 ^ 100) (b64_of_Z 8) /\ num_in (/ 2 ^ 200) 1 (b64 1 (-20)) /\
  (Rabs (B2R (b64_of_Z 25)) <= 800 * B2R (b64_of_Z 4) /\ Rabs (B2R (b64_of_Z (-3000))) <= 800 * B2R (b64_of_Z 4)) /\
  (B2R (b64_of_Z 8) <= 2 * B2R (b64_of_Z 4) /\ Rabs (B2R (b64_of_Z 25)) + 4 * INR 10 * B2R (b64_of_Z 4) <= 800 * B2R (b64_of_Z 4)) /\
  (INR 3 * Rabs (B2R (b64_of_Z 40)) <= 400 * B2R (b64_of_Z 4) /\ INR 3 * Rabs (B2R (b64_of_Z (-20))) <= 400 * B2R (b64_of_Z 4)).
Proof. exact wl_case_lemma. Qed.
