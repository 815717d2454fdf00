(** TrueSkill teams of double-precision ratings. *)
From Coq Require Import ZArith NArith List Bool Reals.
From Verif Require Import XR B64 SpecB64 SpecAcc ModelLib ModelTS Spec SpecNormal SpecTSN.
From Flocq Require Import IEEE754.BinarySingleNaN.
Local Open Scope R_scope.

(** A team of 1 to [n] players, ratings between -[M] and [M], uncertainties between 1/1000 and 100. *)
Definition tst_usual (n : nat) (M : R) (t : list (TrueSkillRating B64)) : Prop :=
  t <> nil /\ (length t <= n)%nat /\
  Forall (fun p => num_in (- M) M (ts_rating p) /\ num_in (/ 1000) 100 (ts_uncertainty p)) t.
(** Sizes covered: the rounding errors of the sums of ratings stay small. *)
Definition tst_size (n : nat) (M : R) : Prop := (n <= 50)%nat /\ 1 <= M <= 1000 /\ INR n ^ 2 * M <= 40000.
(** Sum of the ratings and sum of the squared uncertainties of a team. *)
Definition tst_sum (t : list (TrueSkillRating B64)) : R := Rsum (map (fun p => B2R (ts_rating p)) t).
Definition tst_var (t : list (TrueSkillRating B64)) : R := Rsum (map (fun p => B2R (ts_uncertainty p) ^ 2) t).
(** The deviation of the difference of two teams' performances in a match of [N] players. *)
Definition tst_c (N beta : R) (t1 t2 : list (TrueSkillRating B64)) : R := sqrt (N * beta ^ 2 + tst_var t1 + tst_var t2).
(** Probability that team [t1] performs better than [t2], with the true normal distribution. *)
Definition tst_p (N beta : R) (t1 t2 : list (TrueSkillRating B64)) : R := Ncdf ((tst_sum t1 - tst_sum t2) / tst_c N beta t1 t2).
(** [t'] is the update of team [t] for the corrections [v], [w], up to the errors [ev] (relative to [v]), [ea] and [ew]. *)
Definition tst_close (tau c v w ev ea ew : R) (t t' : list (TrueSkillRating B64)) : Prop :=
  length t' = length t /\
  forall i p p', nth_error t i = Some p -> nth_error t' i = Some p' ->
    let S := B2R (ts_uncertainty p) ^ 2 + tau ^ 2 in
    near (ts_rating p') (B2R (ts_rating p) + S / c * v) (S / c * (ev * Rabs v + ea) + 3 / 10 ^ 12) /\
    num_in (/ 10 ^ 6) 150 (ts_uncertainty p') /\
    Rabs (B2R (ts_uncertainty p') ^ 2 - S * (1 - w * S / c ^ 2)) <= ew * (S ^ 2 / c ^ 2) + 2 / 10 ^ 15 * S.
(** The real numbers stored in a rating. *)
Definition ts_re (p : TrueSkillRating B64) : R * R := (B2R (ts_rating p), B2R (ts_uncertainty p)).
