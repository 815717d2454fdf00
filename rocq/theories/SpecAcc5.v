(** Weng-Lin teams of double-precision ratings. *)
From Coq Require Import ZArith NArith List Bool Reals.
From Verif Require Import B64 SpecB64 SpecAcc ModelLib ModelWengLin Spec.
From Flocq Require Import IEEE754.BinarySingleNaN.
Local Open Scope R_scope.

(** The real numbers stored in a rating. *)
Definition wl_re (p : WengLinRating B64) : R * R := (B2R (wl_rating p), B2R (wl_uncertainty p)).
(** A team of 1 to [n] players, ratings between -500 and 500, uncertainties between 1/1000 and 100. *)
Definition wl_usual (n : nat) (t : list (WengLinRating B64)) : Prop :=
  t <> nil /\ (length t <= n)%nat /\
  Forall (fun p => num_in (- 500) 500 (wl_rating p) /\ num_in (/ 1000) 100 (wl_uncertainty p)) t.
(** The arguments of [exp] for two sides are at most 400 in magnitude. *)
Definition wl_small (beta : R) (t t' : list (R * R)) : Prop :=
  let c := wlc beta (wl_s2 t) (wl_s2 t') in Rabs (wl_theta t) <= 400 * c /\ Rabs (wl_theta t') <= 400 * c.
(** Errors of a player's new rating [p'] after a match against [m] teams, all of at most [n] players: [p] is the old
    rating, [q] the exact new rating and uncertainty. *)
Definition wl_err (n m : nat) (p : WengLinRating B64) (q : R * R) (p' : WengLinRating B64) : Prop :=
  let s := B2R (wl_uncertainty p) in
  near (wl_rating p') (fst q) (3 * (INR n ^ 2 + 3) / 10 ^ 13 * (INR m * s + 1)) /\
  near (wl_uncertainty p') (snd q) (7 * (INR n ^ 2 + 3) / 10 ^ 13 * (INR m * s / snd q + 1) * s).
(** The same for every player of a team [t]. *)
Definition wl_close (n m : nat) (t : list (WengLinRating B64)) (q : list (R * R)) (t' : list (WengLinRating B64)) : Prop :=
  length q = length t /\ length t' = length t /\
  forall i p r p', nth_error t i = Some p -> nth_error q i = Some r -> nth_error t' i = Some p' -> wl_err n m p r p'.
