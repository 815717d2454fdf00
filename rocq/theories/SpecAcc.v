(** What the accuracy properties ask of the platform's libm: relative errors of
    at most 2^-50 (about 4 units in the last place) on the arguments that occur. *)
From Coq Require Import ZArith Bool Reals.
From Verif Require Import B64 SpecB64.
From Flocq Require Import IEEE754.BinarySingleNaN.
Local Open Scope R_scope.

Definition ln10_accurate (L : Libm) : Prop :=
  finite (l_ln L (b64_of_Z 10)) /\ Rabs (B2R (l_ln L (b64_of_Z 10)) - ln 10) <= / 2 ^ 50 * ln 10.
Definition hypot_accurate (L : Libm) : Prop :=
  forall x y, finite x -> finite y -> 1 <= Rabs (B2R x) <= 10 ^ 6 -> Rabs (B2R y) <= 10 ^ 6 ->
    finite (l_hypot L x y) /\
    Rabs (B2R (l_hypot L x y) - sqrt (B2R x ^ 2 + B2R y ^ 2)) <= / 2 ^ 50 * sqrt (B2R x ^ 2 + B2R y ^ 2).
Definition exp_accurate (L : Libm) : Prop :=
  forall y, finite y -> Rabs (B2R y) <= 600 ->
    finite (l_exp L y) /\ Rabs (B2R (l_exp L y) - exp (B2R y)) <= / 2 ^ 50 * exp (B2R y).

Definition ln_accurate (L : Libm) : Prop :=
  forall x, finite x -> 2 <= B2R x <= 10 ^ 6 ->
    finite (l_ln L x) /\ Rabs (B2R (l_ln L x) - ln (B2R x)) <= / 2 ^ 50 * ln (B2R x).
Definition ln1p_accurate (L : Libm) : Prop :=
  forall x, finite x -> / 10 ^ 20 <= B2R x <= 10 ^ 30 ->
    finite (l_ln1p L x) /\ Rabs (B2R (l_ln1p L x) - ln (1 + B2R x)) <= / 2 ^ 50 * ln (1 + B2R x).
(** ln of a probability *)
Definition lnp_accurate (L : Libm) : Prop :=
  forall x, finite x -> / 1000 <= B2R x <= 1 / 2 ->
    finite (l_ln L x) /\ Rabs (B2R (l_ln L x) - ln (B2R x)) <= / 2 ^ 50 * - ln (B2R x).
(** powf with the literal exponent 1.6 *)
Definition pow16_accurate (L : Libm) : Prop :=
  forall x, finite x -> / 10 <= B2R x <= 100 ->
    let p := l_pow L x (b64_lit 16 10) in
    finite p /\ Rabs (B2R p - Rpower (B2R x) (B2R (b64_lit 16 10))) <= / 2 ^ 50 * Rpower (B2R x) (B2R (b64_lit 16 10)).

(** [x] is a number within [d] of the real number [r]. *)
Definition near (x : B64) (r d : R) : Prop := finite x /\ Rabs (B2R x - r) <= d.
