(** Vocabulary of the IEEE-754 properties: order of f64 values as the code's
    own comparison operators see it, and what is asked of the platform's libm. *)
From Coq Require Import ZArith Bool Reals.
From Flocq Require Import IEEE754.BinarySingleNaN.
From Verif Require Import B64.
Local Open Scope Z_scope.

(** Neither NaN nor an infinity. *)
Definition finite (x : B64) : Prop := is_finite x = true.
(** [x <= y] is true in Rust (false if either is NaN). *)
Definition le64 (x y : B64) : Prop := Bleb x y = true.
(** [x < y] is false in Rust (also if either is NaN). *)
Definition not_below (x y : B64) : Prop := Bltb x y = false.
Definition zero64 : B64 := b64_of_Z 0.
Definition one64 : B64 := b64_of_Z 1.
(** A finite f64 in [0,1]. *)
Definition in01 (x : B64) : Prop := finite x /\ le64 zero64 x /\ le64 x one64.

(** powf(10, y) is a non-negative number or +inf for every y that is not NaN. *)
Definition pow10_nonneg (L : Libm) : Prop :=
  forall y, is_nan y = false -> le64 zero64 (l_pow L (b64_of_Z 10) y).
(** exp overflows to +inf from 1000 on (in fact from about 709.8). *)
Definition exp_overflows (L : Libm) : Prop :=
  forall y, le64 (b64_of_Z 1000) y -> l_exp L y = B754_infinity false.
(** exp is positive and finite, well inside the normal range, on [-600, 600]. *)
Definition exp_normal (L : Libm) : Prop :=
  forall y, le64 (b64_of_Z (-600)) y -> le64 y (b64_of_Z 600) ->
    le64 (b64 1 (-1020)) (l_exp L y) /\ le64 (l_exp L y) (b64 1 1020).

(** powf(10, y) is accurate to about 4 ulp for |y| <= 100: relative error at most 2^-50. *)
Definition pow10_accurate (L : Libm) : Prop :=
  forall y, finite y -> (Rabs (B2R y) <= 100)%R ->
    finite (l_pow L (b64_of_Z 10) y) /\
    (Rabs (B2R (l_pow L (b64_of_Z 10) y) - Rpower 10 (B2R y)) <= / 2 ^ 50 * Rpower 10 (B2R y))%R.
(** powf(10, y) is at most 1 for y <= 0 and at least 1 for y >= 0. *)
Definition pow10_unit (L : Libm) : Prop :=
  (forall y, le64 y zero64 -> le64 (l_pow L (b64_of_Z 10) y) one64) /\
  (forall y, le64 zero64 y -> le64 one64 (l_pow L (b64_of_Z 10) y)).

(** ln(10) is a number between 2 and 3. *)
Definition ln10_sane (L : Libm) : Prop :=
  finite (l_ln L (b64_of_Z 10)) /\ (2 <= B2R (l_ln L (b64_of_Z 10)) <= 3)%R.
(** hypot is non-negative or +inf when no argument is NaN. *)
Definition hypot_nonneg (L : Libm) : Prop :=
  forall x y, is_nan x = false -> is_nan y = false -> le64 zero64 (l_hypot L x y).
(** expm1 is non-negative or +inf from 0 on. *)
Definition expm1_nonneg (L : Libm) : Prop := forall x, le64 zero64 x -> le64 zero64 (l_expm1 L x).
(** exp is non-negative or +inf when the argument is not NaN. *)
Definition exp_nonneg (L : Libm) : Prop := forall x, is_nan x = false -> le64 zero64 (l_exp L x).
(** ln of a positive finite number is a number within [-1000, 1000]. *)
Definition ln_sane (L : Libm) : Prop := forall x, finite x -> (0 < B2R x)%R ->
  finite (l_ln L x) /\ (Rabs (B2R (l_ln L x)) <= 1000)%R.
(** ln_1p of a non-negative finite number is within [0, 1000]. *)
Definition ln1p_sane (L : Libm) : Prop := forall x, finite x -> (0 <= B2R x)%R ->
  finite (l_ln1p L x) /\ (0 <= B2R (l_ln1p L x) <= 1000)%R.
(** powf(x, 1.6) is within [0, 10000] for x in (0, 100]. *)
Definition pow16_sane (L : Libm) : Prop := forall x, finite x -> (0 < B2R x <= 100)%R ->
  finite (l_pow L x (b64_lit 16 10)) /\ (0 <= B2R (l_pow L x (b64_lit 16 10)) <= 10000)%R.
(** [|x| <= 2^e] (2^1000 is about 1e301, 2^400 about 2.6e120). *)
Definition le_2 (e : Z) (x : B64) : Prop := le64 (Babs x) (b64 1 e).

(** A finite f64 between the real numbers [lo] and [hi]. *)
Definition num_in (lo hi : R) (x : B64) : Prop := finite x /\ (lo <= B2R x <= hi)%R.

(** A libm satisfying all of these: the real functions, correctly rounded. *)
Definition real_fun (f : R -> R) (at_pinf at_minf : B64) (x : B64) : B64 :=
  match x with
  | B754_nan => B754_nan
  | B754_infinity true => at_minf
  | B754_infinity false => at_pinf
  | _ => b64_of_R (f (B2R x))
  end.
Definition libm_rounded : Libm := {|
  l_exp := real_fun exp (B754_infinity false) zero64;
  l_ln := real_fun ln (B754_infinity false) B754_nan;
  l_expm1 := real_fun (fun r => exp r - 1)%R (B754_infinity false) (b64_of_Z (-1));
  l_ln1p := real_fun (fun r => ln (1 + r))%R (B754_infinity false) B754_nan;
  l_pow := fun x => real_fun (Rpower (B2R x)) (B754_infinity false) zero64;
  l_hypot := fun x => real_fun (fun r => sqrt (B2R x * B2R x + r * r))%R (B754_infinity false) (B754_infinity false)
|}.
