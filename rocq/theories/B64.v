(** IEEE-754 binary64 as a number system for the models (Flocq's
    BinarySingleNaN: one NaN, round to nearest even).

    The basic operations, [mul_add], [sqrt], comparisons and conversions are
    exact IEEE-754.  exp, ln, exp_m1, ln_1p, powf and hypot come from the
    platform's libm and are not specified bit for bit, so they are a parameter
    [Libm]; theorems state what they need about it. *)
From Coq Require Import ZArith NArith List Bool Reals.
From Flocq Require Import Core.Core IEEE754.BinarySingleNaN.
From Verif Require Import Arith.
Local Open Scope Z_scope.

#[global] Instance prec53 : FLX.Prec_gt_0 53 := eq_refl.
#[global] Instance emax1024 : Prec_lt_emax 53 1024 := eq_refl.
Definition B64 := binary_float 53 1024.

Record Libm := mkLibm {
  l_exp : B64 -> B64; l_ln : B64 -> B64; l_expm1 : B64 -> B64; l_ln1p : B64 -> B64;
  l_pow : B64 -> B64 -> B64; l_hypot : B64 -> B64 -> B64 }.

(** [m * 2^e], rounded. *)
Definition b64 (m e : Z) : B64 := binary_normalize 53 1024 _ _ mode_NE m e false.
(** [n as f64], integral literals. *)
Definition b64_of_Z (z : Z) : B64 := b64 z 0.
(** The decimal literal [m/d], correctly rounded. *)
Definition b64_lit (m d : Z) : B64 :=
  match m, d with
  | Zpos m, Zpos d => SF2B _ (proj1 (Bdiv_correct_aux 53 1024 _ _ mode_NE false m 0 false d 0))
  | Zneg m, Zpos d => SF2B _ (proj1 (Bdiv_correct_aux 53 1024 _ _ mode_NE true m 0 false d 0))
  | Z0, Zpos _ => B754_zero false
  | _, _ => B754_nan
  end.
(** [f64::min], [f64::max]: a NaN argument is ignored. *)
Definition b64_min (a b : B64) : B64 :=
  if is_nan a then b else if is_nan b then a else if Bleb a b then a else b.
Definition b64_max (a b : B64) : B64 :=
  if is_nan a then b else if is_nan b then a else if Bleb a b then b else a.
(** [x as i64]. *)
Definition b64_toZ (x : B64) : Z :=
  match x with
  | B754_nan => 0
  | B754_infinity true => - 2 ^ 63
  | B754_infinity false => 2 ^ 63 - 1
  | _ => Z.max (- 2 ^ 63) (Z.min (2 ^ 63 - 1) (Btrunc x))
  end.

Definition B64A (L : Libm) : Arith B64 := {|
  fadd := Bplus mode_NE; fsub := Bminus mode_NE; fmul := Bmult mode_NE; fdiv := Bdiv mode_NE;
  ffma := Bfma mode_NE; fneg := Bopp; fabs := Babs; fsqrt := Bsqrt mode_NE;
  fexp := l_exp L; fln := l_ln L; fexpm1 := l_expm1 L; fln1p := l_ln1p L;
  fpow := l_pow L; fhypot := l_hypot L;
  fmin := b64_min; fmax := b64_max; fround := Bnearbyint mode_NA;
  fltb := Bltb; fleb := Bleb; feqb := Beqb;
  fis_inf := fun a => match a with B754_infinity _ => true | _ => false end;
  fis_nan := is_nan;
  fsignneg := fun a => Bsign a;
  ftoZ := b64_toZ; fofZ := b64_of_Z; flit := b64_lit;
  finf := B754_infinity false;
  fpi := b64 884279719003555 (-48);
  fsqrt2 := b64 6369051672525773 (-52);
  ffrac1sqrt2 := b64 6369051672525773 (-53);
  ffrac2sqrtpi := b64 5081767996463981 (-52);
  feps := b64 1 (-52);
  fminpos := b64 1 (-1022);
  fsum0 := B754_zero true
|}.

(** A real number rounded to the nearest f64 (overflowing to an infinity). *)
Definition b64_of_R (r : R) : B64 :=
  let e := cexp radix2 (SpecFloat.fexp 53 1024) r in
  b64 (ZnearestE (scaled_mantissa radix2 (SpecFloat.fexp 53 1024) r)) e.
