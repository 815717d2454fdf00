(** The f64 operations used by the code, as a record of functions.

    Every model definition is written over an arbitrary [Arith F], so the same
    transcription can be read over the extended reals (XR.v), over IEEE-754
    binary64 (B64.v) or over any other number type. *)
From Coq Require Import ZArith NArith List Bool.
Import ListNotations.

Class Arith (F : Type) := {
  fadd : F -> F -> F;          (* a + b *)
  fsub : F -> F -> F;          (* a - b *)
  fmul : F -> F -> F;          (* a * b *)
  fdiv : F -> F -> F;          (* a / b *)
  ffma : F -> F -> F -> F;     (* a.mul_add(b, c) = a*b + c, one rounding *)
  fneg : F -> F;               (* -a *)
  fabs : F -> F;               (* a.abs() *)
  fsqrt : F -> F;              (* a.sqrt() *)
  fexp : F -> F;               (* a.exp() *)
  fln : F -> F;                (* a.ln() *)
  fexpm1 : F -> F;             (* a.exp_m1() *)
  fln1p : F -> F;              (* a.ln_1p() *)
  fpow : F -> F -> F;          (* a.powf(b) *)
  fhypot : F -> F -> F;        (* a.hypot(b) *)
  fmin : F -> F -> F;          (* a.min(b), ignores NaN *)
  fmax : F -> F -> F;          (* a.max(b), ignores NaN *)
  fround : F -> F;             (* a.round(), half away from zero *)
  fltb : F -> F -> bool;       (* a < b *)
  fleb : F -> F -> bool;       (* a <= b *)
  feqb : F -> F -> bool;       (* a == b *)
  fis_inf : F -> bool;         (* a.is_infinite() *)
  fis_nan : F -> bool;         (* a.is_nan() *)
  fsignneg : F -> bool;        (* a.is_sign_negative() *)
  ftoZ : F -> Z;               (* a as i64, saturating *)
  fofZ : Z -> F;               (* n as f64, and integral literals *)
  flit : Z -> Z -> F;          (* the literal m/d, d a power of ten *)
  finf : F;                    (* f64::INFINITY *)
  fpi : F;                     (* std::f64::consts::PI *)
  fsqrt2 : F;                  (* std::f64::consts::SQRT_2 *)
  ffrac1sqrt2 : F;             (* std::f64::consts::FRAC_1_SQRT_2 *)
  ffrac2sqrtpi : F;            (* std::f64::consts::FRAC_2_SQRT_PI *)
  feps : F;                    (* f64::EPSILON *)
  fminpos : F;                 (* f64::MIN_POSITIVE *)
  fsum0 : F                    (* start value of Iterator::sum::<f64>() *)
}.

Declare Scope flt_scope.
Delimit Scope flt_scope with flt.
Notation "x + y" := (fadd x y) : flt_scope.
Notation "x - y" := (fsub x y) : flt_scope.
Notation "x * y" := (fmul x y) : flt_scope.
Notation "x / y" := (fdiv x y) : flt_scope.
Notation "- x" := (fneg x) : flt_scope.
Notation "x <? y" := (fltb x y) : flt_scope.
Notation "x <=? y" := (fleb x y) : flt_scope.
Notation "x >? y" := (fltb y x) (only parsing) : flt_scope.
Notation "x >=? y" := (fleb y x) (only parsing) : flt_scope.
Notation "x =? y" := (feqb x y) : flt_scope.
Notation "# z" := (fofZ z%Z) (at level 1, z at level 0, format "# z") : flt_scope.

Section Derived.
  Context {F : Type} {A : Arith F}.
  Local Open Scope flt_scope.

  (** [a.recip()] (core: [1.0 / self]). *)
  Definition frecip (a : F) : F := #1 / a.

  (** [a.powi(n)]: repeated squaring, as in compiler-rt's [__powidf2] (the
      multiplications by the initial 1.0 there are exact and left out). *)
  Fixpoint fpowpos (a : F) (p : positive) : F :=
    match p with
    | xH => a
    | xO p => fpowpos (a * a) p
    | xI p => a * fpowpos (a * a) p
    end.
  Definition fpowi (a : F) (n : Z) : F :=
    match n with
    | Z0 => #1
    | Zpos p => fpowpos a p
    | Zneg p => frecip (fpowpos a p)
    end.

  (** [iter.sum::<f64>()]: left fold with [+]. *)
  Definition fsum (l : list F) : F := fold_left fadd l fsum0.

  (** [n as f64] for a [usize]. *)
  Definition fofN (n : N) : F := fofZ (Z.of_N n).
  (** [v.len() as f64]. *)
  Definition flen {X} (l : list X) : F := fofZ (Z.of_nat (length l)).
End Derived.

(** [usize] arithmetic in release mode on a 64-bit target: wraps at 2^64
    (debug builds panic instead). *)
Definition usize_max_plus1 : N := (2 ^ 64)%N.
Definition usize_add (a b : N) : N := ((a + b) mod usize_max_plus1)%N.

(** Result of a call that may return [Err] or panic. *)
Inductive Res (E X : Type) : Type :=
| Ok : X -> Res E X
| Err : E -> Res E X
| Panic : Res E X.
Arguments Ok {E X} _.
Arguments Err {E X} _.
Arguments Panic {E X}.
