(** Further accuracy contracts for the platform's libm. *)
From Coq Require Import ZArith Bool Reals.
From Verif Require Import B64 SpecB64.
From Flocq Require Import IEEE754.BinarySingleNaN.
Local Open Scope R_scope.

Definition expm1_accurate (L : Libm) : Prop :=
  forall x, finite x -> / 10 ^ 20 <= B2R x <= 10 ->
    finite (l_expm1 L x) /\ Rabs (B2R (l_expm1 L x) - (exp (B2R x) - 1)) <= / 2 ^ 50 * (exp (B2R x) - 1).
