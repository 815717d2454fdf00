(** What it means for a sequence of ratings to settle at a value (C139). *)
From Coq Require Import Reals.
Local Open Scope R_scope.

(** [x] converges to [l]; it moves towards [l] with every step, never reaches it unless
    it starts there, and never passes it. *)
Definition settles (x : nat -> R) (l : R) : Prop :=
  Un_cv x l /\ (x 0%nat < l -> forall n, x n < x (S n) < l) /\ (l < x 0%nat -> forall n, l < x (S n) < x n) /\ (x 0%nat = l -> forall n, x n = l).
