(** What a drawn game should do to a rating. *)
From Coq Require Import Reals.
Local Open Scope R_scope.

(** The rating moves from [x] to [x'] in the direction of an opponent [d] points
    above, and stays when the opponent is equally strong. *)
Definition towards (d x x' : R) : Prop := (0 < d -> x < x') /\ (d < 0 -> x' < x) /\ (d = 0 -> x' = x).
