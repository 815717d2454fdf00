(** Results after which Glicko-2's iteration is known to stop. *)
From Coq Require Import Reals.
From Verif Require Import Spec.
Local Open Scope R_scope.

(** Glickman's Delta^2 stays below phi^2 + v, by at least a relative 10^-7: the
    games surprise no more than the deviation and their number explain. *)
Definition g2_calm (r RD : R) (games : list (R * R * R)) : Prop :=
  let phi := g2phi RD in let v := g2v (g2mu r) games in let d := v * g2M (g2mu r) games in
  d ^ 2 + (phi ^ 2 + v) / 10 ^ 7 <= phi ^ 2 + v.
