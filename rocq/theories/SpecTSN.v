(** TrueSkill's corrections with the true normal distribution: the quantities of
    Herbrich, Minka and Graepel (2006) that the code approximates, and the
    moments of a truncated Gaussian they come from.  Independent of the code's
    approximation of erfc and of its fallbacks. *)
From Coq Require Import Reals List.
From Coquelicot Require Import Coquelicot.
From Verif Require Import XR ModelLib Spec SpecTS SpecNormal.
Import ListNotations.
Local Open Scope R_scope.

(** A win by more than the margin [eps] when the advantage is [t] (both in
    units of the total deviation). *)
Definition vwinN (t eps : R) : R := phi (t - eps) / Ncdf (t - eps).
Definition wwinN (t eps : R) : R := vwinN t eps * (vwinN t eps + t - eps).
(** A result within the margin. *)
Definition drawN (t eps : R) : R := Ncdf (eps - t) - Ncdf (- eps - t).
Definition vdrawN (t eps : R) : R := (phi (- eps - t) - phi (eps - t)) / drawN t eps.
Definition wdrawN (t eps : R) : R :=
  vdrawN t eps ^ 2 + ((eps - t) * phi (eps - t) + (eps + t) * phi (eps + t)) / drawN t eps.
Definition tsN_v (o : Outcomes) (t eps : R) : R :=
  match o with WIN => vwinN t eps | LOSS => - vwinN (- t) eps | DRAW => vdrawN t eps end.
Definition tsN_w (o : Outcomes) (t eps : R) : R :=
  match o with WIN => wwinN t eps | LOSS => wwinN (- t) eps | DRAW => wdrawN t eps end.

(** Mean and variance of a standard normal variable known to lie in [[a, b]]. *)
Definition cmean (a b : R) : R := RInt (fun z => z * phi z) a b / RInt phi a b.
Definition cvar (a b : R) : R := RInt (fun z => (z - cmean a b) ^ 2 * phi z) a b / RInt phi a b.

(** Standardised surprise of the result: how far the advantage of the winner is
    from the margin, or how far the advantage of the stronger side of a draw is
    outside the margin with the sign reversed. *)
Definition lead (o : Outcomes) (t eps : R) : R :=
  match o with WIN => t - eps | LOSS => - t - eps | DRAW => eps - Rabs t end.
(** [a] approximates [b] with relative error at most [r]. *)
Definition within (r a b : R) : Prop := Rabs (a - b) <= r * Rabs b.
