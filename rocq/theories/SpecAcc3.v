(** Accuracy contracts for the logarithm and the hypotenuse on the arguments of Glicko-2. *)
From Coq Require Import ZArith Bool Reals.
From Verif Require Import B64 SpecB64 SpecAcc Spec ModelGlicko2.
From Flocq Require Import IEEE754.BinarySingleNaN.
Local Open Scope R_scope.

(** The error may be absolute where the logarithm is small. *)
Definition lnw_accurate (L : Libm) : Prop :=
  forall x, finite x -> / 10 ^ 12 <= B2R x <= 10 ^ 6 ->
    finite (l_ln L x) /\ Rabs (B2R (l_ln L x) - ln (B2R x)) <= / 2 ^ 50 * (1 + Rabs (ln (B2R x))).
Definition hypots_accurate (L : Libm) : Prop :=
  forall x y, finite x -> finite y -> / 10 ^ 3 <= Rabs (B2R x) <= 10 ^ 6 -> Rabs (B2R y) <= 10 ^ 6 ->
    finite (l_hypot L x y) /\
    Rabs (B2R (l_hypot L x y) - sqrt (B2R x ^ 2 + B2R y ^ 2)) <= / 2 ^ 50 * sqrt (B2R x ^ 2 + B2R y ^ 2).

(** Glickman's equation for these games is not extreme ([d] is his Delta): the
    result is not too surprising, and Delta^2 is not within 10^-7 of the point
    phi^2 + v at which the code changes its starting bracket. *)
Definition g2_moderate (r RD tau : R) (games : list (R * R * R)) : Prop :=
  let phi := g2phi RD in let v := g2v (g2mu r) games in let d := v * g2M (g2mu r) games in
  d ^ 2 <= 100 * (phi ^ 2 + v) /\ tau ^ 2 * d ^ 2 <= 10 * (phi ^ 2 + v) /\
  (phi ^ 2 + v) / 10 ^ 7 <= Rabs (d ^ 2 - phi ^ 2 - v).
(** [q] is Glickman's update of (r, RD, sigma): the volatility solves his
    equation up to [tol] + 10^-7 in ln(sigma'^2); rating and deviation are right
    to 10^-6 and 10^-7 for that volatility. *)
Definition g2_updated (q : Glicko2Rating B64) (r RD sigma tau tol : R) (games : list (R * R * R)) : Prop :=
  let phi := g2phi RD in let v := g2v (g2mu r) games in let s' := B2R (g2_volatility q) in
  finite (g2_volatility q) /\ g2_solves (v * g2M (g2mu r) games) phi v sigma tau (tol + / 10 ^ 7) s' /\
  near (g2_rating q) (g2_new_r r RD s' games) (/ 10 ^ 6) /\ near (g2_deviation q) (g2_new_rd r RD s' games) (/ 10 ^ 7).
