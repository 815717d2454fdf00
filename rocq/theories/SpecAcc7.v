(** What the accuracy theorems for Glicko-Boost (C120) are about: configurations
    of ordinary size, and the exact games and configuration behind the floating-
    point ones. *)
From Coq Require Import ZArith List Bool Reals.
From Verif Require Import B64 SpecB64 ModelLib ModelBoost Spec.
From Flocq Require Import IEEE754.BinarySingleNaN.
Local Open Scope R_scope.

Definition gb_usual (c : GlickoBoostConfig B64) : Prop :=
  num_in (- (1000)) 1000 (gb_eta c) /\ num_in 0 1000 (gb_k c) /\ num_in 0 1 (gb_b0 c) /\ num_in 0 1000 (gb_b1 c) /\
  num_in (- (40)) 40 (gb_alpha0 c) /\ num_in (- / 100) (/ 100) (gb_alpha1 c) /\ num_in (- / 10 ^ 4) (/ 10 ^ 4) (gb_alpha2 c) /\
  num_in (- / 10) (/ 10) (gb_alpha3 c) /\ num_in (- / 1000) (/ 1000) (gb_alpha4 c).
Definition gb_real (c : GlickoBoostConfig B64) : Spec.boost_cfg :=
  Spec.Build_boost_cfg (B2R (gb_eta c)) (B2R (gb_k c)) (B2R (gb_b0 c)) (B2R (gb_b1 c))
    (B2R (gb_alpha0 c)) (B2R (gb_alpha1 c)) (B2R (gb_alpha2 c)) (B2R (gb_alpha3 c)) (B2R (gb_alpha4 c)).
(** The advantage makes the opponent count as weaker (with it) or stronger. *)
Definition gb_opp (c : GlickoBoostConfig B64) (white : bool) (rating : B64) : R :=
  B2R rating - (if white then B2R (gb_eta c) else - B2R (gb_eta c)).
Definition gb_game (c : GlickoBoostConfig B64) (g : GlickoBoostRating B64 * Outcomes * bool) : R * R * R :=
  let '(opp, o, white) := g in (gb_opp c white (gb_rating opp), B2R (gb_deviation opp), Spec.points o).
(** The performance is not too close to the threshold of the boost, or the boost
    is off. *)
Definition gb_clear (c : GlickoBoostConfig B64) (r : R) (games : list (R * R * R)) : Prop :=
  B2R (gb_k c) = 0 \/ INR (length games) / 10 ^ 9 < Rabs (Spec.boost_Z r games - B2R (gb_k c)).
