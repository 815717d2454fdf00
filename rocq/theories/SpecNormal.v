(** The normal distribution function as an integral of the density, and the
    TrueSkill winning chances expressed with it.  Independent of the code's
    approximation of erfc. *)
From Coq Require Import Reals List.
From Coquelicot Require Import Coquelicot.
From Verif Require Import XR Spec SpecTS.
Import ListNotations.
Local Open Scope R_scope.

(** Standard normal distribution function. *)
Definition Ncdf (x : R) : R := 1 / 2 + RInt phi 0 x.
(** Chance that team [i] beats team [j]: the performances are normal with
    variance beta^2 per player of the match on top of the uncertainties. *)
Definition pairN (beta : R) (ts : list (list (R * R))) (i j : nat) : R :=
  let n := INR (list_sum (map (@length _) ts)) in let a := nth i ts [] in let b := nth j ts [] in
  Ncdf ((side_mu a - side_mu b) / sqrt (n * beta ^ 2 + side_var a + side_var b)).
(** Sum of the chances of team [i] against every other team. *)
Definition rowN (beta : R) (ts : list (list (R * R))) (i : nat) : R :=
  Rsum (map (fun j => if Nat.eqb i j then 0 else pairN beta ts i j) (seq 0 (length ts))).
