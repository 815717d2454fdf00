(** Real-valued players and teams as model inputs. *)
From Coq Require Import ZArith NArith List Bool Reals.
From Verif Require Import Arith XR ModelLib ModelWengLin.
Import ListNotations.
Local Open Scope R_scope.

Definition wl_in (p : R * R) : WengLinRating XR := mkWL (Fin (fst p)) (Fin (snd p)).
Definition wlt_in (t : list (R * R)) : list (WengLinRating XR) := map wl_in t.
Definition wlr_in (x : list (R * R) * N) : list (WengLinRating XR) * MultiTeamOutcome := (wlt_in (fst x), mkMTO (snd x)).
