(** Model of /repo/src/lib.rs (crate root): outcomes and ranks. *)
From Coq Require Import ZArith NArith List.
From Verif Require Import Arith.
Local Open Scope flt_scope.

(** lib.rs:393-400 [enum Outcomes]. *)
Inductive Outcomes := WIN | LOSS | DRAW.

(** Derived [PartialEq] of [Outcomes] (lib.rs:391). *)
Definition outcome_eqb (a b : Outcomes) : bool :=
  match a, b with
  | WIN, WIN | LOSS, LOSS | DRAW, DRAW => true
  | _, _ => false
  end.

Section S.
  Context {F : Type} {A : Arith F}.
  (** lib.rs:407-414 [Outcomes::to_chess_points]. *)
  Definition to_chess_points (o : Outcomes) : F :=
    match o with
    | WIN => #1
    | DRAW => flit 5 10
    | LOSS => #0
    end.
End S.

(** lib.rs:427 [struct MultiTeamOutcome(usize)]. *)
Record MultiTeamOutcome := mkMTO { mto_rank_field : N }.
(** lib.rs:433-435 [MultiTeamOutcome::new]. *)
Definition mto_new (rank : N) : MultiTeamOutcome := mkMTO rank.
(** lib.rs:440-442 [MultiTeamOutcome::rank]. *)
Definition mto_rank (m : MultiTeamOutcome) : N := mto_rank_field m.
(** lib.rs:445-450 [From<usize> for MultiTeamOutcome]. *)
Definition mto_from_usize (v : N) : MultiTeamOutcome := mkMTO v.
(** lib.rs:452-457 [From<MultiTeamOutcome> for usize]. *)
Definition usize_from_mto (v : MultiTeamOutcome) : N := mto_rank_field v.
(** Derived [Ord] of [MultiTeamOutcome] (lib.rs:425): compares the field. *)
Definition mto_cmp (a b : MultiTeamOutcome) : comparison :=
  N.compare (mto_rank_field a) (mto_rank_field b).
