(** A pool of players that play any number of games against each other. *)
From Coq Require Import ZArith NArith List Bool Reals Arith.PeanoNat.
From Verif Require Import ModelLib XR.
Import ListNotations.
Local Open Scope R_scope.

(** [put i x l]: the list with its [i]-th entry replaced. *)
Fixpoint put {X} (i : nat) (x : X) (l : list X) : list X :=
  match l, i with
  | [], _ => []
  | _ :: l, O => x :: l
  | y :: l, S i => y :: put i x l
  end.
(** One game between players number [i] and [j]; nothing happens if there is no
    such player or if a player is paired with itself. *)
Definition play {X G} (f : X -> X -> G -> X * X) (l : list X) (g : nat * nat * G) : list X :=
  let '(i, j, x) := g in
  if Nat.eqb i j then l else
  match nth_error l i, nth_error l j with
  | Some p, Some q => put j (snd (f p q x)) (put i (fst (f p q x)) l)
  | _, _ => l
  end.
Definition season {X G} (f : X -> X -> G -> X * X) (l : list X) (gs : list (nat * nat * G)) : list X := fold_left (play f) gs l.
(** Number of games of player [i]. *)
Definition games_of {G} (i : nat) (gs : list (nat * nat * G)) : nat :=
  length (filter (fun g => Nat.eqb i (fst (fst g)) || Nat.eqb i (snd (fst g)))%bool gs).
(** What the games were for player [i]: [o] seen from its side. *)
Definition won_all {G} (out : G -> Outcomes) (i : nat) (gs : list (nat * nat * G)) : Prop :=
  forall a b x, In (a, b, x) gs -> (a = i -> out x = WIN) /\ (b = i -> out x = LOSS).
