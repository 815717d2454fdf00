(** How good the predictions made during a season are. *)
From Coq Require Import ZArith NArith List Bool Reals Arith.PeanoNat.
From Verif Require Import ModelLib XR Spec SpecLeague.
Import Spec ListNotations.
Local Open Scope R_scope.

(** Loss of the forecast [p] for a game that ended with [s] points. *)
Definition log_loss (p s : R) : R := - (s * ln p + (1 - s) * ln (1 - p)).
Definition square_loss (p s : R) : R := (s - p) ^ 2.
(** The number in an [XR]; the expected scores it is applied to are numbers (C03). *)
Definition num (x : XR) : R := match x with Fin r => r | _ => 0 end.

(** What one game costs, given the players before the game; games without two
    different players cost nothing (and change nothing, see [play]). *)
Definition at_game {X G} (cost : nat * nat -> X -> X -> G -> R) (l : list X) (g : nat * nat * G) : R :=
  let '(i, j, x) := g in
  if Nat.eqb i j then 0 else
  match nth_error l i, nth_error l j with Some p, Some q => cost (i, j) p q x | _, _ => 0 end.
(** Total over a season in which the players change by [f]. *)
Fixpoint season_cost {X G} (f : X -> X -> G -> X * X) (cost : nat * nat -> X -> X -> G -> R) (l : list X) (gs : list (nat * nat * G)) : R :=
  match gs with [] => 0 | g :: gs => at_game cost l g + season_cost f cost (play f l g) gs end.
(** The same when nobody changes. *)
Definition fixed {X G} (p q : X) (_ : G) : X * X := (p, q).
(** Mean total over a season with the given pairings when each result is drawn
    with the chances [ch]. *)
Fixpoint mean_cost {X} (f : X -> X -> Outcomes -> X * X) (cost : nat * nat -> X -> X -> Outcomes -> R) (ch : nat * nat -> Outcomes -> R) (l : list X) (ps : list (nat * nat)) : R :=
  match ps with
  | [] => 0
  | ij :: ps => let after o := ch ij o * (at_game cost l (ij, o) + mean_cost f cost ch (play f l (ij, o)) ps) in after WIN + after DRAW + after LOSS
  end.
(** Sum of squared differences of two lists of ratings. *)
Fixpoint gap2 (rs us : list R) : R :=
  match rs, us with r :: rs, u :: us => (r - u) ^ 2 + gap2 rs us | _, _ => 0 end.
(** Results that follow the strengths [us] when [E] is the expected score. *)
Definition follows (E : R -> R -> R) (us : list R) (ch : nat * nat -> Outcomes -> R) : Prop :=
  forall i j, 0 <= ch (i, j) WIN /\ 0 <= ch (i, j) DRAW /\ 0 <= ch (i, j) LOSS /\ ch (i, j) WIN + ch (i, j) DRAW + ch (i, j) LOSS = 1 /\
    ch (i, j) WIN + ch (i, j) DRAW / 2 = E (nth i us 0) (nth j us 0).
(** Total over the games of one player, each forecast made with the rating that
    [rate] gives after the games before it. *)
Definition period_cost {X Y} (rate : list Y -> X) (cost : X -> Y -> R) (gs : list Y) : R :=
  Rsum (map (fun n => match nth_error gs n with Some g => cost (rate (firstn n gs)) g | None => 0 end) (seq 0 (length gs))).
