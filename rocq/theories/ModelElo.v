(** Model of /repo/src/elo.rs. *)
From Coq Require Import ZArith NArith List.
From Verif Require Import Arith ModelLib.
Local Open Scope flt_scope.

(** elo.rs:60-63 [struct EloRating]. *)
Record EloRating (F : Type) := mkElo { elo_rating : F }.
Arguments mkElo {F}. Arguments elo_rating {F}.
(** elo.rs:136-142 [struct EloConfig]. *)
Record EloConfig (F : Type) := mkEloConfig { elo_k : F }.
Arguments mkEloConfig {F}. Arguments elo_k {F}.

Section S.
  Context {F : Type} {A : Arith F}.

  (** elo.rs:68-70 [EloRating::new]; elo.rs:73-77 [Default]. *)
  Definition elo_new : EloRating F := mkElo #1000.
  (** elo.rs:80-82 [Rating::rating]. *)
  Definition elo_rating_get (r : EloRating F) : F := elo_rating r.
  (** elo.rs:83-85 [Rating::uncertainty]. *)
  Definition elo_uncertainty_get (r : EloRating F) : option F := None.
  (** elo.rs:86-90 [Rating::new]. *)
  Definition elo_rating_new (rating _uncertainty : option F) : EloRating F :=
    mkElo (match rating with Some r => r | None => #1000 end).
  (** elo.rs:93-97 [From<f64>]. *)
  Definition elo_from_f64 (r : F) : EloRating F := mkElo r.
  (** elo.rs:147-149 [EloConfig::new]; elo.rs:152-156 [Default]. *)
  Definition elo_config_new : EloConfig F := mkEloConfig #32.

  (** elo.rs:331-336 [expected_score]. *)
  Definition elo_expected_score (player_one player_two : EloRating F) : F * F :=
    let exp_one := frecip (#1 + fpow #10 ((elo_rating player_two - elo_rating player_one) / #400)) in
    let exp_two := #1 - exp_one in
    (exp_one, exp_two).

  (** elo.rs:229-251 [elo]. *)
  Definition elo (player_one player_two : EloRating F) (outcome : Outcomes) (config : EloConfig F)
    : EloRating F * EloRating F :=
    let '(one_expected, two_expected) := elo_expected_score player_one player_two in
    let outcome1 := to_chess_points outcome in
    let outcome2 := #1 - outcome1 in
    let one_new_elo := ffma (elo_k config) (outcome1 - one_expected) (elo_rating player_one) in
    let two_new_elo := ffma (elo_k config) (outcome2 - two_expected) (elo_rating player_two) in
    (mkElo one_new_elo, mkElo two_new_elo).

  (** elo.rs:296-305: body of the loop of [elo_rating_period]. *)
  Definition elo_period_step (config : EloConfig F) (player_rating : F) (r : EloRating F * Outcomes) : F :=
    let '(opponent, result) := r in
    let exp := frecip (#1 + fpow #10 ((elo_rating opponent - player_rating) / #400)) in
    let outcome := to_chess_points result in
    ffma (elo_k config) (outcome - exp) player_rating.

  (** elo.rs:289-310 [elo_rating_period]. *)
  Definition elo_rating_period (player : EloRating F) (results : list (EloRating F * Outcomes))
    (config : EloConfig F) : EloRating F :=
    mkElo (fold_left (elo_period_step config) results (elo_rating player)).

  (** elo.rs:361-366 [expected_score_rating_period]. *)
  Definition elo_expected_score_rating_period (player : EloRating F) (opponents : list (EloRating F))
    : list F :=
    map (fun o => frecip (#1 + fpow #10 ((elo_rating o - elo_rating player) / #400))) opponents.

  (** elo.rs:163-183 [impl RatingSystem for Elo]; the struct [Elo] (elo.rs:159-161)
      is its config, [new] (167-169) stores it. *)
  Definition elo_sys_rate (config : EloConfig F) (p1 p2 : EloRating F) (o : Outcomes) := elo p1 p2 o config.
  Definition elo_sys_expected_score (config : EloConfig F) (p1 p2 : EloRating F) := elo_expected_score p1 p2.
  (** elo.rs:185-200 [impl RatingPeriodSystem for Elo]. *)
  Definition elo_psys_rate (config : EloConfig F) (p : EloRating F) rs := elo_rating_period p rs config.
  Definition elo_psys_expected_score (config : EloConfig F) (p : EloRating F) os :=
    elo_expected_score_rating_period p os.
End S.
