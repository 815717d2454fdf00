(** Model of /repo/src/fifa.rs. *)
From Coq Require Import ZArith NArith List Bool.
From Verif Require Import Arith ModelLib ModelElo.
Local Open Scope flt_scope.

(** fifa.rs:64-67 [struct FifaRating]. *)
Record FifaRating (F : Type) := mkFifa { fifa_rating : F }.
Arguments mkFifa {F}. Arguments fifa_rating {F}.
(** fifa.rs:112-152 [struct FifaConfig]. *)
Record FifaConfig (F : Type) := mkFifaConfig
  { fifa_importance : F; fifa_knockout : bool; fifa_penalties : bool }.
Arguments mkFifaConfig {F}. Arguments fifa_importance {F}.
Arguments fifa_knockout {F}. Arguments fifa_penalties {F}.

Section S.
  Context {F : Type} {A : Arith F}.

  (** fifa.rs:72-74 [FifaRating::new]. *)
  Definition fifa_new : FifaRating F := mkFifa #1000.
  (** fifa.rs:84-94 [impl Rating]. *)
  Definition fifa_rating_get (r : FifaRating F) : F := fifa_rating r.
  Definition fifa_uncertainty_get (r : FifaRating F) : option F := None.
  Definition fifa_rating_new (rating _uncertainty : option F) : FifaRating F :=
    mkFifa (match rating with Some r => r | None => #1000 end).
  (** fifa.rs:97-101 [From<f64>]. *)
  Definition fifa_from_f64 (r : F) : FifaRating F := mkFifa r.
  (** fifa.rs:103-107 [From<EloRating> for FifaRating]. *)
  Definition fifa_from_elo (e : EloRating F) : FifaRating F := mkFifa (elo_rating e).
  (** fifa.rs:158-164 [FifaConfig::new]. *)
  Definition fifa_config_new : FifaConfig F := mkFifaConfig #10 false false.

  (** fifa.rs:414-419 [expected_score]. *)
  Definition fifa_expected_score (player_one player_two : FifaRating F) : F * F :=
    let exp_one := frecip (#1 + fpow #10 (- (fifa_rating player_one - fifa_rating player_two) / #600)) in
    let exp_two := #1 - exp_one in
    (exp_one, exp_two).

  (** fifa.rs:258-266: [outcome1] of [fifa]; the same expression is used in
      [fifa_rating_period], fifa.rs:373-381. *)
  Definition fifa_outcome1 (config : FifaConfig F) (outcome : Outcomes) : F :=
    if fifa_penalties config then
      if outcome_eqb outcome WIN then flit 75 100 else flit 5 10
    else to_chess_points outcome.
  (** fifa.rs:267-275: [outcome2] of [fifa]. *)
  Definition fifa_outcome2 (config : FifaConfig F) (outcome : Outcomes) : F :=
    if fifa_penalties config then
      if outcome_eqb outcome WIN then flit 75 100 else flit 5 10
    else #1 - fifa_outcome1 config outcome.

  (** fifa.rs:248-302 [fifa]. *)
  Definition fifa (player_one player_two : FifaRating F) (outcome : Outcomes) (config : FifaConfig F)
    : FifaRating F * FifaRating F :=
    let '(one_expected, two_expected) := fifa_expected_score player_one player_two in
    let outcome1 := fifa_outcome1 config outcome in
    let outcome2 := fifa_outcome2 config outcome in
    let new_rating1 := ffma (fifa_importance config) (outcome1 - one_expected) (fifa_rating player_one) in
    let new_rating2 := ffma (fifa_importance config) (outcome2 - two_expected) (fifa_rating player_two) in
    let new_rating1 :=
      if fifa_knockout config && (fifa_rating player_one >? new_rating1) then fifa_rating player_one
      else new_rating1 in
    let new_rating2 :=
      if fifa_knockout config && (fifa_rating player_two >? new_rating2) then fifa_rating player_two
      else new_rating2 in
    (mkFifa new_rating1, mkFifa new_rating2).

  (** fifa.rs:367-388: body of the loop of [fifa_rating_period]. *)
  Definition fifa_period_step (player_rating : F) (r : FifaRating F * Outcomes * FifaConfig F) : F :=
    let '(opponent, result, config) := r in
    let exp := frecip (#1 + fpow #10 (- (player_rating - fifa_rating opponent) / #600)) in
    let outcome := fifa_outcome1 config result in
    let new_rating := ffma (fifa_importance config) (outcome - exp) player_rating in
    if negb (fifa_knockout config && (player_rating >? new_rating)) then new_rating
    else player_rating.

  (** fifa.rs:361-393 [fifa_rating_period]. *)
  Definition fifa_rating_period (player : FifaRating F)
    (results : list (FifaRating F * Outcomes * FifaConfig F)) : FifaRating F :=
    mkFifa (fold_left fifa_period_step results (fifa_rating player)).

  (** fifa.rs:444-449 [expected_score_rating_period]. *)
  Definition fifa_expected_score_rating_period (player : FifaRating F) (opponents : list (FifaRating F))
    : list F :=
    map (fun o => frecip (#1 + fpow #10 (- (fifa_rating player - fifa_rating o) / #600))) opponents.

  (** fifa.rs:178-198 [impl RatingSystem for Fifa]. *)
  Definition fifa_sys_rate (config : FifaConfig F) (p1 p2 : FifaRating F) (o : Outcomes) := fifa p1 p2 o config.
  Definition fifa_sys_expected_score (config : FifaConfig F) (p1 p2 : FifaRating F) := fifa_expected_score p1 p2.
  (** fifa.rs:200-219 [impl RatingPeriodSystem for Fifa]. *)
  Definition fifa_psys_rate (config : FifaConfig F) (p : FifaRating F) (rs : list (FifaRating F * Outcomes)) :=
    fifa_rating_period p (map (fun r => (fst r, snd r, config)) rs).
  Definition fifa_psys_expected_score (config : FifaConfig F) (p : FifaRating F) os :=
    fifa_expected_score_rating_period p os.
End S.

(** elo.rs:127-131 [From<FifaRating> for EloRating]. *)
Definition elo_from_fifa {F} (f : FifaRating F) : EloRating F := mkElo (fifa_rating f).
