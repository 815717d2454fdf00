(** Model of /repo/src/egf.rs. *)
From Coq Require Import ZArith NArith List Bool.
From Verif Require Import Arith ModelLib.
Local Open Scope flt_scope.

(** egf.rs:70-73 [struct EGFRating]. *)
Record EGFRating (F : Type) := mkEgf { egf_rating : F }.
Arguments mkEgf {F}. Arguments egf_rating {F}.
(** egf.rs:112-125 [struct EGFConfig]. *)
Record EGFConfig (F : Type) := mkEgfConfig { egf_handicap : F }.
Arguments mkEgfConfig {F}. Arguments egf_handicap {F}.

Section S.
  Context {F : Type} {A : Arith F}.

  (** egf.rs:78-80 [EGFRating::new]. *)
  Definition egf_new : EGFRating F := mkEgf #0.
  (** egf.rs:89-101 [impl Rating]. *)
  Definition egf_rating_get (r : EGFRating F) : F := egf_rating r.
  Definition egf_uncertainty_get (r : EGFRating F) : option F := None.
  Definition egf_rating_new (rating _uncertainty : option F) : EGFRating F :=
    mkEgf (match rating with Some r => r | None => #0 end).
  (** egf.rs:103-107 [From<f64>]. *)
  Definition egf_from_f64 (r : F) : EGFRating F := mkEgf r.
  (** egf.rs:130-132 [EGFConfig::new]. *)
  Definition egf_config_new : EGFConfig F := mkEgfConfig #0.

  (** egf.rs:414-417 [new_rating]. *)
  Definition egf_new_rating (rating con score exp_score bonus : F) : F :=
    fmax (ffma con (score - exp_score) rating + bonus) (#(-900)).
  (** egf.rs:421-423 [con]. *)
  Definition egf_con (rating : F) : F := fpow ((#3300 - rating) / #200) (flit 16 10).
  (** egf.rs:426-428 [bonus]. *)
  Definition egf_bonus (rating : F) : F := fln1p (fexp ((#2300 - rating) / #80)) / #5.
  (** egf.rs:430-441 [beta]. *)
  Definition egf_beta (rating handicap : F) : F :=
    let h := if handicap =? #0 then #0 else #100 * (handicap - flit 5 10) in
    #(-7) * fln (#3300 - h - rating).

  (** egf.rs:355-359, 403-407: handicap split [(h1, h2)]. *)
  Definition egf_handicap_split (config : EGFConfig F) : F * F :=
    if fsignneg (egf_handicap config) then (fabs (egf_handicap config), #0)
    else (#0, fabs (egf_handicap config)).

  (** egf.rs:350-364 [expected_score]. *)
  Definition egf_expected_score (player_one player_two : EGFRating F) (config : EGFConfig F) : F * F :=
    let '(h1, h2) := egf_handicap_split config in
    let exp_one := frecip (#1 + fexp (egf_beta (egf_rating player_two) h2 - egf_beta (egf_rating player_one) h1)) in
    (exp_one, #1 - exp_one).

  (** egf.rs:220-248 [egf]. *)
  Definition egf (player_one player_two : EGFRating F) (outcome : Outcomes) (config : EGFConfig F)
    : EGFRating F * EGFRating F :=
    let con1 := egf_con (egf_rating player_one) in
    let con2 := egf_con (egf_rating player_two) in
    let bonus1 := egf_bonus (egf_rating player_one) in
    let bonus2 := egf_bonus (egf_rating player_two) in
    let '(exp1, exp2) := egf_expected_score player_one player_two config in
    let outcome1 := to_chess_points outcome in
    let outcome2 := #1 - outcome1 in
    let new_rating1 := egf_new_rating (egf_rating player_one) con1 outcome1 exp1 bonus1 in
    let new_rating2 := egf_new_rating (egf_rating player_two) con2 outcome2 exp2 bonus2 in
    (mkEgf new_rating1, mkEgf new_rating2).

  (** egf.rs:313-319: body of the loop of [egf_rating_period]. *)
  Definition egf_period_step (player : EGFRating F) (con bonus rating_change : F)
    (r : EGFRating F * Outcomes * EGFConfig F) : F :=
    let '(opponent, result, config) := r in
    let '(exp1, _) := egf_expected_score player opponent config in
    let outcome := to_chess_points result in
    rating_change + (egf_new_rating (egf_rating player) con outcome exp1 bonus - egf_rating player).

  (** egf.rs:301-324 [egf_rating_period]. *)
  Definition egf_rating_period (player : EGFRating F)
    (results : list (EGFRating F * Outcomes * EGFConfig F)) : EGFRating F :=
    let con := egf_con (egf_rating player) in
    let bonus := egf_bonus (egf_rating player) in
    let rating_change := fold_left (egf_period_step player con bonus) results #0 in
    mkEgf (egf_rating player + rating_change).

  (** egf.rs:396-412 [expected_score_rating_period]. *)
  Definition egf_expected_score_rating_period (player : EGFRating F)
    (opponents : list (EGFRating F * EGFConfig F)) : list F :=
    map (fun o =>
      let '(h1, h2) := egf_handicap_split (snd o) in
      frecip (#1 + fexp (egf_beta (egf_rating (fst o)) h2 - egf_beta (egf_rating player) h1))) opponents.

  (** egf.rs:146-166 [impl RatingSystem for EGF]. *)
  Definition egf_sys_rate (config : EGFConfig F) (p1 p2 : EGFRating F) (o : Outcomes) := egf p1 p2 o config.
  Definition egf_sys_expected_score (config : EGFConfig F) (p1 p2 : EGFRating F) := egf_expected_score p1 p2 config.
  (** egf.rs:168-190 [impl RatingPeriodSystem for EGF]. *)
  Definition egf_psys_rate (config : EGFConfig F) (p : EGFRating F) (rs : list (EGFRating F * Outcomes)) :=
    egf_rating_period p (map (fun r => (fst r, snd r, config)) rs).
  Definition egf_psys_expected_score (config : EGFConfig F) (p : EGFRating F) (os : list (EGFRating F)) :=
    egf_expected_score_rating_period p (map (fun o => (o, config)) os).
End S.
