(** Model of /repo/src/ingo.rs. *)
From Coq Require Import ZArith NArith List Bool.
From Verif Require Import Arith ModelLib ModelElo.
Local Open Scope flt_scope.

(** ingo.rs:62-68 [struct IngoRating]. *)
Record IngoRating (F : Type) := mkIngo { ingo_rating : F; ingo_age : N }.
Arguments mkIngo {F}. Arguments ingo_rating {F}. Arguments ingo_age {F}.

Section S.
  Context {F : Type} {A : Arith F}.

  (** ingo.rs:74-76 [IngoRating::new]. *)
  Definition ingo_new (age : N) : IngoRating F := mkIngo #230 age.
  (** ingo.rs:79-83 [Default]. *)
  Definition ingo_default : IngoRating F := ingo_new 26.
  (** ingo.rs:86-97 [impl Rating]. *)
  Definition ingo_rating_get (r : IngoRating F) : F := ingo_rating r.
  Definition ingo_uncertainty_get (r : IngoRating F) : option F := None.
  Definition ingo_rating_new (rating _uncertainty : option F) : IngoRating F :=
    mkIngo (match rating with Some r => r | None => #230 end) 26.
  (** ingo.rs:100-104 [From<(f64, usize)>]. *)
  Definition ingo_from_pair (p : F * N) : IngoRating F := mkIngo (fst p) (snd p).
  (** ingo.rs:107-111 [From<f64>]. *)
  Definition ingo_from_f64 (r : F) : IngoRating F := mkIngo r 26.
  (** ingo.rs:113-120 [From<EloRating> for IngoRating]. *)
  Definition ingo_from_elo (e : EloRating F) : IngoRating F :=
    mkIngo (#355 - (elo_rating e / #8)) (ingo_age ingo_default).
  (** elo.rs:99-105 [From<IngoRating> for EloRating]. *)
  Definition elo_from_ingo (i : IngoRating F) : EloRating F :=
    mkElo (ffma #8 (- ingo_rating i) #2840).

  (** ingo.rs:379-381 [performance]. *)
  Definition ingo_performance (average_rating score : F) : F :=
    average_rating - ffma #100 score (#(-50)).

  (** ingo.rs:384-390 [age_to_devcoefficent]. *)
  Definition ingo_age_to_devcoefficent (age : N) : F :=
    if (age <=? 20)%N then #10 else if (age <=? 25)%N then #15 else #20.

  (** ingo.rs:201-228 [ingo]. *)
  Definition ingo (player_one player_two : IngoRating F) (outcome : Outcomes)
    : IngoRating F * IngoRating F :=
    let outcome1 := to_chess_points outcome in
    let outcome2 := #1 - outcome1 in
    let perf1 := ingo_performance (ingo_rating player_two) outcome1 in
    let perf2 := ingo_performance (ingo_rating player_one) outcome2 in
    let development1 := ingo_age_to_devcoefficent (ingo_age player_one) in
    let development2 := ingo_age_to_devcoefficent (ingo_age player_two) in
    let new_rating1 := ffma perf1 #1 (ingo_rating player_one * development1) / (#1 + development1) in
    let new_rating2 := ffma perf2 #1 (ingo_rating player_two * development2) / (#1 + development2) in
    (mkIngo new_rating1 (ingo_age player_one), mkIngo new_rating2 (ingo_age player_two)).

  (** ingo.rs:282-301 [ingo_rating_period]. *)
  Definition ingo_rating_period (player : IngoRating F) (results : list (IngoRating F * Outcomes))
    : IngoRating F :=
    let development := ingo_age_to_devcoefficent (ingo_age player) in
    let average_points := fsum (map (fun r => to_chess_points (snd r)) results) / flen results in
    let average_opponent_rating := fsum (map (fun r => ingo_rating (fst r)) results) / flen results in
    let performance := ingo_performance average_opponent_rating average_points in
    let new_rating := ffma performance (flen results) (ingo_rating player * development)
                      / (flen results + development) in
    mkIngo new_rating (ingo_age player).

  (** ingo.rs:333-338 [expected_score]. *)
  Definition ingo_expected_score (player_one player_two : IngoRating F) : F * F :=
    let exp_one := flit 5 10 + (ingo_rating player_two - ingo_rating player_one) / #100 in
    let exp_two := #1 - exp_one in
    (exp_one, exp_two).

  (** ingo.rs:372-377 [expected_score_rating_period]. *)
  Definition ingo_expected_score_rating_period (player : IngoRating F) (opponents : list (IngoRating F))
    : list F :=
    map (fun o => flit 5 10 + (ingo_rating o - ingo_rating player) / #100) opponents.

  (** ingo.rs:125-146 [impl RatingSystem for Ingo] (config is [()]). *)
  Definition ingo_sys_rate (_ : unit) (p1 p2 : IngoRating F) (o : Outcomes) := ingo p1 p2 o.
  Definition ingo_sys_expected_score (_ : unit) (p1 p2 : IngoRating F) := ingo_expected_score p1 p2.
  (** ingo.rs:148-163 [impl RatingPeriodSystem for Ingo]. *)
  Definition ingo_psys_rate (_ : unit) (p : IngoRating F) rs := ingo_rating_period p rs.
  Definition ingo_psys_expected_score (_ : unit) (p : IngoRating F) os := ingo_expected_score_rating_period p os.
End S.
