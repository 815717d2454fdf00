(** Model of /repo/src/uscf.rs. *)
From Coq Require Import ZArith NArith List Bool.
From Verif Require Import Arith ModelLib ModelElo.
Local Open Scope flt_scope.

(** uscf.rs:82-87 [struct USCFRating]. *)
Record USCFRating (F : Type) := mkUscf { uscf_rating : F; uscf_games : N }.
Arguments mkUscf {F}. Arguments uscf_rating {F}. Arguments uscf_games {F}.
(** uscf.rs:157-166 [struct USCFConfig]. *)
Record USCFConfig (F : Type) := mkUscfConfig { uscf_t : F }.
Arguments mkUscfConfig {F}. Arguments uscf_t {F}.

Section S.
  Context {F : Type} {A : Arith F}.

  (** uscf.rs:94-105 [USCFRating::new]. *)
  Definition uscf_new (age : N) : USCFRating F :=
    mkUscf (if (age <? 2)%N then #100
            else if (26 <=? age)%N then #1300
            else fofN age * #50) 0.
  (** uscf.rs:108-112 [Default]. *)
  Definition uscf_default : USCFRating F := uscf_new 26.
  (** uscf.rs:115-126 [impl Rating]. *)
  Definition uscf_rating_get (r : USCFRating F) : F := uscf_rating r.
  Definition uscf_uncertainty_get (r : USCFRating F) : option F := None.
  Definition uscf_rating_new (rating _uncertainty : option F) : USCFRating F :=
    mkUscf (match rating with Some r => r | None => #1300 end) 0.
  (** uscf.rs:129-136 [From<(f64, usize)>]. *)
  Definition uscf_from_pair (p : F * N) : USCFRating F := mkUscf (fst p) (snd p).
  (** uscf.rs:138-152 [From<EloRating> for USCFRating]. *)
  Definition uscf_from_elo (e : EloRating F) : USCFRating F :=
    if elo_rating e >? #2000 then mkUscf (ffma (flit 94 100) (elo_rating e) #180) 10
    else mkUscf (ffma (flit 102 100) (elo_rating e) #20) 5.
  (** elo.rs:113-125 [From<USCFRating> for EloRating]. *)
  Definition elo_from_uscf (u : USCFRating F) : EloRating F :=
    if uscf_rating u >? #2060 then mkElo ((uscf_rating u - #180) / flit 94 100)
    else mkElo ((uscf_rating u - #20) / flit 102 100).
  (** uscf.rs:171-173 [USCFConfig::new]. *)
  Definition uscf_config_new : USCFConfig F := mkUscfConfig #14.

  (** uscf.rs:518-530 [new_rating_provisional]; [wins], [losses] are i32 in the
      code, unbounded integers here. *)
  Definition uscf_new_rating_provisional (rating : F) (past_games played_games : N)
    (opponent_rating : F) (wins losses : Z) : F :=
    ffma (fofZ (wins - losses)) #400
      (ffma (fofN past_games) rating (fofN played_games * opponent_rating))
    / fofN (usize_add past_games played_games).

  (** uscf.rs:548-550 [e_value]. *)
  Definition uscf_e_value (rating opponent_rating : F) : F :=
    frecip (fpow #10 (- (rating - opponent_rating) / #400) + #1).

  (** uscf.rs:552-561 [effective_game_number]. *)
  Definition uscf_effective_game_number (rating : F) (past_games : N) : F :=
    fmin (if rating <? #2355
          then #50 / fsqrt (ffma (flit 739 100000000) (fpowi (#2569 - rating) 2) (flit 662 1000))
          else #50)
         (fmin (fofN past_games) #50).

  (** uscf.rs:563-576 [get_boost_value]. *)
  Definition uscf_get_boost_value (played_games : N) (k e score t : F) : F :=
    if (played_games <? 3)%N then #0
    else
      let kse := k * (score - e) in
      let tm := t * fsqrt (fofN (N.min played_games 4)) in
      if tm >=? kse then #0 else kse - tm.

  (** uscf.rs:533-546 [new_rating]. *)
  Definition uscf_new_rating (rating : F) (past_games played_games : N) (score e : F)
    (config : USCFConfig F) : F :=
    let ne := uscf_effective_game_number rating past_games in
    let k := #800 / (ne + fofN played_games) in
    let boost := uscf_get_boost_value played_games k e score (uscf_t config) in
    ffma k (score - e) rating + boost.

  (** [i32::from(bool)]. *)
  Definition Z_of_bool (b : bool) : Z := if b then 1%Z else 0%Z.

  (** uscf.rs:268-331 [uscf]. *)
  Definition uscf (player_one player_two : USCFRating F) (outcome : Outcomes) (config : USCFConfig F)
    : USCFRating F * USCFRating F :=
    let outcome1 := to_chess_points outcome in
    let outcome2 := #1 - outcome1 in
    let e1 := uscf_e_value (uscf_rating player_one) (uscf_rating player_two) in
    let e2 := uscf_e_value (uscf_rating player_two) (uscf_rating player_one) in
    let new_rating1 := fmax
      (if (uscf_games player_one <=? 8)%N then
         uscf_new_rating_provisional (uscf_rating player_one) (uscf_games player_one) 1
           (uscf_rating player_two) (Z_of_bool (outcome_eqb outcome WIN)) (Z_of_bool (outcome_eqb outcome LOSS))
       else
         uscf_new_rating (uscf_rating player_one) (uscf_games player_one) 1 outcome1 e1 config) #100 in
    let new_rating2 := fmax
      (if (uscf_games player_two <=? 8)%N then
         uscf_new_rating_provisional (uscf_rating player_two) (uscf_games player_two) 1
           (uscf_rating player_one) (Z_of_bool (outcome_eqb outcome LOSS)) (Z_of_bool (outcome_eqb outcome WIN))
       else
         uscf_new_rating (uscf_rating player_two) (uscf_games player_two) 1 outcome2 e2 config) #100 in
    (mkUscf new_rating1 (usize_add (uscf_games player_one) 1),
     mkUscf new_rating2 (usize_add (uscf_games player_two) 1)).

  (** uscf.rs:399-407: number of results with a given outcome ([wins], [losses]). *)
  Definition uscf_count (o : Outcomes) (results : list (USCFRating F * Outcomes)) : Z :=
    fold_left Z.add (map (fun r => Z_of_bool (outcome_eqb (snd r) o)) results) 0%Z.

  (** uscf.rs:386-444 [uscf_rating_period]. *)
  Definition uscf_rating_period (player : USCFRating F) (results : list (USCFRating F * Outcomes))
    (config : USCFConfig F) : USCFRating F :=
    match results with
    | nil => player
    | _ =>
      let len := N.of_nat (length results) in
      if (uscf_games player <=? 8)%N then
        let avg_opponent_rating := fsum (map (fun r => uscf_rating (fst r)) results) / flen results in
        let wins := uscf_count WIN results in
        let losses := uscf_count LOSS results in
        mkUscf (uscf_new_rating_provisional (uscf_rating player) (uscf_games player) len
                  avg_opponent_rating wins losses)
               (usize_add (uscf_games player) len)
      else
        let score := fsum (map (fun r => to_chess_points (snd r)) results) in
        let exp_sum := fsum (map (fun r => uscf_e_value (uscf_rating player) (uscf_rating (fst r))) results) in
        mkUscf (uscf_new_rating (uscf_rating player) (uscf_games player) len score exp_sum config)
               (usize_add (uscf_games player) len)
    end.

  (** uscf.rs:471-476 [expected_score]. *)
  Definition uscf_expected_score (player_one player_two : USCFRating F) : F * F :=
    let exp_one := uscf_e_value (uscf_rating player_one) (uscf_rating player_two) in
    let exp_two := #1 - exp_one in
    (exp_one, exp_two).

  (** uscf.rs:510-515 [expected_score_rating_period]. *)
  Definition uscf_expected_score_rating_period (player : USCFRating F) (opponents : list (USCFRating F))
    : list F :=
    map (fun o => uscf_e_value (uscf_rating player) (uscf_rating o)) opponents.

  (** uscf.rs:187-207 [impl RatingSystem for USCF]. *)
  Definition uscf_sys_rate (config : USCFConfig F) (p1 p2 : USCFRating F) (o : Outcomes) := uscf p1 p2 o config.
  Definition uscf_sys_expected_score (config : USCFConfig F) (p1 p2 : USCFRating F) := uscf_expected_score p1 p2.
  (** uscf.rs:209-224 [impl RatingPeriodSystem for USCF]. *)
  Definition uscf_psys_rate (config : USCFConfig F) (p : USCFRating F) rs := uscf_rating_period p rs config.
  Definition uscf_psys_expected_score (config : USCFConfig F) (p : USCFRating F) os :=
    uscf_expected_score_rating_period p os.
End S.
