(** Model of /repo/src/dwz.rs. *)
From Coq Require Import ZArith NArith List Bool.
From Verif Require Import Arith ModelLib ModelElo.
Import ListNotations.
Local Open Scope flt_scope.

(** dwz.rs:65-72 [struct DWZRating]. *)
Record DWZRating (F : Type) := mkDwz { dwz_rating : F; dwz_index : N; dwz_age : N }.
Arguments mkDwz {F}. Arguments dwz_rating {F}. Arguments dwz_index {F}. Arguments dwz_age {F}.

(** dwz.rs:144-149 [enum GetFirstDWZError]. *)
Inductive GetFirstDWZError := NotEnoughGames | InvalidWinRate.

Section S.
  Context {F : Type} {A : Arith F}.

  (** dwz.rs:78-84 [DWZRating::new]. *)
  Definition dwz_new (age : N) : DWZRating F := mkDwz #1000 1 age.
  (** dwz.rs:87-91 [Default]. *)
  Definition dwz_default : DWZRating F := dwz_new 26.
  (** dwz.rs:93-107 [impl Rating]. *)
  Definition dwz_rating_get (r : DWZRating F) : F := dwz_rating r.
  Definition dwz_uncertainty_get (r : DWZRating F) : option F := None.
  Definition dwz_rating_new (rating _uncertainty : option F) : DWZRating F :=
    mkDwz (match rating with Some r => r | None => #1000 end) 1 26.
  (** dwz.rs:109-117 [From<(f64, usize, usize)>]. *)
  Definition dwz_from_triple (r : F) (i a : N) : DWZRating F := mkDwz r i a.
  (** dwz.rs:120-128 [From<(f64, usize)>]. *)
  Definition dwz_from_pair (r : F) (i : N) : DWZRating F := mkDwz r i 26.
  (** dwz.rs:130-139 [From<EloRating> for DWZRating]. *)
  Definition dwz_from_elo (e : EloRating F) : DWZRating F := mkDwz (elo_rating e) 6 (dwz_age dwz_default).
  (** elo.rs:107-111 [From<DWZRating> for EloRating]. *)
  Definition elo_from_dwz (d : DWZRating F) : EloRating F := mkElo (dwz_rating d).

  (** dwz.rs:608-649 [e_value]. *)
  Definition dwz_e_value (rating : F) (age : N) (score expected_score : F) (index : N) : F :=
    let j := if (age <=? 20)%N then #5 else if (age <=? 25)%N then #10 else #15 in
    let e0 := fpowi (rating / #1000) 4 + j in
    let a := if (age <? 20)%N && (score >=? expected_score) then rating / #2000 else #1 in
    let b := if (rating <? #1300) && (score <=? expected_score)
             then fexpm1 ((#1300 - rating) / #150) else #0 in
    let e := ffma a e0 b in
    if e <=? #5 then #5
    else if b =? #0 then
      if e >=? fmin #30 (#5 * fofN index) then fmin #30 (#5 * fofN index) else e
    else if e >=? #150 then #150
    else e.

  (** dwz.rs:651-659 [new_rating]. *)
  Definition dwz_new_rating (old_rating e score expected_score matches_played : F) : F :=
    ffma (#800 / (e + matches_played)) (score - expected_score) old_rating.

  (** dwz.rs:392-399 [expected_score]. *)
  Definition dwz_expected_score (player_one player_two : DWZRating F) : F * F :=
    let exp_one := frecip (#1 + fpow #10 (- (frecip #400) * (dwz_rating player_one - dwz_rating player_two))) in
    let exp_two := #1 - exp_one in
    (exp_one, exp_two).

  (** dwz.rs:249-300 [dwz]. *)
  Definition dwz (player_one player_two : DWZRating F) (outcome : Outcomes) : DWZRating F * DWZRating F :=
    let outcome1 := to_chess_points outcome in
    let outcome2 := #1 - outcome1 in
    let '(exp1, exp2) := dwz_expected_score player_one player_two in
    let r1 := dwz_new_rating (dwz_rating player_one)
                (dwz_e_value (dwz_rating player_one) (dwz_age player_one) outcome1 exp1 (dwz_index player_one))
                outcome1 exp1 #1 in
    let r2 := dwz_new_rating (dwz_rating player_two)
                (dwz_e_value (dwz_rating player_two) (dwz_age player_two) outcome2 exp2 (dwz_index player_two))
                outcome2 exp2 #1 in
    (mkDwz r1 (usize_add (dwz_index player_one) 1) (dwz_age player_one),
     mkDwz r2 (usize_add (dwz_index player_two) 1) (dwz_age player_two)).

  (** dwz.rs:343-363 [dwz_rating_period]. *)
  Definition dwz_rating_period (player : DWZRating F) (results : list (DWZRating F * Outcomes)) : DWZRating F :=
    let points := fsum (map (fun r => to_chess_points (snd r)) results) in
    let expected_points := fsum (map (fun r => fst (dwz_expected_score player (fst r))) results) in
    let new_rating :=
      ffma (#800 / (dwz_e_value (dwz_rating player) (dwz_age player) points expected_points (dwz_index player)
                    + flen results))
           (points - expected_points) (dwz_rating player) in
    mkDwz new_rating (usize_add (dwz_index player) 1) (dwz_age player).

  (** dwz.rs:436-441 [expected_score_rating_period]. *)
  Definition dwz_expected_score_rating_period (player : DWZRating F) (opponents : list (DWZRating F)) : list F :=
    map (fun o => frecip (#1 + fpow #10 (- (frecip #400) * (dwz_rating player - dwz_rating o)))) opponents.

  (** dwz.rs:531-583: the values of [probability_table], keys 0..=50 in order.
      All are negative integers in the code (the last one is -0.). *)
  Definition dwz_probability_table : list Z :=
    [-728; -614; -555; -513; -480; -453; -429; -408; -389; -371;
     -355; -340; -326; -312; -300; -288; -276; -265; -254; -244;
     -234; -224; -214; -205; -196; -187; -178; -170; -161; -153;
     -145; -137; -129; -121; -113; -106; -98; -91; -83; -76;
     -69; -61; -54; -47; -40; -32; -25; -18; -11; -4;
     0]%Z.
  (** [probability_table.get(&k)] of the HashMap. *)
  Definition dwz_table_get (k : Z) : option F :=
    if (k <? 0)%Z then None else option_map fofZ (nth_error dwz_probability_table (Z.to_nat k)).

  (** dwz.rs:506-606 [get_first_dwz]. *)
  Definition get_first_dwz (player_age : N) (results : list (DWZRating F * Outcomes))
    : Res GetFirstDWZError (DWZRating F) :=
    if Nat.ltb (length results) 5 then Err NotEnoughGames
    else
      let points := fsum (map (fun r => to_chess_points (snd r)) results) in
      if (fabs (points - flen results) <? feps) || (points =? #0) then Err InvalidWinRate
      else
        let average_rating := fsum (map (fun r => dwz_rating (fst r)) results) / flen results in
        let p := ftoZ (fround ((points / flen results) * #100)) in
        let new_rating :=
          if (50 <? p)%Z then
            let temp := match dwz_table_get (Z.abs (p - 100)) with Some v => v | None => #0 end in
            fabs temp + average_rating
          else
            (match dwz_table_get p with Some v => v | None => #0 end) + average_rating in
        let new_rating := if new_rating <=? #800 then #700 + new_rating / #8 else new_rating in
        Ok (mkDwz new_rating 1 player_age).

  (** dwz.rs:167-187 [impl RatingSystem for DWZ] (config is [()]). *)
  Definition dwz_sys_rate (_ : unit) (p1 p2 : DWZRating F) (o : Outcomes) := dwz p1 p2 o.
  Definition dwz_sys_expected_score (_ : unit) (p1 p2 : DWZRating F) := dwz_expected_score p1 p2.
  (** dwz.rs:189-204 [impl RatingPeriodSystem for DWZ]. *)
  Definition dwz_psys_rate (_ : unit) (p : DWZRating F) rs := dwz_rating_period p rs.
  Definition dwz_psys_expected_score (_ : unit) (p : DWZRating F) os := dwz_expected_score_rating_period p os.
End S.
