(** Model of /repo/src/trueskill/{mod,erf,math,gaussian,weights}.rs: everything
    except the factor graph (ModelTSGraph.v) and the match-quality matrices
    (ModelTSMatrix.v). *)
From Coq Require Import ZArith NArith List Bool.
From Verif Require Import Arith ModelLib ModelWengLin.
Local Open Scope flt_scope.

(** trueskill/mod.rs:113-118 [struct TrueSkillRating]. *)
Record TrueSkillRating (F : Type) := mkTS { ts_rating : F; ts_uncertainty : F }.
Arguments mkTS {F}. Arguments ts_rating {F}. Arguments ts_uncertainty {F}.
(** trueskill/mod.rs:173-190 [struct TrueSkillConfig]. *)
Record TrueSkillConfig (F : Type) := mkTSConfig
  { ts_draw_probability : F; ts_beta : F; ts_dynamics_factor : F }.
Arguments mkTSConfig {F}. Arguments ts_draw_probability {F}. Arguments ts_beta {F}.
Arguments ts_dynamics_factor {F}.

(** weights.rs:7-22 [enum WeightError]. *)
Inductive WeightError :=
| TeamAmount
| PlayerAmount (team : nat)
| WeightErr (team player : nat).

Section S.
  Context {F : Type} {A : Arith F}.

  (** trueskill/mod.rs:123-128 [TrueSkillRating::new]. *)
  Definition ts_new : TrueSkillRating F := mkTS #25 (#25 / #3).
  (** trueskill/mod.rs:137-150 [impl Rating]. *)
  Definition ts_rating_get (r : TrueSkillRating F) : F := ts_rating r.
  Definition ts_uncertainty_get (r : TrueSkillRating F) : option F := Some (ts_uncertainty r).
  Definition ts_rating_new (rating uncertainty : option F) : TrueSkillRating F :=
    mkTS (match rating with Some r => r | None => #25 end)
         (match uncertainty with Some u => u | None => #25 / #3 end).
  (** trueskill/mod.rs:152-159 [From<(f64, f64)>]. *)
  Definition ts_from_pair (p : F * F) : TrueSkillRating F := mkTS (fst p) (snd p).
  (** trueskill/mod.rs:161-168 [From<WengLinRating> for TrueSkillRating]. *)
  Definition ts_from_wl (w : WengLinRating F) : TrueSkillRating F := mkTS (wl_rating w) (wl_uncertainty w).
  (** weng_lin.rs:130-137 [From<TrueSkillRating> for WengLinRating]. *)
  Definition wl_from_ts (t : TrueSkillRating F) : WengLinRating F := mkWL (ts_rating t) (ts_uncertainty t).
  (** trueskill/mod.rs:196-202 [TrueSkillConfig::new]. *)
  Definition ts_config_new : TrueSkillConfig F :=
    mkTSConfig (flit 1 10) ((#25 / #3) * flit 5 10) (#25 / #300).

  (** erf.rs:15-38: the polynomial under [exp] in [erfc]. *)
  Definition erfc_poly (t z : F) : F :=
    ffma t (ffma t (ffma t (ffma t (ffma t (ffma t (ffma t (ffma t (ffma t
      (flit 17087277 100000000) (flit (-82215223) 100000000))
      (flit 148851587 100000000)) (flit (-113520398) 100000000))
      (flit 27886807 100000000)) (flit (-18628806) 100000000))
      (flit 9678418 100000000)) (flit 37409196 100000000))
      (flit 100002368 100000000)) (ffma (- z) z (flit (-126551223) 100000000)).
  (** erf.rs:10-45 [erfc]. *)
  Definition erfc (x : F) : F :=
    let z := fabs x in
    let t := frecip (#1 + z / #2) in
    let r := t * fexp (erfc_poly t z) in
    if x <? #0 then #2 - r else r.

  (** erf.rs:67-70: one of the two correction steps of [inverse_erfc]. *)
  Definition inverse_erfc_step (y x : F) : F :=
    let err := erfc x - y in
    x + err / ffma ffrac2sqrtpi (fexp (- (fpowi x 2))) (- x * err).
  (** erf.rs:49-77 [inverse_erfc]. *)
  Definition inverse_erfc (y : F) : F :=
    if y >=? #2 then #(-100)
    else if y <=? #0 then #100
    else
      let zero_point := y <? #1 in
      let y := if zero_point then y else #2 - y in
      let t := fsqrt (#(-2) * fln (y / #2)) in
      let x := - ffrac1sqrt2 * (ffma t (flit 27061 100000) (flit 230753 100000)
                 / ffma t (ffma t (flit 4481 100000) (flit 99229 100000)) #1 - t) in
      let x := inverse_erfc_step y x in
      let x := inverse_erfc_step y x in
      if zero_point then x else - x.
  (** erf.rs:80-83 [cdf]. *)
  Definition cdf (x mu sigma : F) : F := flit 5 10 * erfc (- (x - mu) / (sigma * fsqrt2)).
  (** erf.rs:86-88 [inverse_cdf]. *)
  Definition inverse_cdf (x mu sigma : F) : F := ffma (sigma * fsqrt2) (- inverse_erfc (#2 * x)) mu.
  (** erf.rs:91-93 [pdf]. *)
  Definition pdf (x mu sigma : F) : F :=
    frecip (fsqrt (#2 * fpi) * fabs sigma) * fexp (- (fpowi ((x - mu) / fabs sigma) 2 / #2)).

  (** The literal 2.222_758_749e-162 (math.rs:9, 22, 41, 64). *)
  Definition ts_tiny : F := flit 2222758749 (10 ^ 171).

  (** math.rs:3-14 [v_non_draw]. *)
  Definition v_non_draw (difference draw_margin c : F) : F :=
    let diff_c := difference / c in
    let draw_c := draw_margin / c in
    let norm := cdf (diff_c - draw_c) #0 #1 in
    if norm <? ts_tiny then - diff_c + draw_c
    else pdf (diff_c - draw_c) #0 #1 / norm.
  (** math.rs:16-32 [w_non_draw]. *)
  Definition w_non_draw (difference draw_margin c : F) : F :=
    let diff_c := difference / c in
    let draw_c := draw_margin / c in
    let norm := cdf (diff_c - draw_c) #0 #1 in
    if norm <? ts_tiny then (if diff_c <? #0 then #1 else #0)
    else
      let v := v_non_draw difference draw_margin c in
      v * (v + diff_c - draw_c).
  (** math.rs:34-55 [v_draw]. *)
  Definition v_draw (difference draw_margin c : F) : F :=
    let diff_c := difference / c in
    let draw_c := draw_margin / c in
    let diff_c_abs := fabs diff_c in
    let norm := cdf (draw_c - diff_c_abs) #0 #1 - cdf (- draw_c - diff_c_abs) #0 #1 in
    if norm <? ts_tiny then
      (if diff_c <? #0 then - diff_c - draw_c else - diff_c + draw_c)
    else
      let x := pdf (- draw_c - diff_c_abs) #0 #1 - pdf (draw_c - diff_c_abs) #0 #1 in
      if diff_c <? #0 then - x / norm else x / norm.
  (** math.rs:57-77 [w_draw]. *)
  Definition w_draw (difference draw_margin c : F) : F :=
    let diff_c := difference / c in
    let draw_c := draw_margin / c in
    let diff_c_abs := fabs diff_c in
    let norm := cdf (draw_c - diff_c_abs) #0 #1 - cdf (- draw_c - diff_c_abs) #0 #1 in
    if norm <? ts_tiny then #1
    else
      let v := v_draw difference draw_margin c in
      let p1 := pdf (draw_c - diff_c_abs) #0 #1 in
      let p2 := pdf (- draw_c - diff_c_abs) #0 #1 in
      ffma v v (ffma (draw_c - diff_c_abs) p1 (- (- draw_c - diff_c_abs) * p2) / norm).
  (** math.rs:79-90 [new_rating]. *)
  Definition ts_new_rating (rating uncertainty v c dynamics_factor rank_multiplier : F) : F :=
    let mean_multiplier := ffma uncertainty uncertainty (fpowi dynamics_factor 2) / c in
    ffma (rank_multiplier * mean_multiplier) v rating.
  (** math.rs:92-97 [new_uncertainty]. *)
  Definition ts_new_uncertainty (uncertainty c w dynamics_factor : F) : F :=
    let variance := ffma uncertainty uncertainty (fpowi dynamics_factor 2) in
    let dev_multiplier := variance / fpowi c 2 in
    fsqrt (variance * ffma w (- dev_multiplier) #1).

  (** mod.rs:1488-1490 [draw_margin]; [f64::midpoint(a, b)] is (a + b)/2 (std
      rearranges it only near the overflow threshold). *)
  Definition ts_draw_margin (draw_probability beta total_players : F) : F :=
    inverse_cdf ((draw_probability + #1) / #2) #0 #1 * fsqrt total_players * beta.

  (** mod.rs:366-369, 490-493, 610-613: winner's minus loser's rating. *)
  Definition ts_rating_delta (outcome : Outcomes) (r1 r2 : F) : F :=
    match outcome with WIN | DRAW => r1 - r2 | LOSS => r2 - r1 end.
  (** mod.rs:371-381, 495-505, 615-625: [(v, w)]. *)
  Definition ts_vw (outcome : Outcomes) (rating_delta draw_margin c : F) : F * F :=
    if outcome_eqb outcome DRAW then (v_draw rating_delta draw_margin c, w_draw rating_delta draw_margin c)
    else (v_non_draw rating_delta draw_margin c, w_non_draw rating_delta draw_margin c).
  (** mod.rs:385-388, 507-510, 627-630: rank multipliers. *)
  Definition ts_rank_multipliers (outcome : Outcomes) : F * F :=
    match outcome with WIN | DRAW => (#1, #(-1)) | LOSS => (#(-1), #1) end.
  (** mod.rs:356-363, 483-488: the value [c] of two players. *)
  Definition ts_c_players (beta u1 u2 : F) : F :=
    fsqrt (ffma #2 (fpowi beta 2) (ffma u1 u1 (fpowi u2 2))).

  (** mod.rs:348-420 [trueskill]. *)
  Definition trueskill (player_one player_two : TrueSkillRating F) (outcome : Outcomes)
    (config : TrueSkillConfig F) : TrueSkillRating F * TrueSkillRating F :=
    let draw_margin := ts_draw_margin (ts_draw_probability config) (ts_beta config) #2 in
    let c := ts_c_players (ts_beta config) (ts_uncertainty player_one) (ts_uncertainty player_two) in
    let rating_delta := ts_rating_delta outcome (ts_rating player_one) (ts_rating player_two) in
    let '(v, w) := ts_vw outcome rating_delta draw_margin c in
    let '(rank_multiplier1, rank_multiplier2) := ts_rank_multipliers outcome in
    let new_rating1 := ts_new_rating (ts_rating player_one) (ts_uncertainty player_one) v c
                         (ts_dynamics_factor config) rank_multiplier1 in
    let new_rating2 := ts_new_rating (ts_rating player_two) (ts_uncertainty player_two) v c
                         (ts_dynamics_factor config) rank_multiplier2 in
    let new_uncertainty1 := ts_new_uncertainty (ts_uncertainty player_one) c w (ts_dynamics_factor config) in
    let new_uncertainty2 := ts_new_uncertainty (ts_uncertainty player_two) c w (ts_dynamics_factor config) in
    (mkTS new_rating1 new_uncertainty1, mkTS new_rating2 new_uncertainty2).

  (** mod.rs:482-521: body of the loop of [trueskill_rating_period]. *)
  Definition ts_period_step (config : TrueSkillConfig F) (draw_margin : F) (st : F * F)
    (r : TrueSkillRating F * Outcomes) : F * F :=
    let '(player_rating, player_uncertainty) := st in
    let '(opponent, result) := r in
    let c := ts_c_players (ts_beta config) player_uncertainty (ts_uncertainty opponent) in
    let rating_delta := ts_rating_delta result player_rating (ts_rating opponent) in
    let '(v, w) := ts_vw result rating_delta draw_margin c in
    let rank_multiplier := fst (ts_rank_multipliers result) in
    (ts_new_rating player_rating player_uncertainty v c (ts_dynamics_factor config) rank_multiplier,
     ts_new_uncertainty player_uncertainty c w (ts_dynamics_factor config)).

  (** mod.rs:472-527 [trueskill_rating_period]. *)
  Definition trueskill_rating_period (player : TrueSkillRating F) (results : list (TrueSkillRating F * Outcomes))
    (config : TrueSkillConfig F) : TrueSkillRating F :=
    let draw_margin := ts_draw_margin (ts_draw_probability config) (ts_beta config) #2 in
    let '(r, u) := fold_left (ts_period_step config draw_margin) results (ts_rating player, ts_uncertainty player) in
    mkTS r u.

  (** mod.rs:597-598, 1037-1038, 1273-1274, 1366, 1374: sum of a team's ratings. *)
  Definition ts_team_rating (team : list (TrueSkillRating F)) : F := fsum (map ts_rating team).
  (** mod.rs:600-601, 1040-1041, 1276-1277, 1367, 1375: sum of squared uncertainties. *)
  Definition ts_team_uncertainty_sq (team : list (TrueSkillRating F)) : F :=
    fsum (map (fun p => fpowi (ts_uncertainty p) 2) team).
  (** mod.rs:593, 1035, 1271: [(team_one.len() + team_two.len()) as f64]. *)
  Definition ts_total_players (team_one team_two : list (TrueSkillRating F)) : F :=
    fofZ (Z.of_nat (length team_one + length team_two)).

  (** mod.rs:635-650, 652-667: per-player update of a team. *)
  Definition ts_update_team (config : TrueSkillConfig F) (v w c rank_multiplier : F)
    (team : list (TrueSkillRating F)) : list (TrueSkillRating F) :=
    map (fun player =>
      mkTS (ts_new_rating (ts_rating player) (ts_uncertainty player) v c (ts_dynamics_factor config) rank_multiplier)
           (ts_new_uncertainty (ts_uncertainty player) c w (ts_dynamics_factor config))) team.

  (** mod.rs:583-670 [trueskill_two_teams]. *)
  Definition trueskill_two_teams (team_one team_two : list (TrueSkillRating F)) (outcome : Outcomes)
    (config : TrueSkillConfig F) : list (TrueSkillRating F) * list (TrueSkillRating F) :=
    if is_empty team_one || is_empty team_two then (team_one, team_two)
    else
      let total_players := ts_total_players team_one team_two in
      let draw_margin := ts_draw_margin (ts_draw_probability config) (ts_beta config) total_players in
      let rating_one_sum := ts_team_rating team_one in
      let rating_two_sum := ts_team_rating team_two in
      let uncertainty_one_sum := ts_team_uncertainty_sq team_one in
      let uncertainty_two_sum := ts_team_uncertainty_sq team_two in
      let c := fsqrt (ffma total_players (fpowi (ts_beta config) 2) (uncertainty_one_sum + uncertainty_two_sum)) in
      let rating_delta := ts_rating_delta outcome rating_one_sum rating_two_sum in
      let '(v, w) := ts_vw outcome rating_delta draw_margin c in
      let '(rank_multiplier1, rank_multiplier2) := ts_rank_multipliers outcome in
      (ts_update_team config v w c rank_multiplier1 team_one,
       ts_update_team config v w c rank_multiplier2 team_two).

  (** mod.rs:925-948 [match_quality]. *)
  Definition match_quality (player_one player_two : TrueSkillRating F) (config : TrueSkillConfig F) : F :=
    let delta := ts_rating player_one - ts_rating player_two in
    let a := fsqrt ((#2 * fpowi (ts_beta config) 2)
      / ffma (ts_uncertainty player_two) (ts_uncertainty player_two)
          (ffma #2 (fpowi (ts_beta config) 2) (fpowi (ts_uncertainty player_one) 2))) in
    let b := fexp ((- fpowi delta 2)
      / (#2 * ffma (ts_uncertainty player_two) (ts_uncertainty player_two)
                (ffma #2 (fpowi (ts_beta config) 2) (fpowi (ts_uncertainty player_one) 2)))) in
    a * b.

  (** mod.rs:978-989 [match_quality_rating_period]. *)
  Definition match_quality_rating_period (player : TrueSkillRating F) (results : list (TrueSkillRating F))
    (config : TrueSkillConfig F) : list F :=
    map (fun r => match_quality player r config) results.

  (** mod.rs:1030-1054 [match_quality_two_teams]. *)
  Definition match_quality_two_teams (team_one team_two : list (TrueSkillRating F)) (config : TrueSkillConfig F) : F :=
    let total_players := ts_total_players team_one team_two in
    let rating_one_sum := ts_team_rating team_one in
    let rating_two_sum := ts_team_rating team_two in
    let uncertainty_one_sum := ts_team_uncertainty_sq team_one in
    let uncertainty_two_sum := ts_team_uncertainty_sq team_two in
    let a := fsqrt ((total_players * fpowi (ts_beta config) 2)
      / (ffma total_players (fpowi (ts_beta config) 2) uncertainty_one_sum + uncertainty_two_sum)) in
    let b := fexp ((- fpowi (rating_one_sum - rating_two_sum) 2)
      / (#2 * (ffma total_players (fpowi (ts_beta config) 2) uncertainty_one_sum + uncertainty_two_sum))) in
    a * b.

  (** mod.rs:1206-1212, 1445-1451: denominator of the expected score. *)
  Definition ts_denom (beta u1 u2 : F) : F :=
    fsqrt (ffma u2 u2 (ffma #2 (fpowi beta 2) (fpowi u1 2))).

  (** mod.rs:1199-1218 [expected_score]. *)
  Definition ts_expected_score (player_one player_two : TrueSkillRating F) (config : TrueSkillConfig F) : F * F :=
    let delta := ts_rating player_one - ts_rating player_two in
    let denom := ts_denom (ts_beta config) (ts_uncertainty player_one) (ts_uncertainty player_two) in
    let exp_one := cdf (delta / denom) #0 #1 in
    let exp_two := #1 - exp_one in
    (exp_one, exp_two).

  (** mod.rs:1266-1289 [expected_score_two_teams]. *)
  Definition ts_expected_score_two_teams (team_one team_two : list (TrueSkillRating F)) (config : TrueSkillConfig F)
    : F * F :=
    let player_count := ts_total_players team_one team_two in
    let delta := ts_team_rating team_one - ts_team_rating team_two in
    let denom := fsqrt (ts_team_uncertainty_sq team_two
                        + ffma player_count (fpowi (ts_beta config) 2) (ts_team_uncertainty_sq team_one)) in
    let exp_one := cdf (delta / denom) #0 #1 in
    let exp_two := #1 - exp_one in
    (exp_one, exp_two).

  (** mod.rs:1369-1387: probabilities of team [i] against each other team. *)
  Definition ts_win_probabilities (config : TrueSkillConfig F) (player_count : F)
    (teams : list (list (TrueSkillRating F))) (i : nat) (team_one : list (TrueSkillRating F)) : list F :=
    flat_map (fun x : nat * list (TrueSkillRating F) =>
      let '(j, team_two) := x in
      if Nat.eqb i j then nil
      else
        let delta := ts_team_rating team_one - ts_team_rating team_two in
        let denom := fsqrt (ts_team_uncertainty_sq team_two
                            + ffma player_count (fpowi (ts_beta config) 2) (ts_team_uncertainty_sq team_one)) in
        cons (cdf (delta / denom) #0 #1) nil) (enumerate teams).

  (** mod.rs:1352-1399 [expected_score_multi_team]. *)
  Definition ts_expected_score_multi_team (teams : list (list (TrueSkillRating F))) (config : TrueSkillConfig F)
    : list F :=
    let player_count := fofZ (Z.of_nat (list_sum (map (@length _) teams))) in
    let win_probabilities :=
      map (fun x : nat * list (TrueSkillRating F) =>
             ts_win_probabilities config player_count teams (fst x) (snd x)) (enumerate teams) in
    let total_probability := fold_left fadd (concat win_probabilities) #0 in
    map (fun probability => fsum probability / total_probability) win_probabilities.

  (** mod.rs:1435-1456 [expected_score_rating_period]. *)
  Definition ts_expected_score_rating_period (player : TrueSkillRating F) (opponents : list (TrueSkillRating F))
    (config : TrueSkillConfig F) : list F :=
    map (fun o =>
      let delta := ts_rating player - ts_rating o in
      let denom := ts_denom (ts_beta config) (ts_uncertainty player) (ts_uncertainty o) in
      cdf (delta / denom) #0 #1) opponents.

  (** mod.rs:1484-1486 [get_rank]. *)
  Definition ts_get_rank (player : TrueSkillRating F) : F :=
    ffma (ts_uncertainty player) (#(-3)) (ts_rating player).

  (** weights.rs:59-63: first negative weight of a team. *)
  Fixpoint first_negative (j : nat) (ws : list F) : option nat :=
    match ws with
    | nil => None
    | cons w ws' => if w <? #0 then Some j else first_negative (S j) ws'
    end.
  (** weights.rs:54-64: validation loop; [teams[i]] is read along the zip (both
      lists have the same length here). *)
  Fixpoint check_weights (i : nat) (teams : list (list (TrueSkillRating F))) (weights : list (list F))
    : option WeightError :=
    match weights, teams with
    | cons ws weights', cons team teams' =>
      if negb (Nat.eqb (length ws) (length team)) then Some (PlayerAmount i)
      else match first_negative 0 ws with
           | Some j => Some (WeightErr i j)
           | None => check_weights (S i) teams' weights'
           end
    | _, _ => None
    end.
  (** weights.rs:45-70 [get_weights]. *)
  Definition get_weights (teams : list (list (TrueSkillRating F))) (raw_weights : option (list (list F)))
    : Res WeightError (list (list F)) :=
    match raw_weights with
    | Some weights =>
      if negb (Nat.eqb (length weights) (length teams)) then Err TeamAmount
      else match check_weights 0 teams weights with
           | Some e => Err e
           | None => Ok weights
           end
    | None => Ok (map (fun team => repeat #1 (length team)) teams)
    end.

  (** mod.rs:216-240 [impl RatingSystem for TrueSkill]. *)
  Definition ts_sys_rate (config : TrueSkillConfig F) (p1 p2 : TrueSkillRating F) (o : Outcomes) := trueskill p1 p2 o config.
  Definition ts_sys_expected_score (config : TrueSkillConfig F) (p1 p2 : TrueSkillRating F) := ts_expected_score p1 p2 config.
  (** mod.rs:242-261 [impl RatingPeriodSystem for TrueSkill]. *)
  Definition ts_psys_rate (config : TrueSkillConfig F) (p : TrueSkillRating F) rs := trueskill_rating_period p rs config.
  Definition ts_psys_expected_score (config : TrueSkillConfig F) (p : TrueSkillRating F) os :=
    ts_expected_score_rating_period p os config.
  (** mod.rs:263-283 [impl TeamRatingSystem for TrueSkill]. *)
  Definition ts_tsys_rate (config : TrueSkillConfig F) t1 t2 (o : Outcomes) := trueskill_two_teams t1 t2 o config.
  Definition ts_tsys_expected_score (config : TrueSkillConfig F) t1 t2 := ts_expected_score_two_teams t1 t2 config.
End S.
