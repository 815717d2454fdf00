(** Model of /repo/src/weng_lin.rs. *)
From Coq Require Import ZArith NArith List Bool.
From Verif Require Import Arith ModelLib.
Local Open Scope flt_scope.

(** weng_lin.rs:82-87 [struct WengLinRating]. *)
Record WengLinRating (F : Type) := mkWL { wl_rating : F; wl_uncertainty : F }.
Arguments mkWL {F}. Arguments wl_rating {F}. Arguments wl_uncertainty {F}.
(** weng_lin.rs:142-154 [struct WengLinConfig]. *)
Record WengLinConfig (F : Type) := mkWLConfig { wl_beta : F; wl_uncertainty_tolerance : F }.
Arguments mkWLConfig {F}. Arguments wl_beta {F}. Arguments wl_uncertainty_tolerance {F}.

(** [iter().enumerate()]. *)
Definition enumerate {X} (l : list X) : list (nat * X) := combine (seq 0 (length l)) l.

(** [slice.is_empty()]. *)
Definition is_empty {X} (l : list X) : bool := match l with nil => true | _ => false end.

Section S.
  Context {F : Type} {A : Arith F}.

  (** weng_lin.rs:92-97 [WengLinRating::new]. *)
  Definition wl_new : WengLinRating F := mkWL #25 (#25 / #3).
  (** weng_lin.rs:106-119 [impl Rating]. *)
  Definition wl_rating_get (r : WengLinRating F) : F := wl_rating r.
  Definition wl_uncertainty_get (r : WengLinRating F) : option F := Some (wl_uncertainty r).
  Definition wl_rating_new (rating uncertainty : option F) : WengLinRating F :=
    mkWL (match rating with Some r => r | None => #25 end)
         (match uncertainty with Some u => u | None => #25 / #3 end).
  (** weng_lin.rs:121-128 [From<(f64, f64)>]. *)
  Definition wl_from_pair (p : F * F) : WengLinRating F := mkWL (fst p) (snd p).
  (** weng_lin.rs:160-165 [WengLinConfig::new]. *)
  Definition wl_config_new : WengLinConfig F := mkWLConfig (#25 / #6) (flit 1 1000000).

  (** weng_lin.rs:973-981 [p_value]. *)
  Definition wl_p_value (rating_one rating_two c_value : F) : F * F :=
    let e1 := fexp (rating_one / c_value) in
    let e2 := fexp (rating_two / c_value) in
    let exp_one := e1 / (e1 + e2) in
    let exp_two := #1 - exp_one in
    (exp_one, exp_two).
  (** weng_lin.rs:983-985 [small_delta]. *)
  Definition wl_small_delta (team_uncertainty_sq c_value p_value score : F) : F :=
    (team_uncertainty_sq / c_value) * (score - p_value).
  (** weng_lin.rs:989-991 [gamma]. *)
  Definition wl_gamma (team_uncertainty_sq c_value : F) : F := fsqrt team_uncertainty_sq / c_value.
  (** weng_lin.rs:993-995 [eta]. *)
  Definition wl_eta (team_uncertainty_sq c_value p_value gamma : F) : F :=
    gamma * team_uncertainty_sq / fpowi c_value 2 * p_value * (#1 - p_value).
  (** weng_lin.rs:998-1006 [new_rating]. *)
  Definition wl_new_rating (player_rating player_uncertainty c_value p_value score : F) : F :=
    ffma (fpowi player_uncertainty 2 / c_value) (score - p_value) player_rating.
  (** weng_lin.rs:1008-1016 [new_uncertainty]. *)
  Definition wl_new_uncertainty (player_uncertainty c_value p_value uncertainty_tolerance : F) : F :=
    let eta := fpowi (player_uncertainty / c_value) 3 * p_value * (#1 - p_value) in
    fsqrt (fpowi player_uncertainty 2 * fmax (#1 - eta) uncertainty_tolerance).
  (** weng_lin.rs:1018-1025 [new_rating_teams]. *)
  Definition wl_new_rating_teams (player_rating player_uncertainty_sq team_uncertainty_sq omega : F) : F :=
    ffma (player_uncertainty_sq / team_uncertainty_sq) omega player_rating.
  (** weng_lin.rs:1027-1037 [new_uncertainty_teams]. *)
  Definition wl_new_uncertainty_teams (player_uncertainty_sq team_uncertainty_sq uncertainty_tolerance large_delta : F)
    : F :=
    let new_player_uncertainty_sq :=
      fmax (ffma (player_uncertainty_sq / team_uncertainty_sq) (- large_delta) #1) uncertainty_tolerance in
    fsqrt (player_uncertainty_sq * new_player_uncertainty_sq).

  (** weng_lin.rs:301-308, 383-388, 758-765: the value [c] of two players. *)
  Definition wl_c_players (beta u1 u2 : F) : F :=
    fsqrt (ffma #2 (fpowi beta 2) (ffma u1 u1 (fpowi u2 2))).

  (** weng_lin.rs:295-333 [weng_lin]. *)
  Definition weng_lin (player_one player_two : WengLinRating F) (outcome : Outcomes) (config : WengLinConfig F)
    : WengLinRating F * WengLinRating F :=
    let c := wl_c_players (wl_beta config) (wl_uncertainty player_one) (wl_uncertainty player_two) in
    let '(p1, p2) := wl_p_value (wl_rating player_one) (wl_rating player_two) c in
    let outcome1 := to_chess_points outcome in
    let outcome2 := #1 - outcome1 in
    let new_rating1 := wl_new_rating (wl_rating player_one) (wl_uncertainty player_one) c p1 outcome1 in
    let new_rating2 := wl_new_rating (wl_rating player_two) (wl_uncertainty player_two) c p2 outcome2 in
    let new_uncertainty1 := wl_new_uncertainty (wl_uncertainty player_one) c p1 (wl_uncertainty_tolerance config) in
    let new_uncertainty2 := wl_new_uncertainty (wl_uncertainty player_two) c p2 (wl_uncertainty_tolerance config) in
    (mkWL new_rating1 new_uncertainty1, mkWL new_rating2 new_uncertainty2).

  (** weng_lin.rs:382-396: body of the loop of [weng_lin_rating_period]. *)
  Definition wl_period_step (config : WengLinConfig F) (st : F * F) (r : WengLinRating F * Outcomes) : F * F :=
    let '(player_rating, player_uncertainty) := st in
    let '(opponent, result) := r in
    let c := wl_c_players (wl_beta config) player_uncertainty (wl_uncertainty opponent) in
    let '(p, _) := wl_p_value player_rating (wl_rating opponent) c in
    let outcome := to_chess_points result in
    (wl_new_rating player_rating player_uncertainty c p outcome,
     wl_new_uncertainty player_uncertainty c p (wl_uncertainty_tolerance config)).

  (** weng_lin.rs:374-402 [weng_lin_rating_period]. *)
  Definition weng_lin_rating_period (player : WengLinRating F) (results : list (WengLinRating F * Outcomes))
    (config : WengLinConfig F) : WengLinRating F :=
    let '(r, u) := fold_left (wl_period_step config) results (wl_rating player, wl_uncertainty player) in
    mkWL r u.

  (** weng_lin.rs:466-467, 653, 819-820, 896: sum of a team's ratings. *)
  Definition wl_team_rating (team : list (WengLinRating F)) : F := fsum (map wl_rating team).
  (** weng_lin.rs:469-470, 654, 822-823, 903: sum of a team's squared uncertainties. *)
  Definition wl_team_uncertainty_sq (team : list (WengLinRating F)) : F :=
    fsum (map (fun p => fpowi (wl_uncertainty p) 2) team).
  (** weng_lin.rs:472-477, 670-675, 825-830: the value [c] of two teams. *)
  Definition wl_c_teams (beta usq1 usq2 : F) : F := fsqrt (ffma #2 (fpowi beta 2) (usq1 + usq2)).

  (** weng_lin.rs:505-524, 526-545, 697-716: per-player update of a team. *)
  Definition wl_update_team (config : WengLinConfig F) (team_uncertainty_sq omega large_delta : F)
    (team : list (WengLinRating F)) : list (WengLinRating F) :=
    map (fun player =>
      let player_uncertainty_sq := fpowi (wl_uncertainty player) 2 in
      mkWL (wl_new_rating_teams (wl_rating player) player_uncertainty_sq team_uncertainty_sq omega)
           (wl_new_uncertainty_teams player_uncertainty_sq team_uncertainty_sq
              (wl_uncertainty_tolerance config) large_delta)) team.

  (** weng_lin.rs:456-548 [weng_lin_two_teams]. *)
  Definition weng_lin_two_teams (team_one team_two : list (WengLinRating F)) (outcome : Outcomes)
    (config : WengLinConfig F) : list (WengLinRating F) * list (WengLinRating F) :=
    if is_empty team_one || is_empty team_two then (team_one, team_two)
    else
      let team_one_rating := wl_team_rating team_one in
      let team_two_rating := wl_team_rating team_two in
      let team_one_uncertainty_sq := wl_team_uncertainty_sq team_one in
      let team_two_uncertainty_sq := wl_team_uncertainty_sq team_two in
      let c := wl_c_teams (wl_beta config) team_one_uncertainty_sq team_two_uncertainty_sq in
      let '(p1, p2) := wl_p_value team_one_rating team_two_rating c in
      let outcome1 := to_chess_points outcome in
      let outcome2 := #1 - outcome1 in
      let team_one_small_delta := wl_small_delta team_one_uncertainty_sq c p1 outcome1 in
      let team_two_small_delta := wl_small_delta team_two_uncertainty_sq c p2 outcome2 in
      let team_one_eta := wl_eta team_one_uncertainty_sq c p1 (wl_gamma team_one_uncertainty_sq c) in
      let team_two_eta := wl_eta team_two_uncertainty_sq c p2 (wl_gamma team_two_uncertainty_sq c) in
      (wl_update_team config team_one_uncertainty_sq team_one_small_delta team_one_eta team_one,
       wl_update_team config team_two_uncertainty_sq team_two_small_delta team_two_eta team_two).

  (** weng_lin.rs:678-682: score of team i against team q. *)
  Definition wl_rank_score (rank_two rank_one : MultiTeamOutcome) : F :=
    match mto_cmp rank_two rank_one with
    | Gt => #1
    | Eq => flit 5 10
    | Lt => #0
    end.

  (** weng_lin.rs:665-694: inner loop over the opponents of team [i].  The
      indexed vectors [teams_ratings[q]], [teams_uncertainties_sq[q]] and the rank
      of team [q] are zipped into one list of triples. *)
  Definition wl_inner (config : WengLinConfig F) (i : nat) (rating_i usq_i : F) (rank_one : MultiTeamOutcome)
    (infos : list (nat * (F * F * MultiTeamOutcome))) : F * F :=
    fold_left (fun (acc : F * F) (x : nat * (F * F * MultiTeamOutcome)) =>
      let '(omega, large_delta) := acc in
      let '(q, (rating_q, usq_q, rank_two)) := x in
      if Nat.eqb i q then acc
      else
        let c := wl_c_teams (wl_beta config) usq_i usq_q in
        let '(p, _) := wl_p_value rating_i rating_q c in
        let score := wl_rank_score rank_two rank_one in
        let small_delta := wl_small_delta usq_i c p score in
        let eta := wl_eta usq_i c p (wl_gamma usq_i c) in
        (omega + small_delta, large_delta + eta)) infos (#0, #0).

  (** weng_lin.rs:649-658: rating, squared uncertainty (and rank) of each team. *)
  Definition wl_info (t : list (WengLinRating F) * MultiTeamOutcome) : F * F * MultiTeamOutcome :=
    (wl_team_rating (fst t), wl_team_uncertainty_sq (fst t), snd t).

  (** weng_lin.rs:631-721 [weng_lin_multi_team]. *)
  Definition weng_lin_multi_team (teams_and_ranks : list (list (WengLinRating F) * MultiTeamOutcome))
    (config : WengLinConfig F) : list (list (WengLinRating F)) :=
    if is_empty teams_and_ranks then nil
    else if existsb (fun t => is_empty (fst t)) teams_and_ranks then map fst teams_and_ranks
    else
      let infos := enumerate (map wl_info teams_and_ranks) in
      map (fun x : nat * (list (WengLinRating F) * MultiTeamOutcome) =>
        let '(i, (team_one, rank_one)) := x in
        let '(rating_i, usq_i, _) := wl_info (team_one, rank_one) in
        let '(omega, large_delta) := wl_inner config i rating_i usq_i rank_one infos in
        wl_update_team config usq_i omega large_delta team_one) (enumerate teams_and_ranks).

  (** weng_lin.rs:753-768 [expected_score]. *)
  Definition wl_expected_score (player_one player_two : WengLinRating F) (config : WengLinConfig F) : F * F :=
    let c := wl_c_players (wl_beta config) (wl_uncertainty player_one) (wl_uncertainty player_two) in
    wl_p_value (wl_rating player_one) (wl_rating player_two) c.

  (** weng_lin.rs:814-833 [expected_score_two_teams]. *)
  Definition wl_expected_score_two_teams (team_one team_two : list (WengLinRating F)) (config : WengLinConfig F)
    : F * F :=
    let c := wl_c_teams (wl_beta config) (wl_team_uncertainty_sq team_one) (wl_team_uncertainty_sq team_two) in
    wl_p_value (wl_team_rating team_one) (wl_team_rating team_two) c.

  (** weng_lin.rs:892-926 [expected_score_multi_team]. *)
  Definition wl_expected_score_multi_team (teams : list (list (WengLinRating F))) (config : WengLinConfig F)
    : list F :=
    let ratings := map wl_team_rating teams in
    let uncertainties_sq := map wl_team_uncertainty_sq teams in
    let c := fsqrt (ffma #2 (fpowi (wl_beta config) 2) (fsum uncertainties_sq)) in
    let exps := map (fun rating => fexp (rating / c)) ratings in
    let sum := fold_left fadd exps #0 in
    map (fun e => e / sum) exps.

  (** weng_lin.rs:962-971 [expected_score_rating_period]. *)
  Definition wl_expected_score_rating_period (player : WengLinRating F) (opponents : list (WengLinRating F))
    (config : WengLinConfig F) : list F :=
    map (fun o => fst (wl_expected_score player o config)) opponents.

  (** weng_lin.rs:179-199 [impl RatingSystem for WengLin]. *)
  Definition wl_sys_rate (config : WengLinConfig F) (p1 p2 : WengLinRating F) (o : Outcomes) := weng_lin p1 p2 o config.
  Definition wl_sys_expected_score (config : WengLinConfig F) (p1 p2 : WengLinRating F) := wl_expected_score p1 p2 config.
  (** weng_lin.rs:201-216 [impl RatingPeriodSystem for WengLin]. *)
  Definition wl_psys_rate (config : WengLinConfig F) (p : WengLinRating F) rs := weng_lin_rating_period p rs config.
  Definition wl_psys_expected_score (config : WengLinConfig F) (p : WengLinRating F) os :=
    wl_expected_score_rating_period p os config.
  (** weng_lin.rs:218-238 [impl TeamRatingSystem for WengLin]. *)
  Definition wl_tsys_rate (config : WengLinConfig F) t1 t2 (o : Outcomes) := weng_lin_two_teams t1 t2 o config.
  Definition wl_tsys_expected_score (config : WengLinConfig F) t1 t2 := wl_expected_score_two_teams t1 t2 config.
  (** weng_lin.rs:240-258 [impl MultiTeamRatingSystem for WengLin]. *)
  Definition wl_msys_rate (config : WengLinConfig F) ts := weng_lin_multi_team ts config.
  Definition wl_msys_expected_score (config : WengLinConfig F) ts := wl_expected_score_multi_team ts config.
End S.
