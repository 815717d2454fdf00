(** Model of /repo/src/glicko2.rs.  The two [while] loops of [new_volatility]
    take a fuel argument; [None] means that the fuel ran out, i.e. that the loop
    was still running after that many iterations. *)
From Coq Require Import ZArith NArith List Bool.
From Verif Require Import Arith ModelLib.
Local Open Scope flt_scope.

(** glicko2.rs:74-81 [struct Glicko2Rating]. *)
Record Glicko2Rating (F : Type) := mkGlicko2 { g2_rating : F; g2_deviation : F; g2_volatility : F }.
Arguments mkGlicko2 {F}. Arguments g2_rating {F}. Arguments g2_deviation {F}. Arguments g2_volatility {F}.
(** glicko2.rs:160-170 [struct Glicko2Config]. *)
Record Glicko2Config (F : Type) := mkGlicko2Config { g2_tau : F; g2_convergence_tolerance : F }.
Arguments mkGlicko2Config {F}. Arguments g2_tau {F}. Arguments g2_convergence_tolerance {F}.

Section S.
  Context {F : Type} {A : Arith F}.

  (** glicko2.rs:86-92 [Glicko2Rating::new]. *)
  Definition glicko2_new : Glicko2Rating F := mkGlicko2 #1500 #350 (flit 6 100).
  (** glicko2.rs:101-115 [impl Rating]. *)
  Definition glicko2_rating_get (r : Glicko2Rating F) : F := g2_rating r.
  Definition glicko2_uncertainty_get (r : Glicko2Rating F) : option F := Some (g2_deviation r).
  Definition glicko2_rating_new (rating uncertainty : option F) : Glicko2Rating F :=
    mkGlicko2 (match rating with Some r => r | None => #1500 end)
              (match uncertainty with Some u => u | None => #350 end) (flit 6 100).
  (** glicko2.rs:117-125 [From<(f64, f64, f64)>]. *)
  Definition glicko2_from_triple (r d v : F) : Glicko2Rating F := mkGlicko2 r d v.
  (** glicko2.rs:175-180 [Glicko2Config::new]. *)
  Definition glicko2_config_new : Glicko2Config F := mkGlicko2Config (flit 5 10) (flit 1 1000000).

  (** The literal 173.7178 (glicko2.rs:288 and elsewhere). *)
  Definition g2_scale : F := flit 1737178 10000.

  (** glicko2.rs:623-627 [g_value]. *)
  Definition g2_g_value (deviation : F) : F :=
    frecip (fsqrt (#1 + ((#3 * fpowi deviation 2) / (fpowi fpi 2)))).
  (** glicko2.rs:629-631 [e_value]. *)
  Definition g2_e_value (rating opponent_rating g : F) : F :=
    frecip (#1 + fexp (- g * (rating - opponent_rating))).
  (** glicko2.rs:633-635 [v_value]. *)
  Definition g2_v_value (g e : F) : F := frecip (fpowi g 2 * e * (#1 - e)).
  (** glicko2.rs:637-639 [delta_value]. *)
  Definition g2_delta_value (outcome v g e : F) : F := v * (g * (outcome - e)).

  (** glicko2.rs:641-655 [f_value]. *)
  Definition g2_f_value (x delta_square deviation_square v volatility tau : F) : F :=
    let i := (fexp x * (delta_square - deviation_square - v - fexp x))
             / (#2 * fpowi (deviation_square + v + fexp x) 2) in
    let j := (x - fln (fpowi volatility 2)) / fpowi tau 2 in
    i - j.

  (** glicko2.rs:669-682: the bracketing loop, started at [k]; returns the final
      [k.mul_add(-tau, a)]. *)
  Fixpoint g2_bracket (fuel : nat) (k a delta_squared deviation_squared v old_volatility tau : F) : option F :=
    match fuel with
    | O => None
    | S fuel' =>
      if g2_f_value (ffma k (- tau) a) delta_squared deviation_squared v old_volatility tau <? #0
      then g2_bracket fuel' (k + #1) a delta_squared deviation_squared v old_volatility tau
      else Some (ffma k (- tau) a)
    end.

  (** glicko2.rs:690-703: the main (Illinois) loop on [(a, fa, b, fb)]; returns
      the final [a]. *)
  Fixpoint g2_illinois (fuel : nat) (a fa b fb delta_squared deviation_squared v old_volatility tau tol : F)
    : option F :=
    match fuel with
    | O => None
    | S fuel' =>
      if fabs (b - a) >? tol then
        let c := a + ((a - b) * fa / (fb - fa)) in
        let fc := g2_f_value c delta_squared deviation_squared v old_volatility tau in
        if fc * fb <=? #0
        then g2_illinois fuel' b fb c fc delta_squared deviation_squared v old_volatility tau tol
        else g2_illinois fuel' a (fa / #2) c fc delta_squared deviation_squared v old_volatility tau tol
      else Some a
    end.

  (** glicko2.rs:657-706 [new_volatility]; [fuel] bounds each of the two loops. *)
  Definition g2_new_volatility (fuel : nat)
    (old_volatility delta_squared deviation_squared v tau convergence_tolerance : F) : option F :=
    let a := fln (fpowi old_volatility 2) in
    let ob := if delta_squared >? deviation_squared + v
              then Some (fln (delta_squared - deviation_squared - v))
              else g2_bracket fuel #1 a delta_squared deviation_squared v old_volatility tau in
    match ob with
    | None => None
    | Some b =>
      let fa := g2_f_value a delta_squared deviation_squared v old_volatility tau in
      let fb := g2_f_value b delta_squared deviation_squared v old_volatility tau in
      match g2_illinois fuel a fa b fb delta_squared deviation_squared v old_volatility tau
              convergence_tolerance with
      | None => None
      | Some a => Some (fexp (a / #2))
      end
    end.

  (** glicko2.rs:708-714 [new_deviation]. *)
  Definition g2_new_deviation (deviation new_volatility v : F) : F :=
    let pre_deviation := fhypot deviation new_volatility in
    frecip (fsqrt (frecip (fpowi pre_deviation 2) + frecip v)).

  (** glicko2.rs:716-718 [new_rating]. *)
  Definition g2_new_rating (rating new_deviation outcome g_value e_value : F) : F :=
    ffma (fpowi new_deviation 2 * g_value) (outcome - e_value) rating.

  (** glicko2.rs:281-344 [glicko2]; [None] if a loop does not finish within [fuel]. *)
  Definition glicko2 (fuel : nat) (player_one player_two : Glicko2Rating F) (outcome : Outcomes)
    (config : Glicko2Config F) : option (Glicko2Rating F * Glicko2Rating F) :=
    let player_one_rating := (g2_rating player_one - #1500) / g2_scale in
    let player_two_rating := (g2_rating player_two - #1500) / g2_scale in
    let player_one_deviation := g2_deviation player_one / g2_scale in
    let player_two_deviation := g2_deviation player_two / g2_scale in
    let outcome1 := to_chess_points outcome in
    let outcome2 := #1 - outcome1 in
    let g1 := g2_g_value player_two_deviation in
    let g2 := g2_g_value player_one_deviation in
    let e1 := g2_e_value player_one_rating player_two_rating g1 in
    let e2 := g2_e_value player_two_rating player_one_rating g2 in
    let v1 := g2_v_value g1 e1 in
    let v2 := g2_v_value g2 e2 in
    match g2_new_volatility fuel (g2_volatility player_one) (fpowi (g2_delta_value outcome1 v1 g1 e1) 2)
            (fpowi player_one_deviation 2) v1 (g2_tau config) (g2_convergence_tolerance config),
          g2_new_volatility fuel (g2_volatility player_two) (fpowi (g2_delta_value outcome2 v2 g2 e2) 2)
            (fpowi player_two_deviation 2) v2 (g2_tau config) (g2_convergence_tolerance config) with
    | Some player_one_new_volatility, Some player_two_new_volatility =>
      let new_deviation1 := g2_new_deviation player_one_deviation player_one_new_volatility v1 in
      let new_deviation2 := g2_new_deviation player_two_deviation player_two_new_volatility v2 in
      let new_rating1 := g2_new_rating player_one_rating new_deviation1 outcome1 g1 e1 in
      let new_rating2 := g2_new_rating player_two_rating new_deviation2 outcome2 g2 e2 in
      Some (mkGlicko2 (ffma new_rating1 g2_scale #1500) (new_deviation1 * g2_scale) player_one_new_volatility,
            mkGlicko2 (ffma new_rating2 g2_scale #1500) (new_deviation2 * g2_scale) player_two_new_volatility)
    | _, _ => None
    end.

  (** glicko2.rs:583-592 [decay_deviation]. *)
  Definition glicko2_decay_deviation (player : Glicko2Rating F) : Glicko2Rating F :=
    let player_deviation := g2_deviation player / g2_scale in
    let new_player_deviation := fhypot player_deviation (g2_volatility player) in
    mkGlicko2 (g2_rating player) (fmin (new_player_deviation * g2_scale) #350) (g2_volatility player).

  (** glicko2.rs:404-459 [glicko2_rating_period]. *)
  Definition glicko2_rating_period (fuel : nat) (player : Glicko2Rating F)
    (results : list (Glicko2Rating F * Outcomes)) (config : Glicko2Config F) : option (Glicko2Rating F) :=
    match results with
    | nil => Some (glicko2_decay_deviation player)
    | _ =>
      let player_rating := (g2_rating player - #1500) / g2_scale in
      let player_deviation := g2_deviation player / g2_scale in
      let v := frecip (fsum (map (fun r : Glicko2Rating F * Outcomes =>
          let g := g2_g_value (g2_deviation (fst r) / g2_scale) in
          let e := g2_e_value player_rating ((g2_rating (fst r) - #1500) / g2_scale) g in
          fpowi g 2 * e * (#1 - e)) results)) in
      let scores := fsum (map (fun r : Glicko2Rating F * Outcomes =>
          let g := g2_g_value (g2_deviation (fst r) / g2_scale) in
          let e := g2_e_value player_rating ((g2_rating (fst r) - #1500) / g2_scale) g in
          let s := to_chess_points (snd r) in
          g * (s - e)) results) in
      let delta := v * scores in
      match g2_new_volatility fuel (g2_volatility player) (fpowi delta 2) (fpowi player_deviation 2) v
              (g2_tau config) (g2_convergence_tolerance config) with
      | None => None
      | Some new_volatility =>
        let new_deviation := g2_new_deviation player_deviation new_volatility v in
        let new_rating := ffma (fpowi new_deviation 2) scores player_rating in
        Some (mkGlicko2 (ffma new_rating g2_scale #1500) (new_deviation * g2_scale) new_volatility)
      end
    end.

  (** glicko2.rs:486-504 [expected_score]. *)
  Definition glicko2_expected_score (player_one player_two : Glicko2Rating F) : F * F :=
    let player_one_rating := (g2_rating player_one - #1500) / g2_scale in
    let player_two_rating := (g2_rating player_two - #1500) / g2_scale in
    let player_one_deviation := g2_deviation player_one / g2_scale in
    let player_two_deviation := g2_deviation player_two / g2_scale in
    let exp_one := g2_e_value player_one_rating player_two_rating
                     (g2_g_value (fhypot player_two_deviation player_one_deviation)) in
    let exp_two := #1 - exp_one in
    (exp_one, exp_two).

  (** glicko2.rs:541-560 [expected_score_rating_period]. *)
  Definition glicko2_expected_score_rating_period (player : Glicko2Rating F)
    (opponents : list (Glicko2Rating F)) : list F :=
    map (fun o =>
      let player_one_rating := (g2_rating player - #1500) / g2_scale in
      let player_two_rating := (g2_rating o - #1500) / g2_scale in
      let player_one_deviation := g2_deviation player / g2_scale in
      let player_two_deviation := g2_deviation o / g2_scale in
      let a1 := g2_g_value (fhypot player_two_deviation player_one_deviation)
                * (player_one_rating - player_two_rating) in
      frecip (#1 + fexp (- a1))) opponents.

  (** glicko2.rs:616-621 [confidence_interval]. *)
  Definition glicko2_confidence_interval (player : Glicko2Rating F) : F * F :=
    (ffma (flit 196 100) (- g2_deviation player) (g2_rating player),
     ffma (flit 196 100) (g2_deviation player) (g2_rating player)).

  (** glicko2.rs:194-214 [impl RatingSystem for Glicko2]. *)
  Definition glicko2_sys_rate (fuel : nat) (config : Glicko2Config F) (p1 p2 : Glicko2Rating F) (o : Outcomes) :=
    glicko2 fuel p1 p2 o config.
  Definition glicko2_sys_expected_score (config : Glicko2Config F) (p1 p2 : Glicko2Rating F) :=
    glicko2_expected_score p1 p2.
  (** glicko2.rs:216-231 [impl RatingPeriodSystem for Glicko2]. *)
  Definition glicko2_psys_rate (fuel : nat) (config : Glicko2Config F) (p : Glicko2Rating F) rs :=
    glicko2_rating_period fuel p rs config.
  Definition glicko2_psys_expected_score (config : Glicko2Config F) (p : Glicko2Rating F) os :=
    glicko2_expected_score_rating_period p os.
End S.
