(** Model of /repo/src/glicko_boost.rs. *)
From Coq Require Import ZArith NArith List Bool.
From Verif Require Import Arith ModelLib.
Local Open Scope flt_scope.

(** glicko_boost.rs:90-95 [struct GlickoBoostRating]. *)
Record GlickoBoostRating (F : Type) := mkBoost { gb_rating : F; gb_deviation : F }.
Arguments mkBoost {F}. Arguments gb_rating {F}. Arguments gb_deviation {F}.
(** glicko_boost.rs:171-197 [struct GlickoBoostConfig]; the tuples [b] and
    [alpha] are flattened into fields. *)
Record GlickoBoostConfig (F : Type) := mkBoostConfig
  { gb_eta : F; gb_k : F; gb_b0 : F; gb_b1 : F;
    gb_alpha0 : F; gb_alpha1 : F; gb_alpha2 : F; gb_alpha3 : F; gb_alpha4 : F }.
Arguments mkBoostConfig {F}. Arguments gb_eta {F}. Arguments gb_k {F}.
Arguments gb_b0 {F}. Arguments gb_b1 {F}. Arguments gb_alpha0 {F}. Arguments gb_alpha1 {F}.
Arguments gb_alpha2 {F}. Arguments gb_alpha3 {F}. Arguments gb_alpha4 {F}.

Section S.
  Context {F : Type} {A : Arith F}.

  (** glicko_boost.rs:100-105 [GlickoBoostRating::new]. *)
  Definition boost_new : GlickoBoostRating F := mkBoost #1500 #350.
  (** glicko_boost.rs:114-127 [impl Rating]. *)
  Definition boost_rating_get (r : GlickoBoostRating F) : F := gb_rating r.
  Definition boost_uncertainty_get (r : GlickoBoostRating F) : option F := Some (gb_deviation r).
  Definition boost_rating_new (rating uncertainty : option F) : GlickoBoostRating F :=
    mkBoost (match rating with Some r => r | None => #1500 end)
            (match uncertainty with Some u => u | None => #350 end).
  (** glicko_boost.rs:129-136 [From<(f64, f64)>]. *)
  Definition boost_from_pair (p : F * F) : GlickoBoostRating F := mkBoost (fst p) (snd p).
  (** glicko_boost.rs:203-216 [GlickoBoostConfig::new]. *)
  Definition boost_config_new : GlickoBoostConfig F :=
    mkBoostConfig #30 (flit 196 100) (flit 20139 100000) (flit 175 10)
      (flit 583733 100000) (flit (-175374) 1000000000) (flit (-7080124) 100000000000)
      (flit 1733792 1000000000) (flit 26706 100000000).

  (** glicko_boost.rs:342, 504, 619, 705: [let q = 10_f64.ln() / 400.0]. *)
  Definition gb_q : F := fln #10 / #400.
  (** glicko_boost.rs:824-828 [g_value]. *)
  Definition gb_g_value (q opponent_deviation : F) : F :=
    frecip (fsqrt (#1 + ((#3 * fpowi q 2 * fpowi opponent_deviation 2) / (fpowi fpi 2)))).
  (** glicko_boost.rs:830-833 [e_value]. *)
  Definition gb_e_value (g rating opponent_rating advantage colour : F) : F :=
    frecip (#1 + (fpow #10 (- g * (ffma colour advantage rating - opponent_rating) / #400))).
  (** glicko_boost.rs:835-837 [d_value]. *)
  Definition gb_d_value (q g e : F) : F := fpowi (fpowi q 2 * fpowi g 2 * e * (#1 - e)) (-1).
  (** glicko_boost.rs:811-813 [z_value]. *)
  Definition gb_z_value (g e score : F) : F := (g * (score - e)) / fsqrt (fpowi g 2 * e * (#1 - e)).
  (** glicko_boost.rs:815-819 [boost_rd]. *)
  Definition gb_boost_rd (z deviation : F) (config : GlickoBoostConfig F) : F :=
    ffma (ffma (z - gb_k config) (gb_b0 config) #1) deviation (gb_b1 config).
  (** glicko_boost.rs:795-805 [new_deviation]. *)
  Definition gb_new_deviation (old_deviation d z : F) (config : GlickoBoostConfig F) : F :=
    if (z >? gb_k config) && negb (gb_k config =? #0) then
      let after_deviation := fsqrt (frecip (frecip (fpowi old_deviation 2) + frecip d)) in
      let pre_deviation := gb_boost_rd z after_deviation config in
      fmin (fsqrt (frecip (frecip (fpowi pre_deviation 2) + frecip d))) #350
    else
      fmin (fsqrt (frecip (frecip (fpowi old_deviation 2) + frecip d))) #350.
  (** glicko_boost.rs:807-809 [new_rating]. *)
  Definition gb_new_rating (old_rating deviation score q g e : F) : F :=
    ffma (fpowi deviation 2 * q * g) (score - e) old_rating.
  (** glicko_boost.rs:380-399, 400-419, 554-573, 739-759: deviation growth
      [(dev.mul_add(dev, (alpha polynomial).exp()).sqrt()).min(350.0)]. *)
  Definition gb_end_deviation (rating deviation : F) (config : GlickoBoostConfig F) : F :=
    fmin (fsqrt (ffma deviation deviation
      (fexp (ffma (gb_alpha4 config) (fpowi (rating / #1000) 2)
        (ffma (gb_alpha3 config) (rating / #1000)
          (ffma (gb_alpha2 config * deviation) (rating / #1000)
            (ffma (gb_alpha1 config) deviation (gb_alpha0 config)))))))) #350.
  (** glicko_boost.rs:520, 539: [if r.2 { 1.0 } else { -1.0 }]. *)
  Definition gb_colour (white : bool) : F := if white then #1 else #(-1).

  (** glicko_boost.rs:336-431 [glicko_boost]. *)
  Definition glicko_boost (player_one player_two : GlickoBoostRating F) (outcome : Outcomes)
    (config : GlickoBoostConfig F) : GlickoBoostRating F * GlickoBoostRating F :=
    let q := gb_q in
    let outcome1 := to_chess_points outcome in
    let outcome2 := #1 - outcome1 in
    let colour1 := #1 in
    let colour2 := #(-1) in
    let g1 := gb_g_value q (gb_deviation player_two) in
    let g2 := gb_g_value q (gb_deviation player_one) in
    let e1 := gb_e_value g1 (gb_rating player_one) (gb_rating player_two) (gb_eta config) colour1 in
    let e2 := gb_e_value g2 (gb_rating player_two) (gb_rating player_one) (gb_eta config) colour2 in
    let d1 := gb_d_value q g1 e1 in
    let d2 := gb_d_value q g2 e2 in
    let z1 := gb_z_value g1 e1 outcome1 in
    let z2 := gb_z_value g2 e2 outcome2 in
    let new_deviation1 := gb_new_deviation (gb_deviation player_one) d1 z1 config in
    let new_deviation2 := gb_new_deviation (gb_deviation player_two) d2 z2 config in
    let new_rating1 := gb_new_rating (gb_rating player_one) new_deviation1 outcome1 q g1 e1 in
    let new_rating2 := gb_new_rating (gb_rating player_two) new_deviation2 outcome2 q g2 e2 in
    let end_deviation1 := gb_end_deviation new_rating1 new_deviation1 config in
    let end_deviation2 := gb_end_deviation new_rating2 new_deviation2 config in
    (mkBoost new_rating1 end_deviation1, mkBoost new_rating2 end_deviation2).

  (** glicko_boost.rs:735-765 [decay_deviation]. *)
  Definition boost_decay_deviation (player : GlickoBoostRating F) (config : GlickoBoostConfig F)
    : GlickoBoostRating F :=
    mkBoost (gb_rating player) (gb_end_deviation (gb_rating player) (gb_deviation player) config).

  (** glicko_boost.rs:499-579 [glicko_boost_rating_period]. *)
  Definition glicko_boost_rating_period (player : GlickoBoostRating F)
    (results : list (GlickoBoostRating F * Outcomes * bool)) (config : GlickoBoostConfig F)
    : GlickoBoostRating F :=
    let q := gb_q in
    match results with
    | nil => boost_decay_deviation player config
    | _ =>
      let d_sum := fsum (map (fun r : GlickoBoostRating F * Outcomes * bool =>
          let '(opp, _, white) := r in
          let g := gb_g_value q (gb_deviation opp) in
          let e := gb_e_value g (gb_rating player) (gb_rating opp) (gb_eta config) (gb_colour white) in
          fpowi g 2 * e * (#1 - e)) results) in
      let d_sq := frecip (fpowi q 2 * d_sum) in
      let m := fsum (map (fun r : GlickoBoostRating F * Outcomes * bool =>
          let '(opp, res, white) := r in
          let g := gb_g_value q (gb_deviation opp) in
          let e := gb_e_value g (gb_rating player) (gb_rating opp) (gb_eta config) (gb_colour white) in
          let s := to_chess_points res in
          g * (s - e)) results) in
      let z := m / fsqrt d_sum in
      let new_deviation := gb_new_deviation (gb_deviation player) d_sq z config in
      let new_rating := ffma (fpowi new_deviation 2 * q) m (gb_rating player) in
      let end_deviation := gb_end_deviation new_rating new_deviation config in
      mkBoost new_rating end_deviation
    end.

  (** glicko_boost.rs:614-628 [expected_score]. *)
  Definition boost_expected_score (player_one player_two : GlickoBoostRating F) (config : GlickoBoostConfig F)
    : F * F :=
    let q := gb_q in
    let g := gb_g_value q (fhypot (gb_deviation player_one) (gb_deviation player_two)) in
    let exp_one := frecip (#1 + fpow #10 (- g * (gb_rating player_one + gb_eta config - gb_rating player_two) / #400)) in
    let exp_two := #1 - exp_one in
    (exp_one, exp_two).

  (** glicko_boost.rs:697-711 [expected_score_rating_period]. *)
  Definition boost_expected_score_rating_period (player : GlickoBoostRating F)
    (opponents : list (GlickoBoostRating F * bool)) (config : GlickoBoostConfig F) : list F :=
    map (fun o : GlickoBoostRating F * bool =>
      let q := gb_q in
      let g := gb_g_value q (fhypot (gb_deviation player) (gb_deviation (fst o))) in
      frecip (#1 + fpow #10 (- g * (gb_rating player + gb_eta config - gb_rating (fst o)) / #400))) opponents.

  (** glicko_boost.rs:788-793 [confidence_interval]. *)
  Definition boost_confidence_interval (player : GlickoBoostRating F) : F * F :=
    (ffma (flit 196 100) (- gb_deviation player) (gb_rating player),
     ffma (flit 196 100) (gb_deviation player) (gb_rating player)).

  (** glicko_boost.rs:230-254 [impl RatingSystem for GlickoBoost]. *)
  Definition boost_sys_rate (config : GlickoBoostConfig F) (p1 p2 : GlickoBoostRating F) (o : Outcomes) :=
    glicko_boost p1 p2 o config.
  Definition boost_sys_expected_score (config : GlickoBoostConfig F) (p1 p2 : GlickoBoostRating F) :=
    boost_expected_score p1 p2 config.
  (** glicko_boost.rs:256-283 [impl RatingPeriodSystem for GlickoBoost]. *)
  Definition boost_psys_rate (config : GlickoBoostConfig F) (p : GlickoBoostRating F)
    (rs : list (GlickoBoostRating F * Outcomes)) :=
    glicko_boost_rating_period p (map (fun r => (fst r, snd r, true)) rs) config.
  Definition boost_psys_expected_score (config : GlickoBoostConfig F) (p : GlickoBoostRating F)
    (os : list (GlickoBoostRating F)) :=
    boost_expected_score_rating_period p (map (fun o => (o, true)) os) config.
End S.
