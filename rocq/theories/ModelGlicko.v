(** Model of /repo/src/glicko.rs (the [From] conversions between the Glicko
    family are in ModelConv.v). *)
From Coq Require Import ZArith NArith List Bool.
From Verif Require Import Arith ModelLib.
Local Open Scope flt_scope.

(** glicko.rs:68-73 [struct GlickoRating]. *)
Record GlickoRating (F : Type) := mkGlicko { gl_rating : F; gl_deviation : F }.
Arguments mkGlicko {F}. Arguments gl_rating {F}. Arguments gl_deviation {F}.
(** glicko.rs:146-152 [struct GlickoConfig]. *)
Record GlickoConfig (F : Type) := mkGlickoConfig { gl_c : F }.
Arguments mkGlickoConfig {F}. Arguments gl_c {F}.

Section S.
  Context {F : Type} {A : Arith F}.

  (** glicko.rs:78-83 [GlickoRating::new]. *)
  Definition glicko_new : GlickoRating F := mkGlicko #1500 #350.
  (** glicko.rs:92-105 [impl Rating]. *)
  Definition glicko_rating_get (r : GlickoRating F) : F := gl_rating r.
  Definition glicko_uncertainty_get (r : GlickoRating F) : option F := Some (gl_deviation r).
  Definition glicko_rating_new (rating uncertainty : option F) : GlickoRating F :=
    mkGlicko (match rating with Some r => r | None => #1500 end)
             (match uncertainty with Some u => u | None => #350 end).
  (** glicko.rs:107-114 [From<(f64, f64)>]. *)
  Definition glicko_from_pair (p : F * F) : GlickoRating F := mkGlicko (fst p) (snd p).
  (** glicko.rs:157-159 [GlickoConfig::new]. *)
  Definition glicko_config_new : GlickoConfig F := mkGlickoConfig (flit 632 10).

  (** glicko.rs:262, 373, 441, 486: [let q = 10_f64.ln() / 400.0]. *)
  Definition gl_q : F := fln #10 / #400.
  (** glicko.rs:569-573 [g_value]. *)
  Definition gl_g_value (q opponent_deviation : F) : F :=
    frecip (fsqrt (#1 + ((#3 * fpowi q 2 * fpowi opponent_deviation 2) / (fpowi fpi 2)))).
  (** glicko.rs:575-577 [e_value]. *)
  Definition gl_e_value (g rating opponent_rating : F) : F :=
    frecip (#1 + (fpow #10 (- g * (rating - opponent_rating) / #400))).
  (** glicko.rs:579-581 [d_value]. *)
  Definition gl_d_value (q g e : F) : F := fpowi (fpowi q 2 * fpowi g 2 * e * (#1 - e)) (-1).
  (** glicko.rs:553-555 [new_deviation]. *)
  Definition gl_new_deviation (pre_deviation d : F) : F :=
    fsqrt (frecip (frecip (fpowi pre_deviation 2) + frecip d)).
  (** glicko.rs:557-567 [new_rating]. *)
  Definition gl_new_rating (old_rating pre_deviation score q g e d : F) : F :=
    ffma ((q / (frecip (fpowi pre_deviation 2) + frecip d)) * g) (score - e) old_rating.
  (** glicko.rs:276-277, 405, 517: [deviation.hypot(c).min(350.0)]. *)
  Definition gl_pre_deviation (deviation c : F) : F := fmin (fhypot deviation c) #350.

  (** glicko.rs:256-311 [glicko]. *)
  Definition glicko (player_one player_two : GlickoRating F) (outcome : Outcomes) (config : GlickoConfig F)
    : GlickoRating F * GlickoRating F :=
    let q := gl_q in
    let outcome1 := to_chess_points outcome in
    let outcome2 := #1 - outcome1 in
    let g1 := gl_g_value q (gl_deviation player_two) in
    let g2 := gl_g_value q (gl_deviation player_one) in
    let e1 := gl_e_value g1 (gl_rating player_one) (gl_rating player_two) in
    let e2 := gl_e_value g2 (gl_rating player_two) (gl_rating player_one) in
    let d1 := gl_d_value q g1 e1 in
    let d2 := gl_d_value q g2 e2 in
    let player_one_pre_deviation := gl_pre_deviation (gl_deviation player_one) (gl_c config) in
    let player_two_pre_deviation := gl_pre_deviation (gl_deviation player_two) (gl_c config) in
    let player_one_new_rating := gl_new_rating (gl_rating player_one) player_one_pre_deviation outcome1 q g1 e1 d1 in
    let player_two_new_rating := gl_new_rating (gl_rating player_two) player_two_pre_deviation outcome2 q g2 e2 d2 in
    let player_one_new_deviation := gl_new_deviation player_one_pre_deviation d1 in
    let player_two_new_deviation := gl_new_deviation player_two_pre_deviation d2 in
    (mkGlicko player_one_new_rating player_one_new_deviation,
     mkGlicko player_two_new_rating player_two_new_deviation).

  (** glicko.rs:516-523 [decay_deviation]. *)
  Definition glicko_decay_deviation (player : GlickoRating F) (config : GlickoConfig F) : GlickoRating F :=
    mkGlicko (gl_rating player) (gl_pre_deviation (gl_deviation player) (gl_c config)).

  (** glicko.rs:368-415 [glicko_rating_period]. *)
  Definition glicko_rating_period (player : GlickoRating F) (results : list (GlickoRating F * Outcomes))
    (config : GlickoConfig F) : GlickoRating F :=
    let q := gl_q in
    match results with
    | nil => glicko_decay_deviation player config
    | _ =>
      let d_sq := frecip (fpowi q 2 * fsum (map (fun r =>
          let g := gl_g_value q (gl_deviation (fst r)) in
          let e := gl_e_value g (gl_rating player) (gl_rating (fst r)) in
          fpowi g 2 * e * (#1 - e)) results)) in
      let m := fsum (map (fun r =>
          let g := gl_g_value q (gl_deviation (fst r)) in
          let e := gl_e_value g (gl_rating player) (gl_rating (fst r)) in
          let s := to_chess_points (snd r) in
          g * (s - e)) results) in
      let pre_deviation := gl_pre_deviation (gl_deviation player) (gl_c config) in
      let new_rating := ffma (q / (frecip (fpowi pre_deviation 2) + frecip d_sq)) m (gl_rating player) in
      let new_deviation := fsqrt (frecip (frecip (fpowi pre_deviation 2) + frecip d_sq)) in
      mkGlicko new_rating new_deviation
    end.

  (** glicko.rs:440-448 [expected_score]. *)
  Definition glicko_expected_score (player_one player_two : GlickoRating F) : F * F :=
    let q := gl_q in
    let g := gl_g_value q (fhypot (gl_deviation player_one) (gl_deviation player_two)) in
    let exp_one := frecip (#1 + fpow #10 (- g * (gl_rating player_one - gl_rating player_two) / #400)) in
    let exp_two := #1 - exp_one in
    (exp_one, exp_two).

  (** glicko.rs:482-492 [expected_score_rating_period]. *)
  Definition glicko_expected_score_rating_period (player : GlickoRating F) (opponents : list (GlickoRating F))
    : list F :=
    map (fun o =>
      let q := gl_q in
      let g := gl_g_value q (fhypot (gl_deviation player) (gl_deviation o)) in
      frecip (#1 + fpow #10 (- g * (gl_rating player - gl_rating o) / #400))) opponents.

  (** glicko.rs:546-551 [confidence_interval]. *)
  Definition glicko_confidence_interval (player : GlickoRating F) : F * F :=
    (ffma (flit 196 100) (- gl_deviation player) (gl_rating player),
     ffma (flit 196 100) (gl_deviation player) (gl_rating player)).

  (** glicko.rs:173-193 [impl RatingSystem for Glicko]. *)
  Definition glicko_sys_rate (config : GlickoConfig F) (p1 p2 : GlickoRating F) (o : Outcomes) := glicko p1 p2 o config.
  Definition glicko_sys_expected_score (config : GlickoConfig F) (p1 p2 : GlickoRating F) := glicko_expected_score p1 p2.
  (** glicko.rs:195-210 [impl RatingPeriodSystem for Glicko]. *)
  Definition glicko_psys_rate (config : GlickoConfig F) (p : GlickoRating F) rs := glicko_rating_period p rs config.
  Definition glicko_psys_expected_score (config : GlickoConfig F) (p : GlickoRating F) os :=
    glicko_expected_score_rating_period p os.
End S.
