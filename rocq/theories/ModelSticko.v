(** Model of /repo/src/sticko.rs. *)
From Coq Require Import ZArith NArith List Bool.
From Verif Require Import Arith ModelLib.
Local Open Scope flt_scope.

(** sticko.rs:87-92 [struct StickoRating]. *)
Record StickoRating (F : Type) := mkSticko { st_rating : F; st_deviation : F }.
Arguments mkSticko {F}. Arguments st_rating {F}. Arguments st_deviation {F}.
(** sticko.rs:168-203 [struct StickoConfig]. *)
Record StickoConfig (F : Type) := mkStickoConfig
  { st_h : F; st_beta : F; st_lambda : F; st_gamma : F; st_c : F }.
Arguments mkStickoConfig {F}. Arguments st_h {F}. Arguments st_beta {F}.
Arguments st_lambda {F}. Arguments st_gamma {F}. Arguments st_c {F}.

Section S.
  Context {F : Type} {A : Arith F}.

  (** sticko.rs:97-102 [StickoRating::new]. *)
  Definition sticko_new : StickoRating F := mkSticko #1500 #350.
  (** sticko.rs:111-124 [impl Rating]. *)
  Definition sticko_rating_get (r : StickoRating F) : F := st_rating r.
  Definition sticko_uncertainty_get (r : StickoRating F) : option F := Some (st_deviation r).
  Definition sticko_rating_new (rating uncertainty : option F) : StickoRating F :=
    mkSticko (match rating with Some r => r | None => #1500 end)
             (match uncertainty with Some u => u | None => #350 end).
  (** sticko.rs:126-133 [From<(f64, f64)>]. *)
  Definition sticko_from_pair (p : F * F) : StickoRating F := mkSticko (fst p) (snd p).
  (** sticko.rs:209-217 [StickoConfig::new]. *)
  Definition sticko_config_new : StickoConfig F := mkStickoConfig #10 #0 #2 #0 #10.

  (** sticko.rs:333, 477, 581, 655: [let q = 10.0_f64.ln() / 400.0]. *)
  Definition st_q : F := fln #10 / #400.
  (** sticko.rs:750-754 [g_value]. *)
  Definition st_g_value (q opponent_deviation : F) : F :=
    frecip (fsqrt (#1 + ((#3 * fpowi q 2 * fpowi opponent_deviation 2) / (fpowi fpi 2)))).
  (** sticko.rs:756-758 [e_value]. *)
  Definition st_e_value (g rating opponent_rating advantage colour : F) : F :=
    frecip (#1 + (fpow #10 (- g * ffma advantage colour (rating - opponent_rating) / #400))).
  (** sticko.rs:760-762 [d_value]. *)
  Definition st_d_value (q g e : F) : F := fpowi (fpowi q 2 * fpowi g 2 * e * (#1 - e)) (-1).
  (** sticko.rs:724-729 [new_deviation]. *)
  Definition st_new_deviation (old_deviation d h : F) : F :=
    fmin (fsqrt (frecip (frecip (ffma old_deviation old_deviation h) + frecip d))) #350.
  (** sticko.rs:732-745 [new_rating]. *)
  Definition st_new_rating (old_rating deviation q d g score e beta lambda : F) : F :=
    ffma ((q / (frecip (fpowi deviation 2) + frecip d)) * g) (score - e + beta) old_rating + lambda.
  (** sticko.rs:365-366, 526, 688: [deviation.hypot(c).min(350.0)]. *)
  Definition st_pre_deviation (deviation c : F) : F := fmin (fhypot deviation c) #350.
  (** sticko.rs:496, 517: [if r.2 { 1.0 } else { -1.0 }]. *)
  Definition st_colour (white : bool) : F := if white then #1 else #(-1).

  (** sticko.rs:325-404 [sticko]. *)
  Definition sticko (player_one player_two : StickoRating F) (outcome : Outcomes) (config : StickoConfig F)
    : StickoRating F * StickoRating F :=
    let q := st_q in
    let outcome1 := to_chess_points outcome in
    let outcome2 := #1 - outcome1 in
    let colour1 := #1 in
    let colour2 := #(-1) in
    let lambda1 := (st_lambda config / #100) * (st_rating player_two - st_rating player_one) in
    let lambda2 := (st_lambda config / #100) * (st_rating player_one - st_rating player_two) in
    let g1 := st_g_value q (st_deviation player_two) in
    let g2 := st_g_value q (st_deviation player_one) in
    let e1 := st_e_value g1 (st_rating player_one) (st_rating player_two) (st_gamma config) colour1 in
    let e2 := st_e_value g2 (st_rating player_two) (st_rating player_one) (st_gamma config) colour2 in
    let d1 := st_d_value q g1 e1 in
    let d2 := st_d_value q g2 e2 in
    let player_one_pre_deviation := st_pre_deviation (st_deviation player_one) (st_c config) in
    let player_two_pre_deviation := st_pre_deviation (st_deviation player_two) (st_c config) in
    let player_one_new_rating :=
      st_new_rating (st_rating player_one) player_one_pre_deviation q d1 g1 outcome1 e1 (st_beta config) lambda1 in
    let player_two_new_rating :=
      st_new_rating (st_rating player_two) player_two_pre_deviation q d2 g2 outcome2 e2 (st_beta config) lambda2 in
    let player_one_new_deviation := st_new_deviation player_one_pre_deviation d1 (st_h config) in
    let player_two_new_deviation := st_new_deviation player_two_pre_deviation d2 (st_h config) in
    (mkSticko player_one_new_rating player_one_new_deviation,
     mkSticko player_two_new_rating player_two_new_deviation).

  (** sticko.rs:687-694 [decay_deviation]. *)
  Definition sticko_decay_deviation (player : StickoRating F) (config : StickoConfig F) : StickoRating F :=
    mkSticko (st_rating player) (st_pre_deviation (st_deviation player) (st_c config)).

  (** sticko.rs:472-542 [sticko_rating_period]. *)
  Definition sticko_rating_period (player : StickoRating F) (results : list (StickoRating F * Outcomes * bool))
    (config : StickoConfig F) : StickoRating F :=
    let q := st_q in
    match results with
    | nil => sticko_decay_deviation player config
    | _ =>
      let matches := flen results in
      let d_sq := frecip (fpowi q 2 * fsum (map (fun r : StickoRating F * Outcomes * bool =>
          let '(opp, _, white) := r in
          let g := st_g_value q (st_deviation opp) in
          let e := st_e_value g (st_rating player) (st_rating opp) (st_gamma config) (st_colour white) in
          fpowi g 2 * e * (#1 - e)) results)) in
      let lambda := (st_lambda config / #100)
        * ((fsum (map (fun r : StickoRating F * Outcomes * bool => st_rating (fst (fst r))) results) / matches)
           - st_rating player) in
      let m := fsum (map (fun r : StickoRating F * Outcomes * bool =>
          let '(opp, res, white) := r in
          let g := st_g_value q (st_deviation opp) in
          let e := st_e_value g (st_rating player) (st_rating opp) (st_gamma config) (st_colour white) in
          let s := to_chess_points res in
          g * (s - e + st_beta config)) results) in
      let pre_deviation := st_pre_deviation (st_deviation player) (st_c config) in
      let new_deviation :=
        fmin (fsqrt (frecip (frecip (ffma pre_deviation pre_deviation (st_h config * matches)) + frecip d_sq))) #350 in
      let new_rating :=
        ffma (q / (frecip (fpowi pre_deviation 2) + frecip d_sq)) m (st_rating player) + lambda in
      mkSticko new_rating new_deviation
    end.

  (** sticko.rs:576-590 [expected_score]. *)
  Definition sticko_expected_score (player_one player_two : StickoRating F) (config : StickoConfig F) : F * F :=
    let q := st_q in
    let g := st_g_value q (fhypot (st_deviation player_one) (st_deviation player_two)) in
    let exp_one := frecip (#1 + fpow #10 (- g * (st_rating player_one + st_gamma config - st_rating player_two) / #400)) in
    let exp_two := #1 - exp_one in
    (exp_one, exp_two).

  (** sticko.rs:647-663 [expected_score_rating_period]. *)
  Definition sticko_expected_score_rating_period (player : StickoRating F)
    (opponents : list (StickoRating F * bool)) (config : StickoConfig F) : list F :=
    map (fun o : StickoRating F * bool =>
      let q := st_q in
      let g := st_g_value q (fhypot (st_deviation player) (st_deviation (fst o))) in
      let gamma := if snd o then st_gamma config else - st_gamma config in
      frecip (#1 + fpow #10 (- g * (st_rating player + gamma - st_rating (fst o)) / #400))) opponents.

  (** sticko.rs:717-722 [confidence_interval]. *)
  Definition sticko_confidence_interval (player : StickoRating F) : F * F :=
    (ffma (flit 196 100) (- st_deviation player) (st_rating player),
     ffma (flit 196 100) (st_deviation player) (st_rating player)).

  (** sticko.rs:231-251 [impl RatingSystem for Sticko]. *)
  Definition sticko_sys_rate (config : StickoConfig F) (p1 p2 : StickoRating F) (o : Outcomes) := sticko p1 p2 o config.
  Definition sticko_sys_expected_score (config : StickoConfig F) (p1 p2 : StickoRating F) := sticko_expected_score p1 p2 config.
  (** sticko.rs:253-276 [impl RatingPeriodSystem for Sticko]. *)
  Definition sticko_psys_rate (config : StickoConfig F) (p : StickoRating F) (rs : list (StickoRating F * Outcomes)) :=
    sticko_rating_period p (map (fun r => (fst r, snd r, true)) rs) config.
  Definition sticko_psys_expected_score (config : StickoConfig F) (p : StickoRating F) (os : list (StickoRating F)) :=
    sticko_expected_score_rating_period p (map (fun o => (o, true)) os) config.
End S.
