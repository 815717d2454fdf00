(** Everything a program can obtain by calling a module's functions over and
    over: [reach start move x] holds if [x] is a start value or the outcome of a
    move (a game, a rating period, a period without games, ...) between values
    obtained before. *)
From Coq Require Import ZArith NArith List Bool Reals.
From Verif Require Import Arith XR ModelLib ModelElo ModelFifa ModelIngo ModelUscf ModelDwz ModelGlicko ModelSticko
  ModelBoost ModelGlicko2 ModelWengLin ModelTS Spec SpecInTS.
Import ListNotations.
Local Open Scope R_scope.

Inductive reach {X : Type} (start : X -> Prop) (move : list X -> X -> Prop) : X -> Prop :=
| reach_start : forall x, start x -> reach start move x
| reach_move : forall l x, (forall y, In y l -> reach start move y) -> move l x -> reach start move x.

(** ** Elo *)
Inductive elo_move : list (EloRating XR) -> EloRating XR -> Prop :=
| elo_m1 : forall p q o k, elo_move [p; q] (fst (elo p q o (mkEloConfig (Fin k))))
| elo_m2 : forall p q o k, elo_move [p; q] (snd (elo p q o (mkEloConfig (Fin k))))
| elo_mp : forall p rs k, elo_move (p :: map fst rs) (elo_rating_period p rs (mkEloConfig (Fin k))).
Definition elo_valid (p : EloRating XR) : Prop := exists r, p = mkElo (Fin r).

(** ** FIFA *)
Inductive fifa_move : list (FifaRating XR) -> FifaRating XR -> Prop :=
| fifa_m1 : forall p q o i ko pen, fifa_move [p; q] (fst (fifa p q o (mkFifaConfig (Fin i) ko pen)))
| fifa_m2 : forall p q o i ko pen, fifa_move [p; q] (snd (fifa p q o (mkFifaConfig (Fin i) ko pen)))
| fifa_mp : forall p rs, fifa_move (p :: map (fun g => fst (fst (fst (fst g)))) rs)
    (fifa_rating_period p (map (fun '(q, o, i, ko, pen) => (q, o, mkFifaConfig (Fin i) ko pen)) rs)).
Definition fifa_valid (p : FifaRating XR) : Prop := exists r, p = mkFifa (Fin r).

(** ** Ingo: rating periods with at least one game *)
Inductive ingo_move : list (IngoRating XR) -> IngoRating XR -> Prop :=
| ingo_m1 : forall p q o, ingo_move [p; q] (fst (ingo p q o))
| ingo_m2 : forall p q o, ingo_move [p; q] (snd (ingo p q o))
| ingo_mp : forall p rs, rs <> [] -> ingo_move (p :: map fst rs) (ingo_rating_period p rs).
Definition ingo_valid (p : IngoRating XR) : Prop := exists r a, p = mkIngo (Fin r) a.

(** ** USCF: single games *)
Inductive uscf_move : list (USCFRating XR) -> USCFRating XR -> Prop :=
| uscf_m1 : forall p q o t, uscf_move [p; q] (fst (uscf p q o (mkUscfConfig (Fin t))))
| uscf_m2 : forall p q o t, uscf_move [p; q] (snd (uscf p q o (mkUscfConfig (Fin t)))).
Definition uscf_valid (p : USCFRating XR) : Prop := exists r n, p = mkUscf (Fin r) n /\ 100 <= r.

(** ** DWZ: games and periods while the index is below its maximum *)
Inductive dwz_move : list (DWZRating XR) -> DWZRating XR -> Prop :=
| dwz_m1 : forall p q o, (dwz_index p + 1 < 2 ^ 64)%N -> dwz_move [p; q] (fst (dwz p q o))
| dwz_m2 : forall p q o, (dwz_index q + 1 < 2 ^ 64)%N -> dwz_move [p; q] (snd (dwz p q o))
| dwz_mp : forall p rs, (dwz_index p + 1 < 2 ^ 64)%N -> dwz_move (p :: map fst rs) (dwz_rating_period p rs).
Definition dwz_valid (p : DWZRating XR) : Prop := exists r i a, p = mkDwz (Fin r) i a /\ (1 <= i)%N.

(** ** Glicko *)
Inductive glicko_move : list (GlickoRating XR) -> GlickoRating XR -> Prop :=
| glicko_m1 : forall p q o c, glicko_move [p; q] (fst (glicko p q o (mkGlickoConfig (Fin c))))
| glicko_m2 : forall p q o c, glicko_move [p; q] (snd (glicko p q o (mkGlickoConfig (Fin c))))
| glicko_mp : forall p rs c, glicko_move (p :: map fst rs) (glicko_rating_period p rs (mkGlickoConfig (Fin c)))
| glicko_md : forall p c, glicko_move [p] (glicko_decay_deviation p (mkGlickoConfig (Fin c))).
Definition glicko_valid (p : GlickoRating XR) : Prop := exists r d, p = mkGlicko (Fin r) (Fin d) /\ 0 < d <= 350.

(** ** Sticko, for h >= 0 *)
Inductive sticko_move : list (StickoRating XR) -> StickoRating XR -> Prop :=
| sticko_m1 : forall p q o h b l g c, 0 <= h -> sticko_move [p; q] (fst (sticko p q o (mkStickoConfig (Fin h) (Fin b) (Fin l) (Fin g) (Fin c))))
| sticko_m2 : forall p q o h b l g c, 0 <= h -> sticko_move [p; q] (snd (sticko p q o (mkStickoConfig (Fin h) (Fin b) (Fin l) (Fin g) (Fin c))))
| sticko_mp : forall p rs h b l g c, 0 <= h ->
    sticko_move (p :: map (fun x => fst (fst x)) rs) (sticko_rating_period p rs (mkStickoConfig (Fin h) (Fin b) (Fin l) (Fin g) (Fin c)))
| sticko_md : forall p h b l g c, sticko_move [p] (sticko_decay_deviation p (mkStickoConfig (Fin h) (Fin b) (Fin l) (Fin g) (Fin c))).
Definition sticko_valid (p : StickoRating XR) : Prop := exists r d, p = mkSticko (Fin r) (Fin d) /\ 0 < d <= 350.

(** ** Glicko-Boost, for b0, b1 >= 0 *)
Definition boost_in (c : boost_cfg) : GlickoBoostConfig XR :=
  mkBoostConfig (Fin (bc_eta c)) (Fin (bc_k c)) (Fin (bc_b0 c)) (Fin (bc_b1 c))
    (Fin (bc_a0 c)) (Fin (bc_a1 c)) (Fin (bc_a2 c)) (Fin (bc_a3 c)) (Fin (bc_a4 c)).
Inductive boost_move : list (GlickoBoostRating XR) -> GlickoBoostRating XR -> Prop :=
| boost_m1 : forall p q o c, 0 <= bc_b0 c -> 0 <= bc_b1 c -> boost_move [p; q] (fst (glicko_boost p q o (boost_in c)))
| boost_m2 : forall p q o c, 0 <= bc_b0 c -> 0 <= bc_b1 c -> boost_move [p; q] (snd (glicko_boost p q o (boost_in c)))
| boost_mp : forall p rs c, 0 <= bc_b0 c -> 0 <= bc_b1 c ->
    boost_move (p :: map (fun x => fst (fst x)) rs) (glicko_boost_rating_period p rs (boost_in c))
| boost_md : forall p c, 0 <= bc_b0 c -> 0 <= bc_b1 c -> boost_move [p] (boost_decay_deviation p (boost_in c)).
Definition boost_valid (p : GlickoBoostRating XR) : Prop := exists r d, p = mkBoost (Fin r) (Fin d) /\ 0 < d <= 350.

(** ** Glicko-2: whatever the volatility iteration returns *)
Inductive glicko2_move : list (Glicko2Rating XR) -> Glicko2Rating XR -> Prop :=
| glicko2_m1 : forall n p q o t tol p' q', 0 < t -> 0 <= tol -> glicko2 n p q o (mkGlicko2Config (Fin t) (Fin tol)) = Some (p', q') -> glicko2_move [p; q] p'
| glicko2_m2 : forall n p q o t tol p' q', 0 < t -> 0 <= tol -> glicko2 n p q o (mkGlicko2Config (Fin t) (Fin tol)) = Some (p', q') -> glicko2_move [p; q] q'
| glicko2_mp : forall n p rs t tol p', 0 < t -> 0 <= tol -> glicko2_rating_period n p rs (mkGlicko2Config (Fin t) (Fin tol)) = Some p' -> glicko2_move (p :: map fst rs) p'
| glicko2_md : forall p, glicko2_move [p] (glicko2_decay_deviation p).
Definition glicko2_valid (p : Glicko2Rating XR) : Prop := exists r d s, p = mkGlicko2 (Fin r) (Fin d) (Fin s) /\ 0 < d /\ 0 < s.

(** ** Weng-Lin: games, periods and team games with positive tolerance *)
Inductive wl_move : list (WengLinRating XR) -> WengLinRating XR -> Prop :=
| wl_m1 : forall p q o b k, 0 < k <= 1 -> wl_move [p; q] (fst (weng_lin p q o (mkWLConfig (Fin b) (Fin k))))
| wl_m2 : forall p q o b k, 0 < k <= 1 -> wl_move [p; q] (snd (weng_lin p q o (mkWLConfig (Fin b) (Fin k))))
| wl_mp : forall p rs b k, 0 < k <= 1 -> wl_move (p :: map fst rs) (weng_lin_rating_period p rs (mkWLConfig (Fin b) (Fin k)))
| wl_mt : forall t1 t2 o b k x, 0 < k <= 1 ->
    In x (fst (weng_lin_two_teams t1 t2 o (mkWLConfig (Fin b) (Fin k))) ++ snd (weng_lin_two_teams t1 t2 o (mkWLConfig (Fin b) (Fin k)))) ->
    wl_move (t1 ++ t2) x
| wl_mm : forall ts b k x, 0 < k <= 1 ->
    In x (concat (weng_lin_multi_team ts (mkWLConfig (Fin b) (Fin k)))) -> wl_move (concat (map fst ts)) x.
(** At most the uncertainty [u0] of the start values. *)
Definition wl_valid (u0 : R) (p : WengLinRating XR) : Prop := exists r u, p = mkWL (Fin r) (Fin u) /\ 0 < u <= u0.

(** ** TrueSkill: decided games with a moderate dynamics factor *)
Inductive ts_move : list (TrueSkillRating XR) -> TrueSkillRating XR -> Prop :=
| ts_m1 : forall p q o dp b t, o <> DRAW -> t ^ 2 <= 2 * b ^ 2 -> ts_move [p; q] (fst (trueskill p q o (ts_cfg dp b t)))
| ts_m2 : forall p q o dp b t, o <> DRAW -> t ^ 2 <= 2 * b ^ 2 -> ts_move [p; q] (snd (trueskill p q o (ts_cfg dp b t)))
| ts_mp : forall p rs dp b t, Forall (fun g => snd g <> DRAW) rs -> t ^ 2 <= 2 * b ^ 2 ->
    ts_move (p :: map fst rs) (trueskill_rating_period p rs (ts_cfg dp b t))
| ts_mt : forall t1 t2 o dp b t x, o <> DRAW -> t ^ 2 <= 2 * b ^ 2 ->
    In x (fst (trueskill_two_teams t1 t2 o (ts_cfg dp b t)) ++ snd (trueskill_two_teams t1 t2 o (ts_cfg dp b t))) ->
    ts_move (t1 ++ t2) x.
Definition ts_valid (p : TrueSkillRating XR) : Prop := exists r u, p = mkTS (Fin r) (Fin u) /\ 0 < u.
