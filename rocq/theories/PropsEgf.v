(** Property theorems for EGF (egf.rs). *)
From Coq Require Import ZArith NArith List Bool Reals Lra.
From Verif Require Import Arith XR ModelLib ModelEgf Spec ProofEgf.
Import ListNotations.
Local Open Scope R_scope.

(** C13: the published update and expectation, for ratings and
    handicap-adjusted ratings below 3300. *)
Theorem C13_egf_update : forall r1 r2 o H,
  r1 < 3300 -> r2 < 3300 -> egf_adj (egf_h1 H) r1 < 3300 -> egf_adj (egf_h2 H) r2 < 3300 ->
  let E := egf_E (egf_adj (egf_h1 H) r1) (egf_adj (egf_h2 H) r2) in
  egf_expected_score (mkEgf (Fin r1)) (mkEgf (Fin r2)) (mkEgfConfig (Fin H)) = (Fin E, Fin (1 - E)) /\
  0 < E < 1 /\
  egf (mkEgf (Fin r1)) (mkEgf (Fin r2)) o (mkEgfConfig (Fin H)) =
    (mkEgf (Fin (egf_upd r1 (points o) E)), mkEgf (Fin (egf_upd r2 (1 - points o) (1 - E)))).
Proof. exact C13_proof. Qed.
Print Assumptions C13_egf_update.
(* Handicap 3 for player two, ratings 1000 and 2000. *)
Example C13_case : 1000 < 3300 /\ 2000 < 3300 /\
  egf_adj (egf_h1 3) 1000 < 3300 /\ egf_adj (egf_h2 3) 2000 < 3300.
Proof.
  unfold egf_adj, egf_h1, egf_h2. destruct (Rlt_dec 3 0); [lra|].
  destruct (Req_EM_T 0 0), (Req_EM_T 3 0); lra.
Qed.

(** C14 for [egf]: never below -900, for every input including infinite and
    NaN ones.  Missing: [egf_rating_period], refuted below. *)
Theorem C14_egf_floor_partial : forall (p1 p2 : EGFRating XR) o (c : EGFConfig XR),
  fleb (Fin (-900)) (egf_rating (fst (egf p1 p2 o c))) = true /\
  fleb (Fin (-900)) (egf_rating (snd (egf p1 p2 o c))) = true.
Proof. exact C14_proof. Qed.
Print Assumptions C14_egf_floor_partial.
Theorem C14_egf_period_floor_refuted : exists p opp : EGFRating XR,
  fleb (Fin (-900)) (egf_rating p) = true /\ fleb (Fin (-900)) (egf_rating opp) = true /\
  egf_rating_period p [(opp, LOSS, egf_config_new); (opp, LOSS, egf_config_new)] = mkEgf (Fin (-901)).
Proof. exact C14_refuted_proof. Qed.
Print Assumptions C14_egf_period_floor_refuted.

(** C15 below 3300: a win raises the rating.  Missing: ratings above 3300,
    refuted below. *)
Theorem C15_egf_win_partial : forall r1 r2 H r1' r2',
  r1 < 3300 -> r2 < 3300 -> egf_adj (egf_h1 H) r1 < 3300 -> egf_adj (egf_h2 H) r2 < 3300 ->
  egf (mkEgf (Fin r1)) (mkEgf (Fin r2)) WIN (mkEgfConfig (Fin H)) = (mkEgf (Fin r1'), mkEgf (Fin r2')) ->
  r1 < r1'.
Proof. exact C15_partial_proof. Qed.
Print Assumptions C15_egf_win_partial.
Example C15_case : exists r1' r2',
  egf (mkEgf (Fin 1000)) (mkEgf (Fin 2000)) WIN (mkEgfConfig (Fin 3)) = (mkEgf (Fin r1'), mkEgf (Fin r2')).
Proof. destruct C13_case as (a & b & c & d). rewrite (proj2 (proj2 (C13_egf_update _ _ WIN _ a b c d))). eauto. Qed.
(** C15 is false above 3300: a win turns 3400 into -900. *)
Theorem C15_egf_win_refuted : exists r1 r2 : R,
  fst (egf (mkEgf (Fin r1)) (mkEgf (Fin r2)) WIN egf_config_new) = mkEgf (Fin (-900)) /\ -900 < r1.
Proof. exact C15_refuted_proof. Qed.
Print Assumptions C15_egf_win_refuted.

(** C16: mirror symmetry. *)
Theorem C16_egf_mirror : forall r1 r2 o H,
  r1 < 3300 -> r2 < 3300 -> egf_adj (egf_h1 H) r1 < 3300 -> egf_adj (egf_h2 H) r2 < 3300 ->
  let '(a, b) := egf (mkEgf (Fin r1)) (mkEgf (Fin r2)) o (mkEgfConfig (Fin H)) in
  egf (mkEgf (Fin r2)) (mkEgf (Fin r1)) (invert o) (mkEgfConfig (Fin (- H))) = (b, a) /\
  (let '(x, y) := egf_expected_score (mkEgf (Fin r1)) (mkEgf (Fin r2)) (mkEgfConfig (Fin H)) in
   egf_expected_score (mkEgf (Fin r2)) (mkEgf (Fin r1)) (mkEgfConfig (Fin (- H))) = (y, x)).
Proof. exact C16_proof. Qed.
Print Assumptions C16_egf_mirror.

(** C73: a rating period adds up the single-game changes, all computed from
    the rating at the start of the period. *)
Theorem C73_egf_period : forall r rs, r < 3300 ->
  (forall opp o H, In (opp, o, H) rs -> egf_adj (egf_h1 H) r < 3300 /\ egf_adj (egf_h2 H) opp < 3300) ->
  egf_rating_period (mkEgf (Fin r)) (map (fun g => let '(opp, o, H) := g in (mkEgf (Fin opp), o, mkEgfConfig (Fin H))) rs) =
  mkEgf (Fin (r + Rsum (map (fun g => let '(opp, o, H) := g in
     egf_upd r (points o) (egf_E (egf_adj (egf_h1 H) r) (egf_adj (egf_h2 H) opp)) - r) rs))).
Proof. exact C73_proof. Qed.
Print Assumptions C73_egf_period.
Example C73_case : forall opp o H, In (opp, o, H) [(2000, LOSS, 3); (2000, WIN, 3)] ->
  egf_adj (egf_h1 H) 1000 < 3300 /\ egf_adj (egf_h2 H) opp < 3300.
Proof. intros * [[= <- <- <-]|[[= <- <- <-]|[]]]; split; apply C13_case. Qed.
