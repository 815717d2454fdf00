(** Property theorems for Glicko (glicko.rs). *)
From Coq Require Import ZArith NArith List Bool Reals Lra Permutation.
From Verif Require Import Arith XR ModelLib ModelGlicko Spec ProofGlicko.
Import ListNotations.
Local Open Scope R_scope.

(** C26: Glickman's update. *)
Theorem C26_glicko_update : forall r1 RD1 r2 RD2 c o, 0 < RD1 -> 0 < RD2 ->
  glicko (mkGlicko (Fin r1) (Fin RD1)) (mkGlicko (Fin r2) (Fin RD2)) o (mkGlickoConfig (Fin c)) =
  (mkGlicko (Fin (glicko_r r1 (gpre RD1 c) [(r2, RD2, points o)]))
            (Fin (glicko_rd r1 (gpre RD1 c) [(r2, RD2, points o)])),
   mkGlicko (Fin (glicko_r r2 (gpre RD2 c) [(r1, RD1, points (invert o))]))
            (Fin (glicko_rd r2 (gpre RD2 c) [(r1, RD1, points (invert o))]))).
Proof. exact C26_proof. Qed.
Print Assumptions C26_glicko_update.
(* Glickman's paper: 1500/200 against 1400/30; no inflation. *)
Example C26_case : exists p q,
  glicko (mkGlicko (Fin 1500) (Fin 200)) (mkGlicko (Fin 1400) (Fin 30)) WIN (mkGlickoConfig (Fin 0)) = (p, q) /\
  gl_rating p <> Fin 1500.
Proof.
  destruct (C28_proof 1500 200 1400 30 0 ltac:(lra) ltac:(lra)) as (w & d & l & w' & d' & l' & H & B).
  destruct (H WIN) as (p & q & E & Ep & Eq). exists p, q. split; auto. rewrite Ep. intros [= X]. lra.
Qed.

(** C27: the deviation shrinks below the inflated one by playing. *)
Theorem C27_glicko_deviation : forall r1 RD1 r2 RD2 c o p q, 0 < RD1 -> 0 < RD2 ->
  glicko (mkGlicko (Fin r1) (Fin RD1)) (mkGlicko (Fin r2) (Fin RD2)) o (mkGlickoConfig (Fin c)) = (p, q) ->
  exists d1 d2, gl_deviation p = Fin d1 /\ gl_deviation q = Fin d2 /\
    0 < d1 <= 350 /\ 0 < d2 <= 350 /\
    d1 < Rmin (sqrt (RD1 ^ 2 + c ^ 2)) 350 /\ d2 < Rmin (sqrt (RD2 ^ 2 + c ^ 2)) 350.
Proof. exact C27_proof. Qed.
Print Assumptions C27_glicko_deviation.
Theorem C27_glicko_period_deviation : forall r RD c rs, 0 < RD -> rs <> [] ->
  exists d, gl_deviation (glicko_rating_period (mkGlicko (Fin r) (Fin RD))
    (map (fun '(rj, RDj, o) => (mkGlicko (Fin rj) (Fin RDj), o)) rs) (mkGlickoConfig (Fin c))) = Fin d /\
    0 < d <= 350 /\ d < Rmin (sqrt (RD ^ 2 + c ^ 2)) 350.
Proof. exact C27_period_proof. Qed.
Print Assumptions C27_glicko_period_deviation.
Example C27_case : exists (rs : list (R * R * Outcomes)), rs <> [] /\ (0 < 200).
Proof. exists [(1400, 30, WIN); (1550, 100, LOSS)]. split; [discriminate|lra]. Qed.

(** C28: win > draw > loss, for both players; a win raises, a loss lowers. *)
Theorem C28_glicko_direction : forall r1 RD1 r2 RD2 c, 0 < RD1 -> 0 < RD2 ->
  exists w d l w' d' l',
    (forall o, exists p q, glicko (mkGlicko (Fin r1) (Fin RD1)) (mkGlicko (Fin r2) (Fin RD2)) o (mkGlickoConfig (Fin c)) = (p, q) /\
       gl_rating p = Fin (match o with WIN => w | DRAW => d | LOSS => l end) /\
       gl_rating q = Fin (match o with WIN => l' | DRAW => d' | LOSS => w' end)) /\
    l < d < w /\ l' < d' < w' /\ l < r1 < w /\ l' < r2 < w'.
Proof. exact C28_proof. Qed.
Print Assumptions C28_glicko_direction.

(** C29: rating periods. *)
Theorem C29_glicko_period_formula : forall r RD c rs, 0 < RD -> rs <> [] ->
  glicko_rating_period (mkGlicko (Fin r) (Fin RD))
    (map (fun '(rj, RDj, o) => (mkGlicko (Fin rj) (Fin RDj), o)) rs) (mkGlickoConfig (Fin c)) =
  let games := map (fun '(rj, RDj, o) => (rj, RDj, points o)) rs in
  mkGlicko (Fin (glicko_r r (gpre RD c) games)) (Fin (glicko_rd r (gpre RD c) games)).
Proof. exact C29_formula_proof. Qed.
Print Assumptions C29_glicko_period_formula.
Theorem C29_glicko_period_order : forall r RD c rs rs', 0 < RD -> Permutation rs rs' ->
  glicko_rating_period (mkGlicko (Fin r) (Fin RD))
    (map (fun '(rj, RDj, o) => (mkGlicko (Fin rj) (Fin RDj), o)) rs) (mkGlickoConfig (Fin c)) =
  glicko_rating_period (mkGlicko (Fin r) (Fin RD))
    (map (fun '(rj, RDj, o) => (mkGlicko (Fin rj) (Fin RDj), o)) rs') (mkGlickoConfig (Fin c)).
Proof. exact C29_order_proof. Qed.
Print Assumptions C29_glicko_period_order.
Theorem C29_glicko_period_single : forall r RD r2 RD2 o c, 0 < RD -> 0 < RD2 ->
  glicko_rating_period (mkGlicko (Fin r) (Fin RD)) [(mkGlicko (Fin r2) (Fin RD2), o)] (mkGlickoConfig (Fin c)) =
  fst (glicko (mkGlicko (Fin r) (Fin RD)) (mkGlicko (Fin r2) (Fin RD2)) o (mkGlickoConfig (Fin c))).
Proof. exact C29_single_proof. Qed.
Print Assumptions C29_glicko_period_single.
Theorem C29_glicko_period_empty : forall (F : Type) (A : Arith F) (p : GlickoRating F) c,
  glicko_rating_period p [] c = glicko_decay_deviation p c.
Proof. exact C29_empty_proof. Qed.
Print Assumptions C29_glicko_period_empty.
Example C29_case :
  Permutation [(1400, 30, WIN); (1550, 100, LOSS); (1700, 300, LOSS)] [(1700, 300, LOSS); (1400, 30, WIN); (1550, 100, LOSS)] /\
  @nil (R * R * Outcomes) <> [(1400, 30, WIN)].
Proof.
  split; [|discriminate]. apply Permutation_sym.
  eapply perm_trans; [apply perm_swap|]. apply perm_skip. apply perm_swap.
Qed.

(** C30: n periods of inactivity. *)
Theorem C30_glicko_decay : forall r RD c n, 0 < RD <= 350 ->
  exists d, Nat.iter n (fun p => glicko_decay_deviation p (mkGlickoConfig (Fin c))) (mkGlicko (Fin r) (Fin RD)) =
    mkGlicko (Fin r) (Fin d) /\
    d = Rmin (sqrt (RD ^ 2 + INR n * c ^ 2)) 350 /\ RD <= d <= 350.
Proof. exact C30_proof. Qed.
Print Assumptions C30_glicko_decay.
Example C30_case : 0 < 50 <= 350. Proof. lra. Qed.

(** C31: confidence interval. *)
Theorem C31_glicko_confidence : forall r RD,
  glicko_confidence_interval (mkGlicko (Fin r) (Fin RD)) = (Fin (r - 196 / 100 * RD), Fin (r + 196 / 100 * RD)).
Proof. exact C31_glicko_proof. Qed.
Print Assumptions C31_glicko_confidence.

(** C75: expected scores. *)
Theorem C75_glicko_expected : forall r1 RD1 r2 RD2, exists e1 e2,
  glicko_expected_score (mkGlicko (Fin r1) (Fin RD1)) (mkGlicko (Fin r2) (Fin RD2)) = (Fin e1, Fin e2) /\
  0 < e1 < 1 /\ 0 < e2 < 1 /\ e1 + e2 = 1 /\ (e1 > 1 / 2 <-> r1 > r2) /\
  glicko_expected_score (mkGlicko (Fin r2) (Fin RD2)) (mkGlicko (Fin r1) (Fin RD1)) = (Fin e2, Fin e1) /\
  (forall r1' e1' e2', glicko_expected_score (mkGlicko (Fin r1') (Fin RD1)) (mkGlicko (Fin r2) (Fin RD2)) = (Fin e1', Fin e2') ->
     r1 < r1' -> e1 < e1') /\
  (forall RD1' e1' e2', glicko_expected_score (mkGlicko (Fin r1) (Fin RD1')) (mkGlicko (Fin r2) (Fin RD2)) = (Fin e1', Fin e2') ->
     0 <= RD1 < RD1' -> r1 > r2 -> 1 / 2 < e1' < e1).
Proof. exact C75_glicko_proof. Qed.
Print Assumptions C75_glicko_expected.
Example C75_case : (0 <= 50 < 100) /\ (1600 > 1500). Proof. lra. Qed.
