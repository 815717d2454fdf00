From Coq Require Import ZArith NArith List Bool Reals Lra Lia Permutation.
From Verif Require Import Arith XR Tac ModelLib ModelGlicko Spec ProofElo.
Import ListNotations.
Local Open Scope R_scope.

Lemma gq_pos : 0 < gq.
Proof. unfold gq. apply Rdiv_lt_0_compat; [|lra]. rewrite <- ln_1. apply ln_increasing; lra. Qed.
#[global] Hint Resolve gq_pos : core.
Lemma gl_q_eval : gl_q = Fin gq.
Proof. unfold gl_q, gq. xr. reflexivity. Qed.
Lemma gg_arg_ge1 RD : 1 <= 1 + 3 * gq ^ 2 * RD ^ 2 / PI ^ 2.
Proof.
  enough (0 <= 3 * gq ^ 2 * RD ^ 2 / PI ^ 2) by lra.
  assert (0 < PI) by apply PI_RGT_0. pose proof gq_pos.
  assert (0 <= gq ^ 2) by (apply pow2_ge_0). assert (0 <= RD ^ 2) by (apply pow2_ge_0).
  unfold Rdiv. apply Rmult_le_pos; [nra|]. apply Rlt_le, Rinv_0_lt_compat, pow_lt; auto.
Qed.
Lemma gg_range RD : 0 < gg RD <= 1.
Proof.
  pose proof (gg_arg_ge1 RD). unfold gg.
  assert (1 <= sqrt (1 + 3 * gq ^ 2 * RD ^ 2 / PI ^ 2)) by now apply sqrt_ge_1.
  split; [pos|]. apply Rinv_le_1; auto.
Qed.
Lemma gg_pos RD : 0 < gg RD. Proof. apply gg_range. Qed.
Lemma gl_g_eval RD : gl_g_value (Fin gq) (Fin RD) = Fin (gg RD).
Proof.
  unfold gl_g_value, gg. pose proof PI_RGT_0. pose proof (gg_arg_ge1 RD) as H1.
  replace (gq ^ 2) with (gq * gq) in * by ring. replace (RD ^ 2) with (RD * RD) in * by ring.
  replace (PI ^ 2) with (PI * PI) in * by ring.
  xr. reflexivity.
Qed.
Lemma gE_range r rj RDj : 0 < gE r rj RDj < 1.
Proof. apply logistic_bounds. pos. Qed.
Lemma gE_pos r rj RDj : 0 < gE r rj RDj. Proof. apply gE_range. Qed.
Lemma gE_lt1 r rj RDj : gE r rj RDj < 1. Proof. apply gE_range. Qed.
Lemma gl_e_eval r rj RDj : gl_e_value (Fin (gg RDj)) (Fin r) (Fin rj) = Fin (gE r rj RDj).
Proof. unfold gl_e_value, gE. xr. reflexivity. Qed.
Lemma gvar_pos r rj RDj : 0 < gg RDj ^ 2 * gE r rj RDj * (1 - gE r rj RDj).
Proof.
  pose proof (gg_pos RDj). pose proof (gE_range r rj RDj).
  repeat apply Rmult_lt_0_compat; lra.
Qed.
Lemma gd2inv_nonneg r games : 0 <= gd2inv r games.
Proof.
  unfold gd2inv. apply Rmult_le_pos; [apply pow2_ge_0|]. apply Rsum_nonneg.
  intros x Hx. apply in_map_iff in Hx as ([[rj RDj] s] & <- & _). apply Rlt_le, gvar_pos.
Qed.
Lemma gd2inv_pos r games : games <> [] -> 0 < gd2inv r games.
Proof.
  intros. unfold gd2inv. apply Rmult_lt_0_compat; [pose proof gq_pos; apply pow_lt; auto|]. apply Rsum_pos.
  - destruct games; [congruence|discriminate].
  - intros x Hx. apply in_map_iff in Hx as ([[rj RDj] s] & <- & _). apply gvar_pos.
Qed.
Lemma gd2inv_single r rj RDj s : gd2inv r [(rj, RDj, s)] = gq ^ 2 * (gg RDj ^ 2 * gE r rj RDj * (1 - gE r rj RDj)).
Proof. unfold gd2inv. cbn [map]. rewrite Rsum_cons, Rsum_nil. ring. Qed.
Lemma gM_single r rj RDj s : gM r [(rj, RDj, s)] = gg RDj * (s - gE r rj RDj).
Proof. unfold gM. cbn [map]. rewrite Rsum_cons, Rsum_nil. ring. Qed.
Lemma gl_d_eval r rj RDj s : gl_d_value (Fin gq) (Fin (gg RDj)) (Fin (gE r rj RDj)) = Fin (/ gd2inv r [(rj, RDj, s)]).
Proof.
  rewrite gd2inv_single. unfold gl_d_value.
  pose proof (gg_pos RDj). pose proof (gE_range r rj RDj). pose proof gq_pos.
  assert (0 < gq * gq * (gg RDj * gg RDj) * gE r rj RDj * (1 - gE r rj RDj)) by pos.
  xr. do 2 f_equal. ring.
Qed.
Lemma gpre_range RD c : RD <> 0 \/ c <> 0 -> 0 < gpre RD c <= 350.
Proof.
  intros H. unfold gpre. split; [|apply Rmin_r]. apply Rmin_pos; [|lra]. apply sqrt_lt_R0. nra.
Qed.
Lemma gpre_pos RD c : 0 < RD -> 0 < gpre RD c.
Proof. intros. apply gpre_range. left. lra. Qed.
Lemma gl_pre_eval RD c : gl_pre_deviation (Fin RD) (Fin c) = Fin (gpre RD c).
Proof. unfold gl_pre_deviation, gpre. xr. do 3 f_equal. ring. Qed.
Lemma gprec_pos r RD games : 0 < RD -> 0 < / RD ^ 2 + gd2inv r games.
Proof. intros. pose proof (gd2inv_nonneg r games). assert (0 < / RD ^ 2) by pos. lra. Qed.

Lemma gl_new_deviation_eval r RD rj RDj s : 0 < RD ->
  gl_new_deviation (Fin RD) (Fin (/ gd2inv r [(rj, RDj, s)])) = Fin (glicko_rd r RD [(rj, RDj, s)]).
Proof.
  intros. pose proof (gd2inv_pos r [(rj, RDj, s)] ltac:(discriminate)) as Hd.
  unfold gl_new_deviation, glicko_rd. replace (RD ^ 2) with (RD * RD) by ring.
  set (d := gd2inv _ _) in *. xr. rewrite Rinv_inv. xr. reflexivity.
Qed.
Lemma gl_new_rating_eval r RD rj RDj s : 0 < RD ->
  gl_new_rating (Fin r) (Fin RD) (Fin s) (Fin gq) (Fin (gg RDj)) (Fin (gE r rj RDj)) (Fin (/ gd2inv r [(rj, RDj, s)])) =
  Fin (glicko_r r RD [(rj, RDj, s)]).
Proof.
  intros. pose proof (gd2inv_pos r [(rj, RDj, s)] ltac:(discriminate)) as Hd.
  unfold gl_new_rating, glicko_r. rewrite gM_single. replace (RD ^ 2) with (RD * RD) by ring.
  set (d := gd2inv _ _) in *. xr. rewrite Rinv_inv. xr. f_equal. field. split; [lra|].
  assert (0 < RD * RD) by nra. nra.
Qed.

Lemma C26_proof : forall r1 RD1 r2 RD2 c o, 0 < RD1 -> 0 < RD2 ->
  glicko (mkGlicko (Fin r1) (Fin RD1)) (mkGlicko (Fin r2) (Fin RD2)) o (mkGlickoConfig (Fin c)) =
  (mkGlicko (Fin (glicko_r r1 (gpre RD1 c) [(r2, RD2, points o)]))
            (Fin (glicko_rd r1 (gpre RD1 c) [(r2, RD2, points o)])),
   mkGlicko (Fin (glicko_r r2 (gpre RD2 c) [(r1, RD1, points (invert o))]))
            (Fin (glicko_rd r2 (gpre RD2 c) [(r1, RD1, points (invert o))]))).
Proof.
  intros r1 RD1 r2 RD2 c o H1 H2. unfold glicko. cbv zeta. cbn [gl_rating gl_deviation gl_c].
  rewrite gl_q_eval, points_eval, !gl_g_eval, !gl_e_eval, !gl_pre_eval.
  change (#1 - Fin (points o))%flt with (Fin (1 - points o)). rewrite <- points_invert.
  rewrite (gl_d_eval r1 r2 RD2 (points o)), (gl_d_eval r2 r1 RD1 (points (invert o))).
  rewrite !gl_new_rating_eval, !gl_new_deviation_eval by now apply gpre_pos. reflexivity.
Qed.

Lemma glicko_rd_range r RD games : 0 < RD -> 0 < glicko_rd r RD games <= RD.
Proof.
  intros. pose proof (gprec_pos r RD games H). pose proof (gd2inv_nonneg r games). unfold glicko_rd. split; [pos|].
  rewrite <- (sqrt_pow2 RD) at 2 by lra. apply sqrt_le_1_alt.
  rewrite <- (Rinv_inv (RD ^ 2)) at 2. apply Rinv_le_mono; [pos|lra].
Qed.
Lemma glicko_rd_lt r RD games : 0 < RD -> games <> [] -> glicko_rd r RD games < RD.
Proof.
  intros. pose proof (gd2inv_pos r games H0). unfold glicko_rd.
  rewrite <- (sqrt_pow2 RD) at 2 by lra. apply sqrt_lt_1_alt.
  split; [pos|]. rewrite <- (Rinv_inv (RD ^ 2)) at 2. apply Rinv_lt_mono; [pos|lra].
Qed.

Lemma C27_proof : forall r1 RD1 r2 RD2 c o p q, 0 < RD1 -> 0 < RD2 ->
  glicko (mkGlicko (Fin r1) (Fin RD1)) (mkGlicko (Fin r2) (Fin RD2)) o (mkGlickoConfig (Fin c)) = (p, q) ->
  exists d1 d2, gl_deviation p = Fin d1 /\ gl_deviation q = Fin d2 /\
    0 < d1 <= 350 /\ 0 < d2 <= 350 /\
    d1 < Rmin (sqrt (RD1 ^ 2 + c ^ 2)) 350 /\ d2 < Rmin (sqrt (RD2 ^ 2 + c ^ 2)) 350.
Proof.
  intros * H1 H2. rewrite C26_proof by auto. intros [= <- <-]. cbn [gl_deviation].
  fold (gpre RD1 c) (gpre RD2 c).
  pose proof (gpre_range RD1 c ltac:(lra)). pose proof (gpre_range RD2 c ltac:(lra)).
  pose proof (glicko_rd_range r1 (gpre RD1 c) [(r2, RD2, points o)]).
  pose proof (glicko_rd_range r2 (gpre RD2 c) [(r1, RD1, points (invert o))]).
  do 2 eexists. split; [reflexivity|]. split; [reflexivity|]. split; [lra|]. split; [lra|].
  split; apply glicko_rd_lt; try lra; discriminate.
Qed.

(** Rating periods. *)
Definition gl_games (rs : list (R * R * Outcomes)) : list (GlickoRating XR * Outcomes) :=
  map (fun '(r, d, o) => (mkGlicko (Fin r) (Fin d), o)) rs.
Definition sc (rs : list (R * R * Outcomes)) : list (R * R * R) :=
  map (fun '(r, d, o) => (r, d, points o)) rs.

Lemma gd_sum_eval r (rs : list (R * R * Outcomes)) :
  (fpowi (Fin gq) 2 * fsum (map (fun x =>
     let g := gl_g_value (Fin gq) (gl_deviation (fst x)) in
     let e := gl_e_value g (Fin r) (gl_rating (fst x)) in fpowi g 2 * e * (#1 - e)) (gl_games rs)))%flt =
  Fin (gd2inv r (sc rs)).
Proof.
  unfold gl_games, sc, gd2inv. rewrite !map_map.
  rewrite (xr_sum_map _ (fun x : R * R * Outcomes => let '(rj, RDj, o) := x in gg RDj ^ 2 * gE r rj RDj * (1 - gE r rj RDj))).
  - xr. f_equal. f_equal; [ring|]. f_equal. apply map_ext. now intros [[? ?] ?].
  - intros [[rj RDj] o] _. cbn [fst snd gl_deviation gl_rating]. cbv zeta.
    rewrite gl_g_eval, gl_e_eval. xr. f_equal. ring.
Qed.
Lemma gm_sum_eval r (rs : list (R * R * Outcomes)) :
  fsum (map (fun x =>
     let g := gl_g_value (Fin gq) (gl_deviation (fst x)) in
     let e := gl_e_value g (Fin r) (gl_rating (fst x)) in
     let s := to_chess_points (snd x) in (g * (s - e))%flt) (gl_games rs)) = Fin (gM r (sc rs)).
Proof.
  unfold gl_games, sc, gM. rewrite !map_map.
  rewrite (xr_sum_map _ (fun x : R * R * Outcomes => let '(rj, RDj, o) := x in gg RDj * (points o - gE r rj RDj))).
  - do 2 f_equal. apply map_ext. now intros [[? ?] ?].
  - intros [[rj RDj] o] _. cbn [fst snd gl_deviation gl_rating]. cbv zeta.
    rewrite gl_g_eval, gl_e_eval, points_eval. xr. reflexivity.
Qed.

Lemma C29_formula_proof : forall r RD c rs, 0 < RD -> rs <> [] ->
  glicko_rating_period (mkGlicko (Fin r) (Fin RD))
    (map (fun '(rj, RDj, o) => (mkGlicko (Fin rj) (Fin RDj), o)) rs) (mkGlickoConfig (Fin c)) =
  let games := map (fun '(rj, RDj, o) => (rj, RDj, points o)) rs in
  mkGlicko (Fin (glicko_r r (gpre RD c) games)) (Fin (glicko_rd r (gpre RD c) games)).
Proof.
  intros r RD c rs HRD Hne. fold (gl_games rs) (sc rs). cbv zeta.
  assert (Hs : sc rs <> []) by (destruct rs; [congruence|discriminate]).
  unfold glicko_rating_period. rewrite gl_q_eval. cbn [gl_rating gl_deviation gl_c].
  destruct (gl_games rs) as [|x xs] eqn:E; [destruct rs; [congruence|discriminate]|]. rewrite <- E. clear E x xs.
  cbv zeta. rewrite gd_sum_eval, gm_sum_eval, gl_pre_eval.
  pose proof (gd2inv_pos r (sc rs) Hs). pose proof (gpre_pos RD c HRD).
  unfold glicko_r, glicko_rd. replace (gpre RD c ^ 2) with (gpre RD c * gpre RD c) by ring.
  set (p := gpre RD c) in *. set (d := gd2inv _ _) in *. set (M := gM _ _) in *.
  xr. rewrite !Rinv_inv. xr. f_equal. f_equal. ring.
Qed.

Lemma gd2inv_perm r g g' : Permutation g g' -> gd2inv r g = gd2inv r g'.
Proof. intros. unfold gd2inv. f_equal. apply Rsum_perm, Permutation_map, H. Qed.
Lemma gM_perm r g g' : Permutation g g' -> gM r g = gM r g'.
Proof. intros. unfold gM. apply Rsum_perm, Permutation_map, H. Qed.

Lemma C29_order_proof : forall r RD c rs rs', 0 < RD -> Permutation rs rs' ->
  glicko_rating_period (mkGlicko (Fin r) (Fin RD))
    (map (fun '(rj, RDj, o) => (mkGlicko (Fin rj) (Fin RDj), o)) rs) (mkGlickoConfig (Fin c)) =
  glicko_rating_period (mkGlicko (Fin r) (Fin RD))
    (map (fun '(rj, RDj, o) => (mkGlicko (Fin rj) (Fin RDj), o)) rs') (mkGlickoConfig (Fin c)).
Proof.
  intros r RD c rs rs' HRD HP. destruct rs as [|x xs].
  - apply Permutation_nil in HP as ->. reflexivity.
  - assert (rs' <> []) by (intros ->; apply Permutation_sym, Permutation_nil in HP; discriminate).
    rewrite !C29_formula_proof by (auto; discriminate). cbv zeta.
    unfold glicko_r, glicko_rd.
    rewrite (gd2inv_perm r _ _ (Permutation_map _ HP)), (gM_perm r _ _ (Permutation_map _ HP)). reflexivity.
Qed.

Lemma C29_single_proof : forall r RD r2 RD2 o c, 0 < RD -> 0 < RD2 ->
  glicko_rating_period (mkGlicko (Fin r) (Fin RD)) [(mkGlicko (Fin r2) (Fin RD2), o)] (mkGlickoConfig (Fin c)) =
  fst (glicko (mkGlicko (Fin r) (Fin RD)) (mkGlicko (Fin r2) (Fin RD2)) o (mkGlickoConfig (Fin c))).
Proof.
  intros. rewrite C26_proof by auto. cbn [fst].
  pose proof (C29_formula_proof r RD c [(r2, RD2, o)] H ltac:(discriminate)) as E. cbn [map] in E. exact E.
Qed.

Lemma C29_empty_proof : forall (F : Type) (A : Arith F) (p : GlickoRating F) c,
  glicko_rating_period p [] c = glicko_decay_deviation p c.
Proof. reflexivity. Qed.

Lemma glicko_r_mono r RD rj RDj s s' : 0 < RD -> s < s' -> glicko_r r RD [(rj, RDj, s)] < glicko_r r RD [(rj, RDj, s')].
Proof.
  intros H1 H2. unfold glicko_r. rewrite !gM_single. replace (gd2inv r [(rj, RDj, s')]) with (gd2inv r [(rj, RDj, s)]) by now rewrite !gd2inv_single.
  pose proof (gprec_pos r RD [(rj, RDj, s)] H1). pose proof (gg_pos RDj). pose proof gq_pos.
  apply Rplus_lt_compat_l. apply Rmult_lt_compat_l; [pos|]. apply Rmult_lt_compat_l; lra.
Qed.
Lemma glicko_r_dir r RD rj RDj s : 0 < RD ->
  (gE r rj RDj < s -> r < glicko_r r RD [(rj, RDj, s)]) /\ (s < gE r rj RDj -> glicko_r r RD [(rj, RDj, s)] < r).
Proof.
  intros H1. unfold glicko_r. rewrite !gM_single.
  pose proof (gprec_pos r RD [(rj, RDj, s)] H1). pose proof (gg_pos RDj). pose proof gq_pos.
  assert (0 < gq / (/ RD ^ 2 + gd2inv r [(rj, RDj, s)]) * gg RDj) by pos.
  rewrite <- Rmult_assoc. split; intros; nra.
Qed.

Lemma C28_proof : forall r1 RD1 r2 RD2 c, 0 < RD1 -> 0 < RD2 ->
  exists w d l w' d' l',
    (forall o, exists p q, glicko (mkGlicko (Fin r1) (Fin RD1)) (mkGlicko (Fin r2) (Fin RD2)) o (mkGlickoConfig (Fin c)) = (p, q) /\
       gl_rating p = Fin (match o with WIN => w | DRAW => d | LOSS => l end) /\
       gl_rating q = Fin (match o with WIN => l' | DRAW => d' | LOSS => w' end)) /\
    l < d < w /\ l' < d' < w' /\ l < r1 < w /\ l' < r2 < w'.
Proof.
  intros r1 RD1 r2 RD2 c H1 H2.
  exists (glicko_r r1 (gpre RD1 c) [(r2, RD2, 1)]), (glicko_r r1 (gpre RD1 c) [(r2, RD2, 1/2)]),
         (glicko_r r1 (gpre RD1 c) [(r2, RD2, 0)]),
         (glicko_r r2 (gpre RD2 c) [(r1, RD1, 1)]), (glicko_r r2 (gpre RD2 c) [(r1, RD1, 1/2)]),
         (glicko_r r2 (gpre RD2 c) [(r1, RD1, 0)]).
  pose proof (gpre_pos RD1 c H1). pose proof (gpre_pos RD2 c H2).
  pose proof (gE_range r1 r2 RD2). pose proof (gE_range r2 r1 RD1).
  split.
  - intros o. rewrite C26_proof by auto. do 2 eexists. split; [reflexivity|]. destruct o; split; reflexivity.
  - repeat split; try (apply glicko_r_mono; lra); apply glicko_r_dir; lra.
Qed.

Lemma gpre_self RD c : 0 <= RD <= 350 -> RD <= gpre RD c.
Proof.
  intros. unfold gpre. apply Rmin_glb; [|lra]. rewrite <- (sqrt_pow2 RD) at 1 by lra.
  apply sqrt_le_1_alt. pose proof (pow2_ge_0 c). lra.
Qed.
Lemma iter_succ_r {X} n (f : X -> X) x : Nat.iter (S n) f x = Nat.iter n f (f x).
Proof. induction n as [|n IH]; [reflexivity|]. change (f (Nat.iter (S n) f x) = f (Nat.iter n f (f x))). now rewrite IH. Qed.
Lemma gpre_gpre RD c n : Rmin (sqrt (gpre RD c ^ 2 + INR n * c ^ 2)) 350 = Rmin (sqrt (RD ^ 2 + INR (S n) * c ^ 2)) 350.
Proof.
  unfold gpre. assert (Hc : 0 <= c ^ 2) by apply pow2_ge_0. assert (HR : 0 <= RD ^ 2) by apply pow2_ge_0.
  pose proof (pos_INR n). rewrite S_INR.
  assert (0 <= INR n * c ^ 2) by (apply Rmult_le_pos; lra).
  unfold Rmin at 2. destruct (Rle_dec (sqrt (RD ^ 2 + c ^ 2)) 350) as [h|h].
  - rewrite pow2_sqrt by lra. do 2 f_equal. ring.
  - apply Rnot_le_lt in h. rewrite !Rmin_right; auto.
    + apply Rlt_le. eapply Rlt_le_trans; [exact h|]. apply sqrt_le_1_alt. lra.
    + rewrite <- (sqrt_pow2 350) at 1 by lra. apply sqrt_le_1_alt. lra.
Qed.
Lemma C30_proof : forall r RD c n, 0 < RD <= 350 ->
  exists d, Nat.iter n (fun p => glicko_decay_deviation p (mkGlickoConfig (Fin c))) (mkGlicko (Fin r) (Fin RD)) =
    mkGlicko (Fin r) (Fin d) /\
    d = Rmin (sqrt (RD ^ 2 + INR n * c ^ 2)) 350 /\ RD <= d <= 350.
Proof.
  intros r RD c n HRD. eexists. split; [|split; [reflexivity|split; [|apply Rmin_r]]].
  - revert RD HRD. induction n as [|n IH]; intros RD HRD.
    + change (INR 0) with 0. rewrite Rmult_0_l, Rplus_0_r, sqrt_pow2 by lra. rewrite Rmin_left by lra. reflexivity.
    + rewrite iter_succ_r. unfold glicko_decay_deviation at 2. cbn [gl_rating gl_deviation gl_c].
      rewrite gl_pre_eval, IH.
      * now rewrite gpre_gpre.
      * apply gpre_range. lra.
  - apply Rmin_glb; [|lra]. rewrite <- (sqrt_pow2 RD) at 1 by lra. apply sqrt_le_1_alt.
    pose proof (pow2_ge_0 c). pose proof (pos_INR n). nra.
Qed.

Lemma glicko_expected_eval r1 RD1 r2 RD2 :
  glicko_expected_score (mkGlicko (Fin r1) (Fin RD1)) (mkGlicko (Fin r2) (Fin RD2)) =
  (Fin (gE r1 r2 (sqrt (RD1 ^ 2 + RD2 ^ 2))), Fin (gE r2 r1 (sqrt (RD1 ^ 2 + RD2 ^ 2)))).
Proof.
  unfold glicko_expected_score. cbn [gl_rating gl_deviation]. cbv zeta. rewrite gl_q_eval, xr_hypot.
  replace (RD1 * RD1 + RD2 * RD2) with (RD1 ^ 2 + RD2 ^ 2) by ring.
  rewrite gl_g_eval. set (S := sqrt _). xr. f_equal; f_equal; unfold gE.
  rewrite logistic_compl by pos. rewrite <- Rpower_neg. do 3 f_equal. field.
Qed.

Lemma C27_period_proof : forall r RD c rs, 0 < RD -> rs <> [] ->
  exists d, gl_deviation (glicko_rating_period (mkGlicko (Fin r) (Fin RD))
    (map (fun '(rj, RDj, o) => (mkGlicko (Fin rj) (Fin RDj), o)) rs) (mkGlickoConfig (Fin c))) = Fin d /\
    0 < d <= 350 /\ d < Rmin (sqrt (RD ^ 2 + c ^ 2)) 350.
Proof.
  intros r RD c rs H Hne. rewrite C29_formula_proof by auto. cbv zeta. cbn [gl_deviation]. fold (gpre RD c).
  set (g := map _ rs). assert (g <> []) by (unfold g; destruct rs; [congruence|discriminate]).
  pose proof (gpre_range RD c ltac:(lra)) as B. pose proof (gpre_pos RD c H) as P.
  pose proof (glicko_rd_range r (gpre RD c) g P). pose proof (glicko_rd_lt r (gpre RD c) g P ltac:(auto)).
  eexists. split; [reflexivity|]. lra.
Qed.

(** Expected scores. *)
Lemma gg_lt RD RD' : 0 <= RD < RD' -> gg RD' < gg RD.
Proof.
  intros H. unfold gg. pose proof (gg_arg_ge1 RD). pose proof gq_pos. pose proof PI_RGT_0.
  apply Rinv_lt_mono; [pos|]. apply sqrt_lt_1_alt. split; [lra|].
  apply Rplus_lt_compat_l. unfold Rdiv. apply Rmult_lt_compat_r; [pos|]. apply Rmult_lt_compat_l; [pos|].
  cbn. nra.
Qed.
Lemma gE_compl r rj RD : gE r rj RD + gE rj r RD = 1.
Proof.
  unfold gE. replace (- gg RD * (rj - r) / 400) with (- (- gg RD * (r - rj) / 400)) by (unfold Rdiv; ring).
  rewrite Rpower_neg. pose proof (Rpower_gt0 10 (- gg RD * (r - rj) / 400)). field. lra.
Qed.
Lemma gE_lt r r' rj RDj : r < r' -> gE r rj RDj < gE r' rj RDj.
Proof.
  intros. unfold gE. apply Rinv_lt_mono; [pos|]. apply Rplus_lt_compat_l, Rpower_mono; [lra|].
  pose proof (gg_pos RDj). nra.
Qed.
Lemma gE_self r RD : gE r r RD = 1 / 2.
Proof. pose proof (gE_compl r r RD). lra. Qed.
Lemma gE_dev r rj RD RD' : 0 <= RD < RD' -> rj < r -> 1 / 2 < gE r rj RD' < gE r rj RD.
Proof.
  intros H1 H2. split; [rewrite <- (gE_self rj RD'); now apply gE_lt|].
  pose proof (gg_lt RD RD' H1). unfold gE. apply Rinv_lt_mono; [pos|]. apply Rplus_lt_compat_l, Rpower_mono; [lra|]. nra.
Qed.

Lemma C75_glicko_proof : forall r1 RD1 r2 RD2, exists e1 e2,
  glicko_expected_score (mkGlicko (Fin r1) (Fin RD1)) (mkGlicko (Fin r2) (Fin RD2)) = (Fin e1, Fin e2) /\
  0 < e1 < 1 /\ 0 < e2 < 1 /\ e1 + e2 = 1 /\ (e1 > 1 / 2 <-> r1 > r2) /\
  glicko_expected_score (mkGlicko (Fin r2) (Fin RD2)) (mkGlicko (Fin r1) (Fin RD1)) = (Fin e2, Fin e1) /\
  (forall r1' e1' e2', glicko_expected_score (mkGlicko (Fin r1') (Fin RD1)) (mkGlicko (Fin r2) (Fin RD2)) = (Fin e1', Fin e2') ->
     r1 < r1' -> e1 < e1') /\
  (forall RD1' e1' e2', glicko_expected_score (mkGlicko (Fin r1) (Fin RD1')) (mkGlicko (Fin r2) (Fin RD2)) = (Fin e1', Fin e2') ->
     0 <= RD1 < RD1' -> r1 > r2 -> 1 / 2 < e1' < e1).
Proof.
  intros. rewrite glicko_expected_eval. do 2 eexists. split; [reflexivity|].
  set (D := sqrt (RD1 ^ 2 + RD2 ^ 2)).
  split; [apply gE_range|]. split; [apply gE_range|]. split; [apply gE_compl|]. split; [|split; [|split]].
  - rewrite <- (gE_self r2 D). split; intros H; [|now apply gE_lt].
    destruct (Rtotal_order r1 r2) as [h|[h|h]]; auto.
    + pose proof (gE_lt r1 r2 r2 D h). lra.
    + subst. lra.
  - rewrite glicko_expected_eval. rewrite (Rplus_comm (RD2 ^ 2)). reflexivity.
  - intros *. rewrite glicko_expected_eval. intros [= <- _] H. now apply gE_lt.
  - intros *. rewrite glicko_expected_eval. intros [= <- _] H1 H2. apply gE_dev; auto. unfold D.
    split; [apply sqrt_pos|]. apply sqrt_lt_1_alt.
    pose proof (pow2_ge_0 RD1). pose proof (pow2_ge_0 RD2). split; [lra|]. cbn in *. nra.
Qed.

Lemma C31_glicko_proof : forall r RD,
  glicko_confidence_interval (mkGlicko (Fin r) (Fin RD)) = (Fin (r - 196 / 100 * RD), Fin (r + 196 / 100 * RD)).
Proof. intros. unfold glicko_confidence_interval. cbn [gl_rating gl_deviation]. xr. f_equal; f_equal; lra. Qed.
