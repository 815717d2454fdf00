(** Proofs of C114: games add certainty, and uncertain ratings move more. *)
From Coq Require Import ZArith NArith List Bool Reals Lra Lia Permutation.
From Coquelicot Require Import Coquelicot.
From Verif Require Import Arith XR Tac ModelLib ModelElo ModelGlicko ModelSticko ModelWengLin ModelUscf ModelDwz Spec
  ProofElo ProofGlicko ProofSticko ProofWengLin ProofUscf ProofDwz MathIval ProofBoost2 ProofOrder2.
Import Spec ListNotations.
Local Open Scope R_scope.

(** ** Glicko *)
Lemma gd2inv_cons r g gs : gd2inv r (g :: gs) = gd2inv r [g] + gd2inv r gs.
Proof. unfold gd2inv. cbn [map]. rewrite !Rsum_cons. unfold Rsum at 2. simpl. ring. Qed.
Lemma prec_sqrt_lt a b : 0 < a < b -> sqrt (/ b) < sqrt (/ a).
Proof. intros H. apply sqrt_lt_1_alt. split; [left; apply Rinv_0_lt_compat; lra|]. apply Rinv_lt_contravar; [apply Rmult_lt_0_compat; lra|lra]. Qed.
Lemma glicko_rd_perm r RD g g' : Permutation g g' -> glicko_rd r RD g = glicko_rd r RD g'.
Proof. intros P. unfold glicko_rd. now rewrite (gd2inv_perm r g g' P). Qed.
Lemma glicko_rd_more r RD g gs : 0 < RD -> glicko_rd r RD (g :: gs) < glicko_rd r RD gs.
Proof.
  intros H. unfold glicko_rd. apply prec_sqrt_lt. rewrite gd2inv_cons. pose proof (gprec_pos r RD gs H). pose proof (gd2inv_pos r [g] ltac:(discriminate)). lra.
Qed.
Definition gl_games (rs : list (R * R * Outcomes)) := map (fun '(rj, RDj, o) => (mkGlicko (Fin rj) (Fin RDj), o)) rs.
Lemma glicko_rd_nil r RD : 0 < RD -> glicko_rd r RD [] = RD.
Proof.
  intros H. unfold glicko_rd, gd2inv. cbn [map]. unfold Rsum. simpl fold_right. rewrite Rmult_0_r, Rplus_0_r, Rinv_involutive by (apply pow_nonzero; lra). apply sqrt_pow2. lra.
Qed.
Lemma gl_period_dev r RD c rs : 0 < RD -> gl_deviation (glicko_rating_period (mkGlicko (Fin r) (Fin RD)) (gl_games rs) (mkGlickoConfig (Fin c))) =
  Fin (glicko_rd r (gpre RD c) (map (fun '(rj, RDj, o) => (rj, RDj, points o)) rs)).
Proof.
  intros H. destruct rs as [|g rs].
  - unfold gl_games. cbn [map]. rewrite C29_empty_proof, glicko_rd_nil by (apply gpre_pos; auto). unfold glicko_decay_deviation. cbn [gl_deviation gl_c]. rewrite gl_pre_eval. reflexivity.
  - unfold gl_games. rewrite C29_formula_proof by (auto; discriminate). reflexivity.
Qed.
Lemma C114_glicko_more_games_proof : forall r RD c rs rs' g, 0 < RD ->
  exists d d',
    gl_deviation (glicko_rating_period (mkGlicko (Fin r) (Fin RD)) (map (fun '(rj, RDj, o) => (mkGlicko (Fin rj) (Fin RDj), o)) (rs ++ rs')) (mkGlickoConfig (Fin c))) = Fin d /\
    gl_deviation (glicko_rating_period (mkGlicko (Fin r) (Fin RD)) (map (fun '(rj, RDj, o) => (mkGlicko (Fin rj) (Fin RDj), o)) (rs ++ g :: rs')) (mkGlickoConfig (Fin c))) = Fin d' /\
    0 < d' < d.
Proof.
  intros r RD c rs rs' g H. rewrite !(gl_period_dev r RD c) by auto. do 2 eexists. split; [reflexivity|split; [reflexivity|]]. pose proof (gpre_pos RD c H) as P.
  split; [apply glicko_rd_range; exact P|].
  rewrite (glicko_rd_perm _ _ (map _ (rs ++ g :: rs')) (map (fun '(rj, RDj, o) => (rj, RDj, points o)) (g :: rs ++ rs'))) by (apply Permutation_map, Permutation_sym, Permutation_middle).
  cbn [map]. apply glicko_rd_more, P.
Qed.

Lemma gpre_lt RD RD' c : 0 < RD < RD' -> RD ^ 2 + c ^ 2 < 350 ^ 2 -> gpre RD c < gpre RD' c.
Proof.
  intros H B. unfold gpre. assert (C2 : 0 <= c ^ 2) by apply pow2_ge_0. assert (L : RD ^ 2 < RD' ^ 2) by nra. assert (R2 : 0 <= RD ^ 2) by apply pow2_ge_0.
  assert (S1 : sqrt (RD ^ 2 + c ^ 2) < 350). { rewrite <- (sqrt_pow2 350) by lra. apply sqrt_lt_1_alt. lra. }
  rewrite (Rmin_left (sqrt (RD ^ 2 + c ^ 2))) by lra. apply Rmin_glb_lt; [apply sqrt_lt_1_alt; lra|lra].
Qed.
(** a larger prior variance gives a larger posterior variance *)
Lemma post_lt a b X : 0 < a < b -> 0 <= X -> / (/ a ^ 2 + X) < / (/ b ^ 2 + X).
Proof.
  intros H HX. assert (0 < a ^ 2) by (apply pow_lt; lra). assert (a ^ 2 < b ^ 2) by nra. assert (/ b ^ 2 < / a ^ 2) by (apply Rinv_lt_contravar; [apply Rmult_lt_0_compat; lra|lra]).
  assert (0 < / b ^ 2) by (apply Rinv_0_lt_compat; lra). apply Rinv_lt_contravar; [apply Rmult_lt_0_compat; lra|lra].
Qed.
Lemma C114_glicko_uncertain_proof : forall r RD RD' c rs, 0 < RD < RD' -> RD ^ 2 + c ^ 2 < 350 ^ 2 -> rs <> [] ->
  exists x d x' d',
    glicko_rating_period (mkGlicko (Fin r) (Fin RD)) (map (fun '(rj, RDj, o) => (mkGlicko (Fin rj) (Fin RDj), o)) rs) (mkGlickoConfig (Fin c)) = mkGlicko (Fin x) (Fin d) /\
    glicko_rating_period (mkGlicko (Fin r) (Fin RD')) (map (fun '(rj, RDj, o) => (mkGlicko (Fin rj) (Fin RDj), o)) rs) (mkGlickoConfig (Fin c)) = mkGlicko (Fin x') (Fin d') /\
    d < d' /\ (r < x -> x < x') /\ (x < r -> x' < x) /\ (x = r -> x' = r).
Proof.
  intros r RD RD' c rs H B NE. rewrite !C29_formula_proof by (auto; lra). cbv zeta. do 4 eexists. split; [reflexivity|split; [reflexivity|]].
  set (gs := map _ rs). pose proof (gpre_lt RD RD' c H B) as L. pose proof (gpre_pos RD c ltac:(lra)) as P. pose proof (post_lt _ _ (gd2inv r gs) (conj P L) (gd2inv_nonneg r gs)) as Q.
  split.
  - unfold glicko_rd. apply sqrt_lt_1_alt. split; [|exact Q]. left. apply Rinv_0_lt_compat, gprec_pos, P.
  - unfold glicko_r. pose proof gq_pos as G. unfold Rdiv. set (V := / (/ gpre RD c ^ 2 + gd2inv r gs)) in *. set (V' := / (/ gpre RD' c ^ 2 + gd2inv r gs)) in *.
    assert (V0 : 0 < V) by (apply Rinv_0_lt_compat, gprec_pos, P). set (M := gM r gs). assert (K : 0 < gq * V < gq * V') by (split; [apply Rmult_lt_0_compat; lra|apply Rmult_lt_compat_l; lra]).
    split; [|split]; intros HM; [assert (0 < M) by nra; nra|assert (M < 0) by nra; nra|assert (M = 0) as -> by nra; ring].
Qed.
(** closeness of the ratings *)
Lemma sg_opp u : sg (- u) = 1 - sg u.
Proof. unfold sg. rewrite Ropp_involutive, exp_Ropp. pose proof (exp_pos u). field. lra. Qed.
Lemma sg_incr a b : a < b -> sg a < sg b.
Proof. intros H. unfold sg. pose proof (exp_pos (- a)). pose proof (exp_pos (- b)). apply Rinv_lt_contravar; [apply Rmult_lt_0_compat; lra|]. assert (exp (- b) < exp (- a)) by (apply exp_increasing; lra). lra. Qed.
Lemma sg_half : sg 0 = 1 / 2. Proof. unfold sg. rewrite Ropp_0, exp_0. lra. Qed.
Lemma sg_pq a b : Rabs a < Rabs b -> sg b * (1 - sg b) < sg a * (1 - sg a).
Proof.
  assert (S : forall u, sg (Rabs u) * (1 - sg (Rabs u)) = sg u * (1 - sg u)). { intros u. unfold Rabs. destruct (Rcase_abs u); [rewrite sg_opp; ring|reflexivity]. }
  intros H. rewrite <- (S a), <- (S b). pose proof (Rabs_pos a) as A0. pose proof (sg_incr _ _ H) as L.
  assert (1 / 2 <= sg (Rabs a)). { destruct A0 as [A0| <-]; [left; rewrite <- sg_half; apply sg_incr; exact A0|rewrite sg_half; lra]. } nra.
Qed.
Lemma C114_glicko_close_proof : forall r RD rj rj' RDj c o o', 0 < RD -> 0 < RDj -> Rabs (r - rj) < Rabs (r - rj') ->
  exists d d',
    gl_deviation (fst (glicko (mkGlicko (Fin r) (Fin RD)) (mkGlicko (Fin rj) (Fin RDj)) o (mkGlickoConfig (Fin c)))) = Fin d /\
    gl_deviation (fst (glicko (mkGlicko (Fin r) (Fin RD)) (mkGlicko (Fin rj') (Fin RDj)) o' (mkGlickoConfig (Fin c)))) = Fin d' /\ d < d'.
Proof.
  intros r RD rj rj' RDj c o o' H Hj B. rewrite !C26_proof by auto. cbn [fst gl_deviation]. do 2 eexists. split; [reflexivity|split; [reflexivity|]].
  unfold glicko_rd. pose proof (gpre_pos RD c H) as P. apply prec_sqrt_lt. split; [apply gprec_pos, P|]. apply Rplus_lt_compat_l. rewrite !gd2inv_single, !gE_sg.
  pose proof gq_pos as G. pose proof (gg_pos RDj) as GG. apply Rmult_lt_compat_l; [apply pow_lt, G|]. rewrite !Rmult_assoc. apply Rmult_lt_compat_l; [apply pow_lt, GG|]. apply sg_pq.
  rewrite !(Rabs_mult _ (gq * gg RDj)), (Rabs_pos_eq (gq * gg RDj)) by (apply Rlt_le, Rmult_lt_0_compat; auto). apply Rmult_lt_compat_r; [apply Rmult_lt_0_compat; auto|exact B].
Qed.
(** between equals the opponent's certainty counts *)
Lemma C114_glicko_opp_proof : forall r RD RDj RDj' c o, 0 < RD -> 0 < RDj < RDj' ->
  exists x d x' d',
    fst (glicko (mkGlicko (Fin r) (Fin RD)) (mkGlicko (Fin r) (Fin RDj)) o (mkGlickoConfig (Fin c))) = mkGlicko (Fin x) (Fin d) /\
    fst (glicko (mkGlicko (Fin r) (Fin RD)) (mkGlicko (Fin r) (Fin RDj')) o (mkGlickoConfig (Fin c))) = mkGlicko (Fin x') (Fin d') /\
    d < d'.
Proof.
  intros r RD RDj RDj' c o H Hj. rewrite !C26_proof by (auto; lra). cbn [fst]. do 4 eexists. split; [reflexivity|split; [reflexivity|]].
  unfold glicko_rd. pose proof (gpre_pos RD c H) as P. apply prec_sqrt_lt. split; [apply gprec_pos, P|]. apply Rplus_lt_compat_l. rewrite !gd2inv_single, !gE_self.
  pose proof gq_pos as G. apply Rmult_lt_compat_l; [apply pow_lt, G|]. pose proof (gg_lt RDj RDj' ltac:(lra)). pose proof (gg_pos RDj'). nra.
Qed.

(** far from the own rating it is the other way round *)
Lemma sgpq_abs x : sg x * (1 - sg x) = sg (Rabs x) * (1 - sg (Rabs x)).
Proof. unfold Rabs. destruct (Rcase_abs x); [rewrite !sg_opp; ring|reflexivity]. Qed.
Lemma sgpq_bnd x : 0 <= x -> exp (- x) / 4 <= sg x * (1 - sg x) < exp (- x).
Proof.
  intros H. unfold sg. pose proof (exp_pos (- x)) as P. assert (Q : exp (- x) <= 1) by (rewrite <- exp_0; destruct H as [H| <-]; [left; apply exp_increasing; lra|rewrite Ropp_0; lra]).
  set (t := exp (- x)) in *. replace (/ (1 + t) * (1 - / (1 + t))) with (t * / (1 + t) ^ 2) by (field; lra).
  assert (1 < (1 + t) ^ 2 <= 4) by nra. split.
  - unfold Rdiv. apply Rmult_le_compat_l; [lra|]. apply Rinv_le_contravar; lra.
  - rewrite <- (Rmult_1_r t) at 3. apply Rmult_lt_compat_l; [lra|]. rewrite <- Rinv_1. apply Rinv_lt_contravar; lra.
Qed.
Lemma C114_glicko_far_proof : forall RD RDj RDj' c o, 0 < RD -> 0 < RDj < RDj' ->
  exists gap, 0 < gap /\ forall r rj, gap <= Rabs (r - rj) -> exists d d',
    gl_deviation (fst (glicko (mkGlicko (Fin r) (Fin RD)) (mkGlicko (Fin rj) (Fin RDj)) o (mkGlickoConfig (Fin c)))) = Fin d /\
    gl_deviation (fst (glicko (mkGlicko (Fin r) (Fin RD)) (mkGlicko (Fin rj) (Fin RDj')) o (mkGlickoConfig (Fin c)))) = Fin d' /\
    d' < d.
Proof.
  intros RD RDj RDj' c o H Hj. pose proof (gg_lt RDj RDj' ltac:(lra)) as L. pose proof (gg_range RDj) as G1. pose proof (gg_pos RDj') as G2. pose proof gq_pos as Q.
  set (g := gg RDj) in *. set (g' := gg RDj') in *. set (k := gq * (g - g')). assert (K : 0 < k) by (apply Rmult_lt_0_compat; lra).
  assert (G4 : 0 < g' ^ 2) by (apply pow_lt; lra). assert (Y : 0 < 4 * g ^ 2 / g' ^ 2) by (apply Rdiv_lt_0_compat; [nra|exact G4]). set (y := 4 * g ^ 2 / g' ^ 2) in *.
  exists (y / k). split; [apply Rdiv_lt_0_compat; assumption|]. intros r rj HD. rewrite !C26_proof by (auto; lra). cbn [fst gl_deviation]. do 2 eexists. split; [reflexivity|split; [reflexivity|]].
  unfold glicko_rd. pose proof (gpre_pos RD c H) as P. apply prec_sqrt_lt. split; [apply gprec_pos, P|]. apply Rplus_lt_compat_l. rewrite !gd2inv_single, !gE_sg.
  apply Rmult_lt_compat_l; [apply pow_lt, Q|]. fold g g'. rewrite !Rmult_assoc, !(sgpq_abs (_ * _)). 
  rewrite !(Rabs_mult (r - rj)), (Rabs_pos_eq (gq * g)), (Rabs_pos_eq (gq * g')) by (apply Rlt_le, Rmult_lt_0_compat; lra). set (D := Rabs (r - rj)) in *.
  assert (D0 : 0 < D) by (apply Rlt_le_trans with (y / k); [apply Rdiv_lt_0_compat; assumption|exact HD]).
  assert (X : 0 <= D * (gq * g)) by (apply Rmult_le_pos; [lra|apply Rlt_le, Rmult_lt_0_compat; lra]). assert (X' : 0 <= D * (gq * g')) by (apply Rmult_le_pos; [lra|apply Rlt_le, Rmult_lt_0_compat; lra]).
  pose proof (sgpq_bnd _ X) as B. pose proof (sgpq_bnd _ X') as B'.
  assert (E : y < exp (k * D)). { apply Rle_lt_trans with (k * D); [|pose proof (exp_ineq1_le (k * D)); lra]. apply Rmult_le_reg_r with (/ k); [apply Rinv_0_lt_compat, K|]. replace (k * D * / k) with D by (field; lra). exact HD. }
  replace (- (D * (gq * g'))) with (- (D * (gq * g)) + k * D) in B' by (unfold k; ring). rewrite exp_plus in B'. pose proof (exp_pos (- (D * (gq * g)))) as T. set (t := exp (- (D * (gq * g)))) in *.
  apply Rlt_le_trans with (g ^ 2 * t); [apply Rmult_lt_compat_l; [apply pow_lt; lra|lra]|]. apply Rle_trans with (g' ^ 2 * (t * exp (k * D) / 4)); [|apply Rmult_le_compat_l; lra].
  apply Rle_trans with (g' ^ 2 * (t * y / 4)); [unfold y; right; field; lra|]. apply Rmult_le_compat_l; [lra|]. apply Rmult_le_compat_r; [lra|]. apply Rmult_le_compat_l; lra.
Qed.

(** ** Weng-Lin *)
Lemma sg_over x y : 0 < x < y -> sg y / y < sg x / x.
Proof.
  intros H. assert (M : x * (1 + exp (- x)) < y * (1 + exp (- y))).
  { apply (mvt_pos (fun u => u * (1 + exp (- u))) (fun u => 1 + exp (- u) - u * exp (- u)) x y (proj2 H)).
    - intros c _. auto_derive; [auto|ring].
    - intros c Hc. rewrite exp_Ropp. pose proof (exp_ineq1_le c) as E. assert (0 < / exp c) by (apply Rinv_0_lt_compat, exp_pos). assert (c * / exp c < 1); [|lra]. apply Rmult_lt_reg_r with (exp c); [apply exp_pos|]. rewrite Rmult_assoc, Rinv_l by (pose proof (exp_pos c); lra). lra. }
  unfold sg, Rdiv. pose proof (exp_pos (- x)). pose proof (exp_pos (- y)). rewrite <- !Rinv_mult_distr by lra. apply Rinv_lt_contravar; [repeat apply Rmult_lt_0_compat; lra|lra].
Qed.
(** s^2/c * sg(d/c) rises with s *)
Lemma wl_move_mono B d s t : 0 < s < t -> 0 < B -> s ^ 2 / sqrt (s ^ 2 + B) * sg (d / sqrt (s ^ 2 + B)) < t ^ 2 / sqrt (t ^ 2 + B) * sg (d / sqrt (t ^ 2 + B)).
Proof.
  intros H HB. assert (S2 : 0 < s ^ 2) by (apply pow_lt; lra). assert (L : s ^ 2 < t ^ 2) by nra. set (u := s ^ 2) in *. set (v := t ^ 2) in *. clearbody u v.
  set (a := sqrt (u + B)). set (b := sqrt (v + B)). assert (Ea : a * a = u + B) by (apply sqrt_sqrt; lra). assert (Eb : b * b = v + B) by (apply sqrt_sqrt; lra).
  assert (A0 : 0 < a) by (apply sqrt_lt_R0; lra). assert (AB : a < b) by (apply sqrt_lt_1_alt; lra).
  pose proof (sg_range (d / a)) as Ga. pose proof (sg_range (d / b)) as Gb.
  assert (IA : 0 < / a) by (apply Rinv_0_lt_compat; lra). assert (IB : 0 < / b) by (apply Rinv_0_lt_compat; lra). assert (IL : / b < / a) by (apply Rinv_lt_contravar; [apply Rmult_lt_0_compat; lra|lra]).
  destruct (Rle_dec d 0) as [D|D].
  - assert (U : u / a < v / b).
    { apply Rmult_lt_reg_r with (a * b); [apply Rmult_lt_0_compat; lra|]. replace (u / a * (a * b)) with (u * b) by (field; lra). replace (v / b * (a * b)) with (v * a) by (field; lra). apply Rsqr_incrst_0; [unfold Rsqr|apply Rmult_le_pos; lra|apply Rmult_le_pos; lra].
      replace (u * b * (u * b)) with (u * u * (v + B)) by (rewrite <- Eb; ring). replace (v * a * (v * a)) with (v * v * (u + B)) by (rewrite <- Ea; ring).
      assert (0 < u * v * (v - u)) by (repeat apply Rmult_lt_0_compat; lra). assert (0 < B * ((v - u) * (v + u))) by (repeat apply Rmult_lt_0_compat; lra). lra. }
    assert (G : sg (d / a) <= sg (d / b)). { destruct D as [D| ->]; [left; apply sg_incr; unfold Rdiv; apply Ropp_lt_cancel; rewrite !Ropp_mult_distr_l; apply Rmult_lt_compat_l; lra|unfold Rdiv; rewrite !Rmult_0_l; lra]. }
    assert (0 < u / a) by (apply Rdiv_lt_0_compat; lra). apply Rlt_le_trans with (v / b * sg (d / a)); [apply Rmult_lt_compat_r; lra|apply Rmult_le_compat_l; lra].
  - apply Rnot_le_lt in D. assert (X : 0 < d / b < d / a) by (unfold Rdiv; split; [apply Rmult_lt_0_compat; lra|apply Rmult_lt_compat_l; lra]).
    pose proof (sg_over _ _ X) as Q. assert (Q' : sg (d / a) * a < sg (d / b) * b).
    { apply Rmult_lt_reg_r with (/ d); [apply Rinv_0_lt_compat; lra|]. replace (sg (d / a) * a * / d) with (sg (d / a) / (d / a)) by (field; lra). replace (sg (d / b) * b * / d) with (sg (d / b) / (d / b)) by (field; lra). exact Q. }
    assert (U : u / (u + B) < v / (v + B)). { apply Rmult_lt_reg_r with ((u + B) * (v + B)); [apply Rmult_lt_0_compat; lra|]. replace (u / (u + B) * ((u + B) * (v + B))) with (u * (v + B)) by (field; lra). replace (v / (v + B) * ((u + B) * (v + B))) with (v * (u + B)) by (field; lra). nra. }
    replace (u / a * sg (d / a)) with (u / (u + B) * (sg (d / a) * a)) by (rewrite <- Ea; field; lra). replace (v / b * sg (d / b)) with (v / (v + B) * (sg (d / b) * b)) by (rewrite <- Eb; field; lra).
    assert (0 < u / (u + B)) by (apply Rdiv_lt_0_compat; lra). assert (0 < sg (d / a) * a) by (apply Rmult_lt_0_compat; lra).
    apply Rlt_trans with (v / (v + B) * (sg (d / a) * a)); [apply Rmult_lt_compat_r; lra|apply Rmult_lt_compat_l; lra].
Qed.

Lemma sg_pq_deriv u : is_derive (fun u => sg u * (1 - sg u)) u (sg u * (1 - sg u) * (1 - 2 * sg u)).
Proof. unfold sg. pose proof (exp_pos (- u)). auto_derive; [repeat split; lra|]. field. lra. Qed.
Lemma sg_tan u : 0 < u -> u * (sg u * (1 - sg u)) < sg u - 1 / 2.
Proof.
  intros H. assert (M : sg 0 - 1 / 2 - 0 * (sg 0 * (1 - sg 0)) < sg u - 1 / 2 - u * (sg u * (1 - sg u))); [|rewrite sg_half in M; lra].
  apply (mvt_pos (fun u => sg u - 1 / 2 - u * (sg u * (1 - sg u))) (fun u => - u * (sg u * (1 - sg u) * (1 - 2 * sg u))) 0 u H).
  - intros c _. unfold sg. pose proof (exp_pos (- c)). auto_derive; [repeat split; lra|]. field. lra.
  - intros c Hc. assert (L : 1 / 2 < sg c) by (rewrite <- sg_half; apply sg_incr; lra). pose proof (sg_range c). assert (0 < sg c * (1 - sg c)) by (apply Rmult_lt_0_compat; lra).
    replace (- c * (sg c * (1 - sg c) * (1 - 2 * sg c))) with (c * (sg c * (1 - sg c)) * (2 * sg c - 1)) by ring. repeat apply Rmult_lt_0_compat; lra.
Qed.
Lemma sgh_over x y : 0 < x < y -> (sg y - 1 / 2) / y < (sg x - 1 / 2) / x.
Proof.
  intros H. assert (M : - ((sg x - 1 / 2) / x) < - ((sg y - 1 / 2) / y)); [|lra].
  apply (mvt_pos (fun u => - ((sg u - 1 / 2) / u)) (fun u => ((sg u - 1 / 2) - u * (sg u * (1 - sg u))) / u ^ 2) x y (proj2 H)).
  - intros c Hc. unfold sg. pose proof (exp_pos (- c)). auto_derive; [repeat split; lra|]. field. lra.
  - intros c Hc. pose proof (sg_tan c ltac:(lra)). apply Rdiv_lt_0_compat; [lra|]. apply pow_lt. lra.
Qed.
Lemma wl_draw_mono B d s t : 0 < s < t -> 0 < B -> 0 < d -> s ^ 2 / sqrt (s ^ 2 + B) * (sg (d / sqrt (s ^ 2 + B)) - 1 / 2) < t ^ 2 / sqrt (t ^ 2 + B) * (sg (d / sqrt (t ^ 2 + B)) - 1 / 2).
Proof.
  intros H HB D. assert (S2 : 0 < s ^ 2) by (apply pow_lt; lra). assert (L : s ^ 2 < t ^ 2) by nra. set (u := s ^ 2) in *. set (v := t ^ 2) in *. clearbody u v.
  set (a := sqrt (u + B)). set (b := sqrt (v + B)). assert (Ea : a * a = u + B) by (apply sqrt_sqrt; lra). assert (Eb : b * b = v + B) by (apply sqrt_sqrt; lra).
  assert (A0 : 0 < a) by (apply sqrt_lt_R0; lra). assert (AB : a < b) by (apply sqrt_lt_1_alt; lra).
  assert (IA : 0 < / a) by (apply Rinv_0_lt_compat; lra). assert (IB : 0 < / b) by (apply Rinv_0_lt_compat; lra). assert (IL : / b < / a) by (apply Rinv_lt_contravar; [apply Rmult_lt_0_compat; lra|lra]).
  assert (X : 0 < d / b < d / a) by (unfold Rdiv; split; [apply Rmult_lt_0_compat; lra|apply Rmult_lt_compat_l; lra]).
  pose proof (sgh_over _ _ X) as Q. assert (G : 0 < sg (d / a) - 1 / 2) by (pose proof (sg_incr 0 (d / a) ltac:(lra)) as Y; rewrite sg_half in Y; lra). set (ga := sg (d / a) - 1 / 2) in *. set (gb := sg (d / b) - 1 / 2) in *.
  assert (Q' : ga * a < gb * b).
  { apply Rmult_lt_reg_r with (/ d); [apply Rinv_0_lt_compat; lra|]. replace (ga * a * / d) with (ga / (d / a)) by (field; lra). replace (gb * b * / d) with (gb / (d / b)) by (field; lra). exact Q. }
  assert (U : u / (u + B) < v / (v + B)). { apply Rmult_lt_reg_r with ((u + B) * (v + B)); [apply Rmult_lt_0_compat; lra|]. replace (u / (u + B) * ((u + B) * (v + B))) with (u * (v + B)) by (field; lra). replace (v / (v + B) * ((u + B) * (v + B))) with (v * (u + B)) by (field; lra). nra. }
  replace (u / a * ga) with (u / (u + B) * (ga * a)) by (rewrite <- Ea; field; lra). replace (v / b * gb) with (v / (v + B) * (gb * b)) by (rewrite <- Eb; field; lra).
  assert (0 < u / (u + B)) by (apply Rdiv_lt_0_compat; lra). assert (0 < ga * a) by (apply Rmult_lt_0_compat; lra).
  apply Rlt_trans with (v / (v + B) * (ga * a)); [apply Rmult_lt_compat_r; lra|apply Rmult_lt_compat_l; lra].
Qed.
Lemma C114_wl_proof : forall m1 s1 s1' m2 s2 o beta kappa, 0 < s1 < s1' -> 0 < s2 -> 0 < kappa <= 1 ->
  exists x x',
    wl_rating (fst (weng_lin (mkWL (Fin m1) (Fin s1)) (mkWL (Fin m2) (Fin s2)) o (mkWLConfig (Fin beta) (Fin kappa)))) = Fin x /\
    wl_rating (fst (weng_lin (mkWL (Fin m1) (Fin s1')) (mkWL (Fin m2) (Fin s2)) o (mkWLConfig (Fin beta) (Fin kappa)))) = Fin x' /\
    (m1 < x -> x < x') /\ (x < m1 -> x' < x) /\ (x = m1 -> x' = m1).
Proof.
  intros m1 s1 s1' m2 s2 o beta kappa H H2 HK.
  destruct (C42_proof m1 s1 m2 s2 o beta kappa ltac:(lra) H2 HK) as (x & ? & ? & ? & E & Ex & _). destruct (C42_proof m1 s1' m2 s2 o beta kappa ltac:(lra) H2 HK) as (x' & ? & ? & ? & E' & Ex' & _).
  rewrite E, E'. cbn [fst wl_rating]. exists x, x'. split; [reflexivity|split; [reflexivity|]]. clear E E'.
  assert (HB : 0 < s2 ^ 2 + 2 * beta ^ 2) by (pose proof (pow_lt s2 2 H2); pose proof (pow2_ge_0 beta); lra). set (B := s2 ^ 2 + 2 * beta ^ 2) in *.
  rewrite !Rplus_assoc in Ex, Ex'. fold B in Ex, Ex'. set (d := m1 - m2).
  assert (P : forall c, 0 < c -> / (1 + exp ((m2 - m1) / c)) = sg (d / c)) by (intros c Hc; unfold sg, d; do 3 f_equal; field; lra).
  assert (C1 : 0 < sqrt (s1 ^ 2 + B)) by (apply sqrt_lt_R0; pose proof (pow2_ge_0 s1); lra). assert (C2 : 0 < sqrt (s1' ^ 2 + B)) by (apply sqrt_lt_R0; pose proof (pow2_ge_0 s1'); lra).
  rewrite P in Ex, Ex' by assumption. set (f := s1 ^ 2 / sqrt (s1 ^ 2 + B)) in *. set (f' := s1' ^ 2 / sqrt (s1' ^ 2 + B)) in *.
  assert (F : 0 < f) by (apply Rdiv_lt_0_compat; [apply pow_lt; lra|exact C1]). assert (F' : 0 < f') by (apply Rdiv_lt_0_compat; [apply pow_lt; lra|exact C2]).
  assert (ND : forall e c, - e / c = - (e / c)) by (intros; unfold Rdiv; ring).
  pose proof (sg_range (d / sqrt (s1 ^ 2 + B))) as G. pose proof (sg_range (d / sqrt (s1' ^ 2 + B))) as G'.
  destruct o; cbn [points] in Ex, Ex'.
  - pose proof (wl_move_mono B (- d) s1 s1' H HB) as M. rewrite !ND, !sg_opp in M. fold f f' in M.
    assert (0 < f * (1 - sg (d / sqrt (s1 ^ 2 + B)))) by (apply Rmult_lt_0_compat; lra). repeat split; intros; lra.
  - pose proof (wl_move_mono B d s1 s1' H HB) as M. fold f f' in M. assert (0 < f * sg (d / sqrt (s1 ^ 2 + B))) by (apply Rmult_lt_0_compat; lra). repeat split; intros; lra.
  - destruct (Rtotal_order d 0) as [D|[D|D]].
    + pose proof (wl_draw_mono B (- d) s1 s1' H HB ltac:(lra)) as M. rewrite !ND, !sg_opp in M. fold f f' in M.
      assert (Y : sg (d / sqrt (s1 ^ 2 + B)) < 1 / 2) by (rewrite <- sg_half; apply sg_incr; apply Ropp_lt_cancel; rewrite <- ND, Ropp_0; apply Rdiv_lt_0_compat; lra).
      assert (0 < f * (1 / 2 - sg (d / sqrt (s1 ^ 2 + B)))) by (apply Rmult_lt_0_compat; lra). repeat split; intros; lra.
    + rewrite D in *. unfold Rdiv in Ex, Ex' at 2. rewrite Rmult_0_l, sg_half in Ex, Ex'. repeat split; intros; lra.
    + pose proof (wl_draw_mono B d s1 s1' H HB D) as M. fold f f' in M.
      assert (Y : 1 / 2 < sg (d / sqrt (s1 ^ 2 + B))) by (rewrite <- sg_half; apply sg_incr; apply Rdiv_lt_0_compat; lra).
      assert (0 < f * (sg (d / sqrt (s1 ^ 2 + B)) - 1 / 2)) by (apply Rmult_lt_0_compat; lra). repeat split; intros; lra.
Qed.

(** ** USCF and DWZ: experience *)
Lemma uscf_Ne_mono r n n' : n <= n' -> uscf_Ne r n <= uscf_Ne r n'.
Proof. intros H. unfold uscf_Ne. destruct (Rlt_dec r 2355); [apply Rle_min_compat_r, Rle_min_compat_r; lra|apply Rle_min_compat_r; lra]. Qed.
Lemma Ne_pos r n : 0 < n -> 0 < uscf_Ne r n.
Proof.
  intros H. unfold uscf_Ne. assert (0 < Rmin n 50) by (apply Rmin_glb_lt; lra). destruct (Rlt_dec r 2355); [|assumption]. apply Rmin_glb_lt; [assumption|].
  apply Rdiv_lt_0_compat; [lra|]. apply sqrt_lt_R0. pose proof (pow2_ge_0 (2569 - r)). lra.
Qed.
Lemma uscf_K_anti r n n' m : 0 < n <= n' -> 0 <= m -> 0 < uscf_K r n' m <= uscf_K r n m.
Proof.
  intros H Hm. unfold uscf_K. pose proof (uscf_Ne_mono r n n' ltac:(lra)). pose proof (Ne_pos r n ltac:(lra)).
  split; [apply Rdiv_lt_0_compat; lra|]. unfold Rdiv. apply Rmult_le_compat_l; [lra|]. apply Rinv_le_contravar; lra.
Qed.
Lemma uscf_upd_anti r n n' m S E t : 0 < n <= n' -> 0 <= t ->
  (r <= uscf_upd r n' m S E t -> uscf_upd r n' m S E t <= uscf_upd r n m S E t) /\ (uscf_upd r n' m S E t <= r -> uscf_upd r n m S E t <= uscf_upd r n' m S E t).
Proof.
  intros H Ht. unfold uscf_upd. destruct (uscf_K_anti r n n' (INR m) H (pos_INR m)) as [K0 K1]. set (k := uscf_K r n (INR m)) in *. set (k' := uscf_K r n' (INR m)) in *. clearbody k k'.
  assert (T : 0 <= t * sqrt (INR (Nat.min m 4))) by (apply Rmult_le_pos; [lra|apply sqrt_pos]).
  unfold uscf_bonus. destruct (m <? 3)%nat; [split; intros; nra|]. set (b := t * sqrt (INR (Nat.min m 4))) in *. clearbody b.
  destruct (Rle_dec 0 (S - E)) as [P|P].
  - assert (Q : 0 <= k' * (S - E) <= k * (S - E)) by (split; [apply Rmult_le_pos; lra|apply Rmult_le_compat_r; lra]). unfold Rmax. destruct (Rle_dec 0 (k * (S - E) - b)), (Rle_dec 0 (k' * (S - E) - b)); split; intros; try lra.
    1-3: assert (Z0 : k' * (S - E) = 0) by lra; destruct (Rmult_integral _ _ Z0) as [Z|Z]; [lra|rewrite Z, ?Rmult_0_r in *; lra].
  - assert (Q1 : 0 <= (k - k') * (E - S)) by (apply Rmult_le_pos; lra). assert (Q2 : 0 < k' * (E - S)) by (apply Rmult_lt_0_compat; lra). assert (Q : k * (S - E) <= k' * (S - E) < 0) by lra. unfold Rmax. destruct (Rle_dec 0 (k * (S - E) - b)), (Rle_dec 0 (k' * (S - E) - b)); split; intros; lra.
Qed.
Lemma C114_uscf_proof : forall r n n' rs t, (8 < n <= n')%N -> (n' + N.of_nat (length rs) < 2 ^ 64)%N -> rs <> [] -> 0 <= t ->
  let games := map (fun g => (mkUscf (Fin (fst (fst g))) (snd (fst g)), snd g)) rs in
  exists x x',
    uscf_rating (uscf_rating_period (mkUscf (Fin r) n) games (mkUscfConfig (Fin t))) = Fin x /\
    uscf_rating (uscf_rating_period (mkUscf (Fin r) n') games (mkUscfConfig (Fin t))) = Fin x' /\
    (r <= x' -> x' <= x) /\ (x' <= r -> x <= x').
Proof.
  intros r n n' rs t Hn HB NE Ht games. unfold games. rewrite !C10_period_proof by (auto; lia). cbn [uscf_rating].
  rewrite (proj2 (N.leb_gt n 8)), (proj2 (N.leb_gt n' 8)) by lia. do 2 eexists. split; [reflexivity|split; [reflexivity|]]. apply uscf_upd_anti; [|exact Ht].
  split; [apply IZR_lt; lia|apply IZR_le; lia].
Qed.
Lemma dwz_E_mono r a S We i i' : i <= i' -> dwz_E r a S We i <= dwz_E r a S We i'.
Proof.
  intros H. unfold dwz_E. apply Rle_max_compat_l. apply Rle_min_compat_l. assert (Rmin 30 (5 * i) <= Rmin 30 (5 * i')) by (apply Rle_min_compat_l; lra).
  destruct (Rlt_dec r 1300); [destruct (Rle_dec S We); [lra|assumption]|assumption].
Qed.
Lemma C114_dwz_proof : forall r i i' a rs, (1 <= i <= i')%N ->
  let games := map (fun g => let '(x, j, b, o) := g in (mkDwz (Fin x) j b, o)) rs in
  exists x x',
    dwz_rating (dwz_rating_period (mkDwz (Fin r) i a) games) = Fin x /\
    dwz_rating (dwz_rating_period (mkDwz (Fin r) i' a) games) = Fin x' /\
    (r <= x' -> x' <= x) /\ (x' <= r -> x <= x').
Proof.
  intros r i i' a rs H games. unfold games. rewrite !C22_formula_proof by lia. cbn [dwz_rating]. do 2 eexists. split; [reflexivity|split; [reflexivity|]].
  set (S := Rsum (map (fun g => points (snd g)) rs)). set (We := Rsum _). pose proof (dwz_E_mono r a S We (IZR (Z.of_N i)) (IZR (Z.of_N i')) ltac:(apply IZR_le; lia)) as M.
  set (e := dwz_E r a S We (IZR (Z.of_N i))) in *. set (e' := dwz_E r a S We (IZR (Z.of_N i'))) in *. assert (E5 : 5 <= e) by (unfold e, dwz_E; apply Rmax_l).
  pose proof (pos_INR (length rs)) as N0. unfold dwz_upd. set (n := INR (length rs)) in *. assert (K : 0 < 800 / (e' + n) <= 800 / (e + n)).
  { split; [apply Rdiv_lt_0_compat; lra|]. unfold Rdiv. apply Rmult_le_compat_l; [lra|]. apply Rinv_le_contravar; lra. }
  split; intros Q; [assert (0 <= S - We) by nra; nra|assert (S - We <= 0) by nra; nra].
Qed.

(** ** Sticko: a game adds at most h to the variance *)
Lemma gd2inv_app r l l' : gd2inv r (l ++ l') = gd2inv r l + gd2inv r l'.
Proof. unfold gd2inv. rewrite map_app, Rsum_app. ring. Qed.
Lemma post_lip A h X X' : 0 < A -> 0 <= h -> 0 <= X <= X' -> / (/ (A + h) + X') <= / (/ A + X) + h.
Proof.
  intros HA Hh HX. assert (I1 : 0 < / (A + h)) by (apply Rinv_0_lt_compat; lra). assert (I2 : 0 < / A) by (apply Rinv_0_lt_compat; lra).
  apply Rle_trans with (/ (/ (A + h) + X)); [apply Rinv_le_contravar; lra|].
  replace (/ (/ (A + h) + X)) with ((A + h) / (1 + X * (A + h))) by (field; split; [lra|nra]). replace (/ (/ A + X)) with (A / (1 + X * A)) by (field; split; [lra|nra]).
  apply Rmult_le_reg_r with ((1 + X * (A + h)) * (1 + X * A)); [apply Rmult_lt_0_compat; nra|].
  replace ((A + h) / (1 + X * (A + h)) * ((1 + X * (A + h)) * (1 + X * A))) with ((A + h) * (1 + X * A)) by (field; nra).
  replace ((A / (1 + X * A) + h) * ((1 + X * (A + h)) * (1 + X * A))) with (A * (1 + X * (A + h)) + h * (1 + X * (A + h)) * (1 + X * A)) by (field; nra).
  assert (0 <= X * A) by nra. assert (0 <= X * h) by nra. assert (0 <= h * (X * A)) by nra. assert (0 <= h * (X * h)) by nra. nra.
Qed.

Lemma C114_sticko_proof : forall r RD h beta lambda gamma c rs1 rs2 g, 0 < RD -> 0 <= h -> rs1 ++ rs2 <> [] ->
  let games := map (fun '(rj, RDj, o, white) => (mkSticko (Fin rj) (Fin RDj), o, white)) in
  let cfg := mkStickoConfig (Fin h) (Fin beta) (Fin lambda) (Fin gamma) (Fin c) in
  exists d d',
    st_deviation (sticko_rating_period (mkSticko (Fin r) (Fin RD)) (games (rs1 ++ rs2)) cfg) = Fin d /\
    st_deviation (sticko_rating_period (mkSticko (Fin r) (Fin RD)) (games (rs1 ++ g :: rs2)) cfg) = Fin d' /\
    d' ^ 2 <= d ^ 2 + h.
Proof.
  intros r RD h beta lambda gamma c rs1 rs2 g H Hh NE games cfg. unfold games, cfg. rewrite !C33_period_proof by (auto; destruct rs1; discriminate).
  cbn [st_deviation]. do 2 eexists. split; [reflexivity|split; [reflexivity|]]. unfold sticko_rd.
  pose proof (gpre_pos RD c H) as P. assert (PP : 0 < gpre RD c ^ 2) by (apply pow_lt, P).
  rewrite !map_app. cbn [map]. rewrite !gd2inv_app, gd2inv_cons, !app_length. cbn [length]. rewrite Nat.add_succ_r, S_INR.
  set (n := INR (length rs1 + length rs2)). assert (N0 : 0 <= h * n) by (apply Rmult_le_pos; [lra|apply pos_INR]).
  set (A := gpre RD c ^ 2 + h * n). replace (gpre RD c ^ 2 + h * (n + 1)) with (A + h) by (unfold A; ring). assert (HA : 0 < A) by (unfold A; lra).
  set (y := gd2inv r [st_game gamma beta g]). assert (Y : 0 <= y) by apply gd2inv_nonneg. set (X1 := gd2inv r (map _ rs1)). set (X2 := gd2inv r (map _ rs2)). assert (0 <= X1) by apply gd2inv_nonneg. assert (0 <= X2) by apply gd2inv_nonneg.
  pose proof (post_lip A h (X1 + X2) (X1 + (y + X2)) HA Hh ltac:(lra)) as L.
  assert (V1 : 0 < / (/ A + (X1 + X2))) by (apply Rinv_0_lt_compat; assert (0 < / A) by (apply Rinv_0_lt_compat; lra); lra).
  assert (V2 : 0 < / (/ (A + h) + (X1 + (y + X2)))) by (apply Rinv_0_lt_compat; assert (0 < / (A + h)) by (apply Rinv_0_lt_compat; lra); lra).
  set (v := / (/ A + (X1 + X2))) in *. set (w := / (/ (A + h) + (X1 + (y + X2)))) in *. clearbody v w.
  assert (Sv : sqrt v ^ 2 = v) by (apply pow2_sqrt; lra). assert (Sw : sqrt w ^ 2 = w) by (apply pow2_sqrt; lra). pose proof (sqrt_pos v). pose proof (sqrt_pos w).
  unfold Rmin. destruct (Rle_dec (sqrt w) 350), (Rle_dec (sqrt v) 350); nra.
Qed.
Lemma C114_cap_proof : forall o, fst (glicko (mkGlicko (Fin 1500) (Fin 360)) (mkGlicko (Fin 1500) (Fin 50)) o (mkGlickoConfig (Fin 0))) =
  fst (glicko (mkGlicko (Fin 1500) (Fin 400)) (mkGlicko (Fin 1500) (Fin 50)) o (mkGlickoConfig (Fin 0))).
Proof.
  intros o. rewrite !C26_proof by lra. cbn [fst]. assert (G : forall x, 350 <= x -> gpre x 0 = 350).
  { intros x Hx. unfold gpre. apply Rmin_right. rewrite pow_i, Rplus_0_r, sqrt_pow2 by (lia || lra). exact Hx. }
  rewrite !G by lra. reflexivity.
Qed.
