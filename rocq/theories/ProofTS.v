(** Proofs about TrueSkill's closed-form functions (C49-C51, C54, C55, C57-C59). *)
From Coq Require Import ZArith NArith List Bool Reals Lra Lia Permutation.
From Verif Require Import Arith XR Tac ModelLib ModelWengLin ModelTS ModelTSGraph ModelTSMatrix Spec SpecTS SpecInTS MathTS ProofElo.
Import ListNotations.
Local Open Scope R_scope.

(** ** Evaluation of the model's functions *)
Lemma erfc_poly_eval t z : erfc_poly (Fin t) (Fin z) = Fin (nr_P t - z ^ 2).
Proof.
  unfold erfc_poly. xr. f_equal. unfold nr_P. lra.
Qed.
Lemma erfc_eval x : erfc (Fin x) = Fin (nr_erfc x).
Proof.
  unfold erfc. cbv zeta. rewrite xr_abs, (xr_ofZ 1), (xr_ofZ 2), (xr_ofZ 0), xr_ltb.
  pose proof (Rabs_pos x). rewrite xr_div by lra. rewrite xr_add, xr_recip by (apply Rgt_not_eq; lra).
  rewrite erfc_poly_eval, xr_exp, xr_mul. unfold nr_erfc, Rltb. destruct (Rlt_dec x 0).
  - rewrite xr_sub. rewrite Rabs_left by lra. reflexivity.
  - rewrite Rabs_right by lra. reflexivity.
Qed.
Lemma cdf_eval x : cdf (Fin x) (#0)%flt (#1)%flt = Fin (Phi x).
Proof.
  pose proof sqrt2_pos. unfold cdf. rewrite (xr_ofZ 0), (xr_ofZ 1). xr. rewrite erfc_eval. xr. f_equal. unfold Phi.
  replace (- (x - 0) / (1 * sqrt 2)) with (- x / sqrt 2) by (field; lra). lra.
Qed.
Lemma pdf_eval x : pdf (Fin x) (#0)%flt (#1)%flt = Fin (phi x).
Proof.
  unfold pdf. rewrite (xr_ofZ 0), (xr_ofZ 1), (xr_ofZ 2), !xr_abs. replace (Rabs 1) with 1 by (rewrite Rabs_R1; reflexivity).
  pose proof PI_RGT_0. xr. f_equal. unfold phi.
  replace ((x - 0) / 1 * ((x - 0) / 1)) with (x ^ 2) by field. assert (0 < sqrt (2 * PI)) by pos. field. lra.
Qed.
Lemma tiny_eval : @ts_tiny XR _ = Fin tiny.
Proof. unfold ts_tiny. rewrite xr_lit. unfold tiny. f_equal. f_equal. rewrite pow_IZR. f_equal. Qed.

Lemma v_non_draw_eval d e c : 0 < c -> v_non_draw (Fin d) (Fin e) (Fin c) = Fin (vwin (d / c) (e / c)).
Proof.
  intros Hc. unfold v_non_draw. cbv zeta. xr. rewrite cdf_eval, pdf_eval, tiny_eval, xr_ltb. pose proof (Phi_range (d / c - e / c)).
  unfold vwin, Rltb. destruct (Rlt_dec _ _); xr; reflexivity.
Qed.
Lemma w_non_draw_eval d e c : 0 < c -> w_non_draw (Fin d) (Fin e) (Fin c) = Fin (wwin (d / c) (e / c)).
Proof.
  intros Hc. unfold w_non_draw. cbv zeta. rewrite v_non_draw_eval by auto. xr. rewrite cdf_eval, tiny_eval, xr_ltb.
  unfold wwin, Rltb. destruct (Rlt_dec _ _); [destruct (Rlt_dec _ _); reflexivity|]. xr. reflexivity.
Qed.
Lemma v_draw_eval d e c : 0 < c -> v_draw (Fin d) (Fin e) (Fin c) = Fin (vdraw (d / c) (e / c)).
Proof.
  intros Hc. unfold v_draw. cbv zeta. xr. rewrite !cdf_eval, !pdf_eval, tiny_eval. xr. pose proof tiny_small.
  set (t := d / c). set (ep := e / c). unfold vdraw. fold (drawnorm t ep). unfold Rltb.
  destruct (Rlt_dec (drawnorm t ep) tiny).
  - destruct (Rlt_dec t 0); reflexivity.
  - destruct (Rlt_dec t 0); xr; f_equal; f_equal.
    + rewrite Rabs_left by auto. rewrite <- (phi_even (- ep - t)), <- (phi_even (ep - t)).
      replace (- (- ep - t)) with (ep - - t) by ring. replace (- (ep - t)) with (- ep - - t) by ring. ring.
    + rewrite Rabs_right by lra. reflexivity.
Qed.
Lemma w_draw_eval d e c : 0 < c -> w_draw (Fin d) (Fin e) (Fin c) = Fin (wdraw (d / c) (e / c)).
Proof.
  intros Hc. unfold w_draw. cbv zeta. rewrite v_draw_eval by auto. xr. rewrite !cdf_eval, !pdf_eval, tiny_eval. xr. pose proof tiny_small.
  set (t := d / c). set (ep := e / c). unfold wdraw. fold (drawnorm t ep). unfold Rltb.
  destruct (Rlt_dec (drawnorm t ep) tiny); [reflexivity|]. xr. f_equal. replace (vdraw t ep ^ 2) with (vdraw t ep * vdraw t ep) by ring.
  f_equal. f_equal. destruct (Rlt_dec t 0).
  - rewrite Rabs_left by auto. rewrite <- (phi_even (- ep - - t)). replace (- (- ep - - t)) with (ep - t) by ring.
    replace (ep - - t) with (ep + t) by ring. ring.
  - rewrite Rabs_right by lra. rewrite <- (phi_even (- ep - t)). replace (- (- ep - t)) with (ep + t) by ring. ring.
Qed.

(** ** Updates *)
Lemma ts_vw_eval o M1 M2 e c : 0 < c ->
  ts_vw o (ts_rating_delta o (Fin M1) (Fin M2)) (Fin e) (Fin c) =
  (Fin (match o with LOSS => - ts_v o ((M1 - M2) / c) (e / c) | _ => ts_v o ((M1 - M2) / c) (e / c) end),
   Fin (ts_w o ((M1 - M2) / c) (e / c))).
Proof.
  intros Hc. unfold ts_vw, ts_rating_delta, ts_v, ts_w. destruct o; cbn [outcome_eqb]; rewrite !xr_sub.
  - now rewrite v_non_draw_eval, w_non_draw_eval by auto.
  - rewrite v_non_draw_eval, w_non_draw_eval by auto. rewrite Ropp_involutive.
    replace ((M2 - M1) / c) with (- ((M1 - M2) / c)) by (field; lra). reflexivity.
  - now rewrite v_draw_eval, w_draw_eval by auto.
Qed.
Lemma xr_sqrt_std x : fsqrt (Fin x) = std x.
Proof. unfold std. cbn. unfold Rltb. destruct (Rlt_dec x 0); reflexivity. Qed.
Lemma ts_new_rating_eval m s v c tau r : 0 < c ->
  ts_new_rating (Fin m) (Fin s) (Fin v) (Fin c) (Fin tau) (Fin r) = Fin (ts_mu' tau c (r * v) (m, s)).
Proof. intros. unfold ts_new_rating, ts_mu'. cbv zeta. xr. cbn [fst snd]. f_equal. field. lra. Qed.
Lemma ts_new_uncertainty_eval m s c w tau : 0 < c ->
  ts_new_uncertainty (Fin s) (Fin c) (Fin w) (Fin tau) = std (ts_var' tau c w (m, s)).
Proof.
  intros. unfold ts_new_uncertainty, ts_var'. cbv zeta. cbn [fst snd]. rewrite !xr_powi2, !xr_fma, xr_div by pos.
  rewrite (xr_ofZ 1), xr_neg, xr_fma, xr_mul, xr_sqrt_std. f_equal. field. lra.
Qed.
Lemma ts_update_eval dp beta tau v w c r t : 0 < c ->
  ts_update_team (ts_cfg dp beta tau) (Fin v) (Fin w) (Fin c) (Fin r) (tst_in t) = map (ts_out tau c (r * v) w) t.
Proof.
  intros Hc. unfold ts_update_team, tst_in. rewrite map_map. apply map_ext. intros [m s]. unfold ts_out, ts_cfg, ts_in.
  cbn [ts_rating ts_uncertainty ts_dynamics_factor fst snd]. rewrite ts_new_rating_eval, (ts_new_uncertainty_eval m) by auto. reflexivity.
Qed.

Definition tsc (n beta v1 v2 : R) : R := sqrt (n * beta ^ 2 + v1 + v2).
Lemma ts_c_players_eval beta s1 s2 : ts_c_players (Fin beta) (Fin s1) (Fin s2) = Fin (tsc 2 beta (s1 ^ 2) (s2 ^ 2)).
Proof.
  unfold ts_c_players. rewrite (xr_ofZ 2). assert (0 <= beta * beta) by apply Rle_0_sqr.
  assert (0 <= s1 * s1) by apply Rle_0_sqr. assert (0 <= s2 * s2) by apply Rle_0_sqr. xr. unfold tsc. f_equal. f_equal. ring.
Qed.
Lemma tsc_pos n beta v1 v2 : 0 <= n -> 0 <= v1 -> 0 < v2 -> 0 < tsc n beta v1 v2.
Proof. intros. unfold tsc. apply sqrt_lt_R0. assert (0 <= beta ^ 2) by apply pow2_ge_0. nra. Qed.
Lemma tsc_pos' n beta v1 v2 : 0 < n -> 0 < beta -> 0 <= v1 -> 0 <= v2 -> 0 < tsc n beta v1 v2.
Proof. intros. unfold tsc. apply sqrt_lt_R0. assert (0 < beta ^ 2) by (apply pow_lt; auto). nra. Qed.
Lemma tsc_sym n beta v1 v2 : tsc n beta v1 v2 = tsc n beta v2 v1.
Proof. unfold tsc. f_equal. ring. Qed.

Lemma trueskill_eval m1 s1 m2 s2 o dp beta tau e :
  0 < s1 -> 0 < s2 -> ts_draw_margin (Fin dp) (Fin beta) (Fin 2) = Fin e ->
  let c := tsc 2 beta (s1 ^ 2) (s2 ^ 2) in let t := (m1 - m2) / c in
  trueskill (ts_in (m1, s1)) (ts_in (m2, s2)) o (ts_cfg dp beta tau) =
  (ts_out tau c (ts_v o t (e / c)) (ts_w o t (e / c)) (m1, s1), ts_out tau c (- ts_v o t (e / c)) (ts_w o t (e / c)) (m2, s2)).
Proof.
  intros H1 H2 He c t. unfold trueskill, ts_cfg, ts_in. cbn [ts_rating ts_uncertainty ts_dynamics_factor ts_beta ts_draw_probability fst snd].
  rewrite (xr_ofZ 2), He, ts_c_players_eval. fold c.
  assert (Hc : 0 < c) by (apply tsc_pos; [lra|apply pow2_ge_0|apply pow_lt; auto]).
  cbv zeta. rewrite ts_vw_eval by auto. fold t. unfold ts_rank_multipliers, ts_out.
  destruct o; rewrite ?(xr_ofZ 1), ?(xr_ofZ (-1)), !ts_new_rating_eval, !(ts_new_uncertainty_eval 0) by auto;
   (f_equal; f_equal; try reflexivity; f_equal; f_equal; ring).
Qed.

Lemma ts_team_rating_eval t : ts_team_rating (tst_in t) = Fin (side_mu t).
Proof. unfold ts_team_rating, tst_in, side_mu. rewrite map_map. apply xr_sum_map. reflexivity. Qed.
Lemma ts_team_usq_eval t : ts_team_uncertainty_sq (tst_in t) = Fin (side_var t).
Proof.
  unfold ts_team_uncertainty_sq, tst_in, side_var. rewrite map_map. apply xr_sum_map. intros. unfold ts_in. cbn [ts_uncertainty]. xr. f_equal. ring.
Qed.
Lemma ts_total_eval t1 t2 : ts_total_players (tst_in t1) (tst_in t2) = Fin (INR (length t1 + length t2)).
Proof. unfold ts_total_players, tst_in. rewrite !map_length. rewrite xr_ofZ. f_equal. symmetry. apply INR_IZR_INZ. Qed.
Lemma side_var_nonneg t : 0 <= side_var t.
Proof. apply Rsum_nonneg. intros x Hx. apply in_map_iff in Hx as (y & <- & _). apply pow2_ge_0. Qed.
Lemma side_var_pos t : wl_ok t -> 0 < side_var t.
Proof.
  intros [H1 H2]. apply Rsum_pos; [destruct t; [congruence|discriminate]|]. intros x Hx. apply in_map_iff in Hx as (y & <- & Hy).
  rewrite Forall_forall in H2. apply pow_lt; auto.
Qed.
Lemma ts_two_eval t1 t2 o dp beta tau e : wl_ok t1 -> wl_ok t2 ->
  let n := INR (length t1 + length t2) in
  ts_draw_margin (Fin dp) (Fin beta) (Fin n) = Fin e ->
  let c := tsc n beta (side_var t1) (side_var t2) in let t := (side_mu t1 - side_mu t2) / c in
  trueskill_two_teams (tst_in t1) (tst_in t2) o (ts_cfg dp beta tau) =
  (map (ts_out tau c (ts_v o t (e / c)) (ts_w o t (e / c))) t1, map (ts_out tau c (- ts_v o t (e / c)) (ts_w o t (e / c))) t2).
Proof.
  intros O1 O2 n He c t. unfold trueskill_two_teams.
  assert (E : is_empty (tst_in t1) || is_empty (tst_in t2) = false).
  { destruct O1 as [N1 _], O2 as [N2 _]. destruct t1; [congruence|]. destruct t2; [congruence|]. reflexivity. }
  rewrite E, ts_total_eval, !ts_team_rating_eval, !ts_team_usq_eval. change (ts_beta (ts_cfg dp beta tau)) with (Fin beta). change (ts_draw_probability (ts_cfg dp beta tau)) with (Fin dp). fold n. rewrite He.
  pose proof (side_var_nonneg t1). pose proof (side_var_pos t2 O2). pose proof (pos_INR (length t1 + length t2)). fold n in H1.
  assert (C : fsqrt (ffma (Fin n) (fpowi (Fin beta) 2) (Fin (side_var t1) + Fin (side_var t2)))%flt = Fin c).
  { assert (0 <= beta * beta) by apply Rle_0_sqr. xr. unfold c, tsc. f_equal. f_equal. ring. }
  rewrite C. assert (Hc : 0 < c) by (apply tsc_pos; auto). cbv zeta. rewrite ts_vw_eval by auto. fold t.
  unfold ts_rank_multipliers. destruct o; rewrite ?(xr_ofZ 1), ?(xr_ofZ (-1)), !ts_update_eval by auto;
   (f_equal; apply map_ext; intros p; f_equal; ring).
Qed.

(** ** The draw margin is always finite *)
Lemma inverse_erfc_step_eval y x : 0 < hden y x -> inverse_erfc_step (Fin y) (Fin x) = Fin (hstep y x).
Proof.
  intros H. unfold inverse_erfc_step. cbv zeta. rewrite erfc_eval. rewrite xr_frac2sqrtpi. autorewrite with xr.
  unfold hstep. unfold hden in H. rewrite xr_div by (apply Rgt_not_eq, H). rewrite xr_add. reflexivity.
Qed.
(** erfc^-1 as computed, for every argument. *)
Definition ierfc (y : R) : R :=
  if Rle_dec 2 y then -100 else if Rle_dec y 0 then 100 else if Rlt_dec y 1 then hinv y else - hinv (2 - y).
Lemma inverse_erfc_eval y : inverse_erfc (Fin y) = Fin (ierfc y).
Proof.
  unfold inverse_erfc, ierfc. rewrite !xr_ofZ, !xr_leb. unfold Rleb. destruct (Rle_dec 2 y); [reflexivity|].
  destruct (Rle_dec y 0); [reflexivity|]. cbv zeta. rewrite xr_ltb. unfold Rltb.
  assert (K : forall z, 0 < z <= 1 ->
    inverse_erfc_step (Fin z) (inverse_erfc_step (Fin z)
      (- ffrac1sqrt2 * (ffma (fsqrt (Fin (-2) * fln (Fin z / Fin 2))) (flit 27061 100000) (flit 230753 100000)
         / ffma (fsqrt (Fin (-2) * fln (Fin z / Fin 2)))
             (ffma (fsqrt (Fin (-2) * fln (Fin z / Fin 2))) (flit 4481 100000) (flit 99229 100000)) (Fin 1) - (fsqrt (Fin (-2) * fln (Fin z / Fin 2)))))%flt) = Fin (hinv z)).
  { intros z Hz. pose proof (hinv_dens z Hz) as (D0 & D1 & D2 & D3 & D4).
    rewrite (xr_div z 2) by lra. rewrite xr_ln by auto. rewrite xr_mul, xr_sqrt by auto. set (t := sqrt (-2 * ln (z / 2))) in *.
    rewrite !xr_lit, !xr_fma. rewrite xr_div by (apply Rgt_not_eq; lra). rewrite xr_sub, xr_frac1sqrt2, xr_neg, xr_mul.
    match goal with |- context [Fin (- / sqrt 2 * ?a)] => replace (- / sqrt 2 * a) with (hstart t) end.
    - rewrite !inverse_erfc_step_eval by auto. unfold hinv. fold t. reflexivity.
    - unfold hstart. reflexivity. }
  destruct (Rlt_dec y 1).
  - rewrite K by lra. reflexivity.
  - rewrite xr_sub, K by lra. reflexivity.
Qed.
(** Draw margin of one player with beta = 1. *)
Definition unit_margin (dp : R) : R := - sqrt 2 * ierfc (1 + dp).
Lemma draw_margin_eval dp beta n : 0 <= n -> ts_draw_margin (Fin dp) (Fin beta) (Fin n) = Fin (unit_margin dp * sqrt n * beta).
Proof.
  intros Hn. unfold ts_draw_margin, inverse_cdf. rewrite !xr_ofZ. xr. rewrite inverse_erfc_eval. xr. f_equal. unfold unit_margin.
  replace (2 * ((dp + 1) / 2)) with (1 + dp) by field. ring.
Qed.

(** ** C50: the update *)
Lemma vwin_pos t e : 0 < vwin t e.
Proof.
  unfold vwin. destruct (Rlt_dec _ _) as [H|H].
  - assert (t - e < 0); [|lra]. apply Rnot_le_lt. intros H0. pose proof (Phi_pos_ge _ H0). pose proof tiny_small. lra.
  - pose proof (phi_pos (t - e)). pose proof (Phi_range (t - e)). pos.
Qed.
Lemma phi_lt x y : Rabs x < Rabs y -> phi y < phi x.
Proof.
  intros H. unfold phi. pose proof PI_RGT_0. assert (0 < sqrt (2 * PI)) by pos. unfold Rdiv. apply Rmult_lt_compat_r; [pos|].
  apply exp_increasing. assert (x ^ 2 < y ^ 2); [|lra]. rewrite <- (pow2_abs x), <- (pow2_abs y). pose proof (Rabs_pos x). nra.
Qed.
Lemma drawnorm_even t e : drawnorm (- t) e = drawnorm t e.
Proof. unfold drawnorm. now rewrite Rabs_Ropp. Qed.
Lemma vdraw_odd t e : t <> 0 \/ tiny <= drawnorm t e -> vdraw (- t) e = - vdraw t e.
Proof.
  intros H. unfold vdraw. rewrite drawnorm_even. pose proof tiny_small. destruct (Rlt_dec (drawnorm t e) tiny).
  - destruct (Rlt_dec t 0), (Rlt_dec (- t) 0); lra.
  - replace (- e - - t) with (- (e - t)) by ring. replace (e - - t) with (- (- e - t)) by ring. rewrite !phi_even. field. lra.
Qed.
Lemma wdraw_even t e : wdraw (- t) e = wdraw t e.
Proof.
  unfold wdraw. rewrite drawnorm_even. destruct (Rlt_dec (drawnorm t e) tiny) as [H|H]; auto.
  rewrite vdraw_odd by (right; lra). replace (e - - t) with (e + t) by ring. replace (e + - t) with (e - t) by ring.
  pose proof tiny_small. field. lra.
Qed.
Lemma vdraw_sign t e : 0 < e -> tiny <= drawnorm t e -> (0 < t -> vdraw t e < 0) /\ (t < 0 -> 0 < vdraw t e) /\ (t = 0 -> vdraw t e = 0).
Proof.
  intros He Hn. pose proof tiny_small.
  assert (P : forall t, tiny <= drawnorm t e -> 0 < t -> vdraw t e < 0).
  { clear t Hn. intros t Hn Ht. unfold vdraw. destruct (Rlt_dec _ _); [lra|].
    assert (phi (- e - t) < phi (e - t)). { apply phi_lt. rewrite (Rabs_left (- e - t)) by lra. unfold Rabs. destruct (Rcase_abs (e - t)); lra. }
    assert (0 < / drawnorm t e) by pos. unfold Rdiv. nra. }
  split; [|split].
  - auto.
  - intros Ht. pose proof (P (- t) ltac:(now rewrite drawnorm_even) ltac:(lra)) as X. rewrite vdraw_odd in X by auto. lra.
  - intros ->. unfold vdraw. destruct (Rlt_dec _ _); [lra|]. replace (- e - 0) with (- (e - 0)) by ring. rewrite phi_even. unfold Rdiv. ring.
Qed.
Lemma C50_proof : forall m1 s1 m2 s2 o dp beta tau, 0 < s1 -> 0 < s2 ->
  let c := sqrt (2 * beta ^ 2 + s1 ^ 2 + s2 ^ 2) in let t := (m1 - m2) / c in
  exists e m1' m2',
    ts_draw_margin (Fin dp) (Fin beta) (Fin 2) = Fin e /\
    m1' = m1 + (s1 ^ 2 + tau ^ 2) / c * ts_v o t (e / c) /\
    m2' = m2 - (s2 ^ 2 + tau ^ 2) / c * ts_v o t (e / c) /\
    trueskill (ts_in (m1, s1)) (ts_in (m2, s2)) o (ts_cfg dp beta tau) =
      (mkTS (Fin m1') (std ((s1 ^ 2 + tau ^ 2) * (1 - ts_w o t (e / c) * (s1 ^ 2 + tau ^ 2) / c ^ 2))),
       mkTS (Fin m2') (std ((s2 ^ 2 + tau ^ 2) * (1 - ts_w o t (e / c) * (s2 ^ 2 + tau ^ 2) / c ^ 2)))) /\
    (o = WIN -> m1 < m1' /\ m2' < m2) /\ (o = LOSS -> m1' < m1 /\ m2 < m2') /\
    (o = DRAW -> 0 < e -> tiny <= drawnorm t (e / c) ->
       (m2 < m1 -> m1' < m1 /\ m2 < m2') /\ (m1 < m2 -> m1 < m1' /\ m2' < m2) /\ (m1 = m2 -> m1' = m1 /\ m2' = m2)) /\
    (m1' - m1) / (s1 ^ 2 + tau ^ 2) = - ((m2' - m2) / (s2 ^ 2 + tau ^ 2)).
Proof.
  intros m1 s1 m2 s2 o dp beta tau H1 H2 c t. pose proof (draw_margin_eval dp beta 2 ltac:(lra)) as He.
  set (e := unit_margin dp * sqrt 2 * beta) in *. exists e. do 2 eexists. split; [exact He|]. split; [reflexivity|]. split; [reflexivity|].
  pose proof (trueskill_eval m1 s1 m2 s2 o dp beta tau e H1 H2 He) as E. cbv zeta in E. unfold tsc in E. fold c in E. fold t in E.
  assert (Hc : 0 < c) by (apply (tsc_pos 2); [lra|apply pow2_ge_0|apply pow_lt; auto]).
  assert (V1 : 0 < s1 ^ 2 + tau ^ 2) by (pose proof (pow_lt s1 2 H1); pose proof (pow2_ge_0 tau); lra).
  assert (V2 : 0 < s2 ^ 2 + tau ^ 2) by (pose proof (pow_lt s2 2 H2); pose proof (pow2_ge_0 tau); lra).
  assert (K1 : 0 < (s1 ^ 2 + tau ^ 2) / c) by pos. assert (K2 : 0 < (s2 ^ 2 + tau ^ 2) / c) by pos.
  split; [|split; [|split; [|split]]].
  - rewrite E. unfold ts_out, ts_mu', ts_var'. cbn [fst snd]. f_equal. f_equal. f_equal. ring.
  - intros ->. cbn [ts_v]. pose proof (vwin_pos t (e / c)). nra.
  - intros ->. cbn [ts_v]. pose proof (vwin_pos (- t) (e / c)). nra.
  - intros -> Hpe Hn. cbn [ts_v]. destruct (vdraw_sign t (e / c)) as (A1 & A2 & A3); [pos|auto|].
    set (v := vdraw t (e / c)) in *. split; [|split]; intros Hm.
    + assert (0 < t) by (unfold t; apply Rdiv_lt_0_compat; lra). specialize (A1 H). nra.
    + assert (t < 0). { unfold t. apply Ropp_lt_cancel. rewrite Ropp_0. replace (- ((m1 - m2) / c)) with ((m2 - m1) / c) by (field; lra). apply Rdiv_lt_0_compat; lra. }
      specialize (A2 H). nra.
    + rewrite A3 by (unfold t; subst m2; field; lra). lra.
  - field. lra.
Qed.

(** ** C51: two teams *)
Lemma C51_single_proof : forall m1 s1 m2 s2 o dp beta tau, 0 < s1 -> 0 < s2 ->
  let p := ts_in (m1, s1) in let q := ts_in (m2, s2) in let cfg := ts_cfg dp beta tau in
  trueskill_two_teams [p] [q] o cfg = ([fst (trueskill p q o cfg)], [snd (trueskill p q o cfg)]).
Proof.
  intros m1 s1 m2 s2 o dp beta tau H1 H2 p q cfg. unfold p, q, cfg.
  change [ts_in (m1, s1)] with (tst_in [(m1, s1)]). change [ts_in (m2, s2)] with (tst_in [(m2, s2)]).
  assert (O : forall m s, 0 < s -> wl_ok [(m, s)]) by (intros; split; [discriminate|]; constructor; auto).
  rewrite (ts_two_eval _ _ _ _ _ _ (unit_margin dp * sqrt 2 * beta)) by (auto; cbn [length Nat.add]; change (INR 2) with 2; apply draw_margin_eval; lra).
  rewrite (trueskill_eval _ _ _ _ _ _ _ _ (unit_margin dp * sqrt 2 * beta)) by (auto; apply draw_margin_eval; lra).
  cbn [length Nat.add map fst snd]. change (INR 2) with 2. unfold side_mu, side_var. cbn [map fst snd]. rewrite !Rsum_cons, !Rsum_nil, !Rplus_0_r. reflexivity.
Qed.
Lemma C51_formula_proof : forall t1 t2 o dp beta tau, wl_ok t1 -> wl_ok t2 ->
  let n := INR (length t1 + length t2) in
  let c := sqrt (n * beta ^ 2 + side_var t1 + side_var t2) in let t := (side_mu t1 - side_mu t2) / c in
  exists e, ts_draw_margin (Fin dp) (Fin beta) (Fin n) = Fin e /\
    trueskill_two_teams (tst_in t1) (tst_in t2) o (ts_cfg dp beta tau) =
    (map (ts_out tau c (ts_v o t (e / c)) (ts_w o t (e / c))) t1, map (ts_out tau c (- ts_v o t (e / c)) (ts_w o t (e / c))) t2).
Proof.
  intros t1 t2 o dp beta tau O1 O2 n c t. pose proof (draw_margin_eval dp beta n (pos_INR _)) as He. eexists. split; [exact He|].
  apply ts_two_eval; auto.
Qed.
Lemma C51_swap_proof : forall t1 t2 o dp beta tau e, wl_ok t1 -> wl_ok t2 ->
  let n := INR (length t1 + length t2) in
  let c := sqrt (n * beta ^ 2 + side_var t1 + side_var t2) in
  ts_draw_margin (Fin dp) (Fin beta) (Fin n) = Fin e ->
  o <> DRAW \/ side_mu t1 <> side_mu t2 \/ tiny <= drawnorm 0 (e / c) ->
  let '(t1', t2') := trueskill_two_teams (tst_in t1) (tst_in t2) o (ts_cfg dp beta tau) in
  trueskill_two_teams (tst_in t2) (tst_in t1) (invert o) (ts_cfg dp beta tau) = (t2', t1').
Proof.
  intros t1 t2 o dp beta tau e O1 O2 n c He Ho. rewrite (ts_two_eval t1 t2 o dp beta tau e) by auto. fold n.
  rewrite (ts_two_eval t2 t1 (invert o) dp beta tau e) by (auto; rewrite Nat.add_comm; exact He).
  rewrite (Nat.add_comm (length t2)). fold n. rewrite (tsc_sym n beta (side_var t2)). fold (tsc n beta (side_var t1) (side_var t2)) in c. fold c.
  assert (Hc : 0 < c) by (apply tsc_pos; [apply pos_INR|apply side_var_nonneg|apply side_var_pos; auto]).
  set (t := (side_mu t1 - side_mu t2) / c). replace ((side_mu t2 - side_mu t1) / c) with (- t) by (unfold t; field; lra).
  assert (W : ts_w (invert o) (- t) (e / c) = ts_w o t (e / c)).
  { destruct o; cbn [ts_w invert]; [now rewrite Ropp_involutive|reflexivity|apply wdraw_even]. }
  assert (V : ts_v (invert o) (- t) (e / c) = - ts_v o t (e / c)).
  { destruct o; cbn [ts_v invert]; [now rewrite Ropp_involutive|lra|]. apply vdraw_odd.
    destruct (Req_dec t 0) as [E|E]; [right|left; auto]. destruct Ho as [Ho|[Ho|Ho]]; [congruence| |now rewrite E].
    exfalso. apply Ho. unfold t in E. apply Rmult_integral in E as [E|E]; [lra|]. pose proof (Rinv_0_lt_compat c Hc). lra. }
  rewrite W, V, Ropp_involutive. reflexivity.
Qed.
Lemma C51_shape_proof : forall (F : Type) (A : Arith F) (t1 t2 : list (TrueSkillRating F)) o c,
  length (fst (trueskill_two_teams t1 t2 o c)) = length t1 /\ length (snd (trueskill_two_teams t1 t2 o c)) = length t2 /\
  (t1 = [] \/ t2 = [] -> trueskill_two_teams t1 t2 o c = (t1, t2)).
Proof.
  intros F A t1 t2 o c. split; [|split].
  - unfold trueskill_two_teams. destruct (is_empty t1 || is_empty t2); auto. cbv zeta. destruct (ts_vw _ _ _ _). destruct (ts_rank_multipliers o).
    apply map_length.
  - unfold trueskill_two_teams. destruct (is_empty t1 || is_empty t2); auto. cbv zeta. destruct (ts_vw _ _ _ _). destruct (ts_rank_multipliers o).
    apply map_length.
  - intros [-> | ->]; unfold trueskill_two_teams; [reflexivity|]. destruct t1; reflexivity.
Qed.

(** ** C57: rating period *)
Lemma C57_proof : forall (F : Type) (A : Arith F) (p : TrueSkillRating F) rs rs' c,
  trueskill_rating_period p rs c = fold_left (fun q x => fst (trueskill q (fst x) (snd x) c)) rs p /\
  trueskill_rating_period p [] c = p /\
  trueskill_rating_period p (rs ++ rs') c = trueskill_rating_period (trueskill_rating_period p rs c) rs' c.
Proof.
  intros F A p rs rs' c.
  assert (K : forall rs p, trueskill_rating_period p rs c = fold_left (fun q x => fst (trueskill q (fst x) (snd x) c)) rs p).
  { unfold trueskill_rating_period. induction rs0 as [|[q o] rs0 IH]; intros q0; cbn [fold_left].
    - destruct q0; reflexivity.
    - rewrite <- IH. unfold trueskill, ts_period_step at 2. cbn [fst snd]. destruct (ts_vw _ _ _ _). destruct (ts_rank_multipliers o). reflexivity. }
  split; [apply K|]. split; [destruct p; reflexivity|]. rewrite !K, fold_left_app. reflexivity.
Qed.

(** ** C49: weights *)
Section Weights.
  Context {F : Type} {A : Arith F}.
  Definition neg_weight (w : F) : Prop := fltb w (#0)%flt = true.
  Lemma first_negative_none j ws : first_negative j ws = None <-> Forall (fun w => ~ neg_weight w) ws.
  Proof.
    revert j. induction ws as [|w ws IH]; intros j; cbn [first_negative].
    - split; [constructor|auto].
    - unfold neg_weight in *. destruct (fltb w _) eqn:E.
      + split; [discriminate|]. intros H. inversion H; subst. congruence.
      + rewrite IH. split; [intros; constructor; congruence|]. intros H. inversion H; auto.
  Qed.
  Lemma first_negative_some j ws i : first_negative j ws = Some i <->
    exists a w b, ws = a ++ w :: b /\ i = (j + length a)%nat /\ neg_weight w /\ Forall (fun w => ~ neg_weight w) a.
  Proof.
    revert j. induction ws as [|w ws IH]; intros j; cbn [first_negative].
    - split; [discriminate|]. intros (a & w & b & E & _). destruct a; discriminate.
    - unfold neg_weight in *. destruct (fltb w _) eqn:E.
      + split.
        * intros H. assert (j = i) by congruence. subst. exists [], w, ws. repeat split; auto; cbn; lia.
        * intros (a & w' & b & E1 & E2 & E3 & E4). destruct a as [|x a].
          -- cbn in E2. f_equal. lia.
          -- injection E1 as -> ->. inversion E4; subst. congruence.
      + rewrite IH. split.
        * intros (a & w' & b & -> & -> & E3 & E4). exists (w :: a), w', b. repeat split; auto; [cbn; lia|]. constructor; congruence.
        * intros (a & w' & b & E1 & -> & E3 & E4). destruct a as [|x a].
          -- injection E1 as -> ->. congruence.
          -- injection E1 as -> ->. inversion E4; subst. exists a, w', b. repeat split; auto. cbn; lia.
  Qed.
  Lemma weights_ok_length (teams : list (list (TrueSkillRating F))) ws : weights_ok neg_weight teams ws -> length ws = length teams.
  Proof. unfold weights_ok. induction 1; cbn; congruence. Qed.
  Lemma check_none i (teams : list (list (TrueSkillRating F))) ws : length ws = length teams ->
    (check_weights i teams ws = None <-> weights_ok neg_weight teams ws).
  Proof.
    revert i teams. induction ws as [|w ws IH]; intros i [|t teams] HL; try discriminate; cbn [check_weights].
    - split; [constructor|auto].
    - destruct (Nat.eqb_spec (length w) (length t)) as [E|E]; cbn [negb].
      + destruct (first_negative 0 w) eqn:N.
        * split; [discriminate|]. intros H. inversion H as [|? ? ? ? [_ H2] _]; subst. apply (first_negative_none 0) in H2. congruence.
        * apply first_negative_none in N. rewrite IH by (cbn in HL; lia). split; [intros; constructor; auto|]. intros H. inversion H; auto.
      + split; [discriminate|]. intros H. inversion H as [|? ? ? ? [H2 _] _]; subst. congruence.
  Qed.
  Lemma check_some i (teams : list (list (TrueSkillRating F))) ws e : length ws = length teams ->
    (check_weights i teams ws = Some e <->
     exists tw ts1 ts2 wa wb w t, teams = ts1 ++ t :: ts2 /\ ws = wa ++ w :: wb /\ tw = length ts1 /\ weights_ok neg_weight ts1 wa /\
       ((length w <> length t /\ e = PlayerAmount (i + tw)) \/
        (length w = length t /\ exists a x b, w = a ++ x :: b /\ neg_weight x /\ Forall (fun y => ~ neg_weight y) a /\ e = WeightErr (i + tw) (length a)))).
  Proof.
    revert i teams. induction ws as [|w ws IH]; intros i [|t teams] HL; try discriminate; cbn [check_weights].
    - split; [discriminate|]. intros (tw & ts1 & ts2 & wa & wb & w & t & E & _). destruct ts1; discriminate.
    - assert (HL' : length ws = length teams) by (cbn in HL; lia). destruct (Nat.eqb_spec (length w) (length t)) as [E|E]; cbn [negb].
      + destruct (first_negative 0 w) as [j|] eqn:N.
        * split.
          -- intros H. assert (e = WeightErr i j) by congruence. subst e. apply first_negative_some in N as (a & x & b & -> & -> & N3 & N4).
             exists 0%nat, [], teams, [], ws, (a ++ x :: b), t. repeat split; auto; [constructor|]. right. split; auto.
             exists a, x, b. repeat split; auto. f_equal. lia.
          -- intros (tw & ts1 & ts2 & wa & wb & w' & t' & E1 & E2 & -> & OK & C). destruct ts1 as [|t0 ts1].
             ++ inversion OK; subst wa. injection E1 as -> ->. injection E2 as -> ->. destruct C as [[C _]|[_ (a & x & b & -> & C1 & C2 & ->)]]; [congruence|].
                f_equal. f_equal; [cbn; lia|]. assert (Some j = Some (length a)); [|congruence]. rewrite <- N. apply first_negative_some. exists a, x, b. auto.
             ++ inversion OK as [|? ? ? ? [_ O2] _]; subst. injection E1 as -> ->. injection E2 as -> ->. apply (first_negative_none 0) in O2. congruence.
        * apply first_negative_none in N. rewrite IH by auto. split.
          -- intros (tw & ts1 & ts2 & wa & wb & w' & t' & -> & -> & -> & OK & C). exists (S (length ts1)), (t :: ts1), ts2, (w :: wa), wb, w', t'.
             repeat split; auto; [constructor; auto|]. replace (i + S (length ts1))%nat with (S i + length ts1)%nat by lia. exact C.
          -- intros (tw & ts1 & ts2 & wa & wb & w' & t' & E1 & E2 & -> & OK & C). destruct ts1 as [|t0 ts1].
             ++ inversion OK; subst wa. injection E1 as -> ->. injection E2 as -> ->. exfalso. destruct C as [[C _]|[_ (a & x & b & -> & C1 & C2 & ->)]]; [congruence|].
                rewrite Forall_forall in N. apply (N x); [apply in_elt|auto].
             ++ inversion OK as [|? w0 ? wa' O1 O2]; subst. injection E1 as -> ->. injection E2 as -> ->.
                exists (length ts1), ts1, ts2, wa', wb, w', t'. repeat split; auto. cbn [length] in C.
                replace (i + S (length ts1))%nat with (S i + length ts1)%nat in C by lia. exact C.
      + split.
        * intros H. assert (e = PlayerAmount i) by congruence. subst e. exists 0%nat, [], teams, [], ws, w, t. repeat split; auto; [constructor|]. left. split; auto. f_equal. lia.
        * intros (tw & ts1 & ts2 & wa & wb & w' & t' & E1 & E2 & -> & OK & C). destruct ts1 as [|t0 ts1].
          -- inversion OK; subst wa. injection E1 as -> ->. injection E2 as -> ->. destruct C as [[_ ->]|[C _]]; [|congruence]. f_equal. f_equal. cbn. lia.
          -- inversion OK as [|? ? ? ? [O2 _] _]; subst. injection E1 as -> ->. injection E2 as -> ->. congruence.
  Qed.
End Weights.
Section Weights2.
  Context {F : Type} {A : Arith F}.
  Lemma weights_ok_app_len (ts1 : list (list (TrueSkillRating F))) wa : weights_ok neg_weight ts1 wa -> length ts1 = length wa.
  Proof. intros H. symmetry. now apply weights_ok_length in H. Qed.
  Lemma get_weights_err (teams : list (list (TrueSkillRating F))) ws e :
    get_weights teams (Some ws) = Err e <-> weight_error neg_weight teams ws e.
  Proof.
    unfold get_weights. destruct (Nat.eqb_spec (length ws) (length teams)) as [E|E]; cbn [negb].
    - destruct (check_weights 0 teams ws) as [e'|] eqn:C.
      + split.
        * intros H. assert (e' = e) by congruence. subst e'. apply check_some in C as (tw & ts1 & ts2 & wa & wb & w & t & E1 & E2 & E3 & OK & D); auto.
          pose proof (weights_ok_app_len _ _ OK) as L. assert (L2 : length ts2 = length wb) by (subst; rewrite !app_length in E; cbn in E; lia).
          destruct D as [[D ->]|[D (a & x & b & D1 & D2 & D3 & ->)]]; cbn [weight_error Nat.add].
          -- exists ts1, t, ts2, wa, w, wb. auto 10.
          -- exists ts1, t, ts2, wa, w, wb, a, x, b. auto 20.
        * intros H. f_equal. enough (Some e' = Some e) by congruence. rewrite <- C. apply check_some; auto. destruct e as [|i|i j]; cbn [weight_error] in H.
          -- congruence.
          -- destruct H as (ts1 & t & ts2 & wa & w & wb & E1 & E2 & E3 & E4 & OK & D). exists (length ts1), ts1, ts2, wa, wb, w, t.
             refine (conj E1 (conj E2 (conj eq_refl (conj OK _)))). left. split; [auto|cbn; congruence].
          -- destruct H as (ts1 & t & ts2 & wa & w & wb & a & x & b & E1 & E2 & E3 & E4 & OK & D & D1 & D2 & D3 & D4). exists (length ts1), ts1, ts2, wa, wb, w, t.
             refine (conj E1 (conj E2 (conj eq_refl (conj OK _)))). right. split; auto. exists a, x, b. refine (conj D1 (conj D3 (conj D4 _))). cbn. congruence.
      + split; [discriminate|]. intros H. exfalso. destruct e as [|i|i j]; cbn [weight_error] in H; [congruence| |].
        * destruct H as (ts1 & t & ts2 & wa & w & wb & E1 & E2 & E3 & E4 & OK & D). enough (check_weights 0 teams ws = Some (PlayerAmount i)) by congruence.
          apply check_some; auto. exists (length ts1), ts1, ts2, wa, wb, w, t. refine (conj E1 (conj E2 (conj eq_refl (conj OK _)))). left. split; [auto|cbn; congruence].
        * destruct H as (ts1 & t & ts2 & wa & w & wb & a & x & b & E1 & E2 & E3 & E4 & OK & D & D1 & D2 & D3 & D4).
          enough (check_weights 0 teams ws = Some (WeightErr i j)) by congruence. apply check_some; auto.
          exists (length ts1), ts1, ts2, wa, wb, w, t. refine (conj E1 (conj E2 (conj eq_refl (conj OK _)))). right. split; auto. exists a, x, b. refine (conj D1 (conj D3 (conj D4 _))). cbn. congruence.
    - split.
      + intros H. assert (e = TeamAmount) by congruence. subst e. exact E.
      + intros H. destruct e as [|i|i j]; [reflexivity| |]; exfalso; apply E; cbn [weight_error] in H.
        * destruct H as (ts1 & t & ts2 & wa & w & wb & -> & -> & E3 & E4 & OK & D). apply weights_ok_app_len in OK. rewrite !app_length. cbn. lia.
        * destruct H as (ts1 & t & ts2 & wa & w & wb & a & x & b & -> & -> & E3 & E4 & OK & D). apply weights_ok_app_len in OK. rewrite !app_length. cbn. lia.
  Qed.
  Lemma get_weights_ok (teams : list (list (TrueSkillRating F))) ws :
    weights_ok neg_weight teams ws -> get_weights teams (Some ws) = Ok ws.
  Proof.
    intros H. unfold get_weights. pose proof (weights_ok_length _ _ H) as L. rewrite L, Nat.eqb_refl. cbn [negb].
    apply (proj2 (check_none 0 teams ws L)) in H. now rewrite H.
  Qed.
  Lemma get_weights_cases (teams : list (list (TrueSkillRating F))) ws :
    (get_weights teams (Some ws) = Ok ws /\ weights_ok neg_weight teams ws) \/ exists e, get_weights teams (Some ws) = Err e.
  Proof.
    unfold get_weights. destruct (Nat.eqb_spec (length ws) (length teams)) as [E|E]; cbn [negb]; [|right; eauto].
    destruct (check_weights 0 teams ws) eqn:C; [right; eauto|]. left. split; auto. eapply check_none; eauto.
  Qed.
  Lemma nonempty_existsb (trs : list (list (TrueSkillRating F) * MultiTeamOutcome)) : Forall (fun x => fst x <> []) trs ->
    existsb (fun t => is_empty (fst t)) trs = false.
  Proof. induction 1 as [|[t r] l H _ IH]; auto. cbn [existsb fst]. rewrite IH. destruct t; [cbn in H; congruence|reflexivity]. Qed.
  Lemma nonempty_existsb' (ts : list (list (TrueSkillRating F))) : Forall (fun x => x <> []) ts -> existsb is_empty ts = false.
  Proof. induction 1 as [|t l H _ IH]; auto. cbn [existsb]. rewrite IH. destruct t; [congruence|reflexivity]. Qed.
End Weights2.
Lemma C49_rate_proof : forall (F : Type) (A : Arith F) (trs : list (list (TrueSkillRating F) * MultiTeamOutcome)) cfg ws,
  trs <> [] -> Forall (fun x => fst x <> []) trs ->
  let neg w := fltb w (#0)%flt = true in
  (forall e, trueskill_multi_team trs cfg (Some ws) = Err e <-> weight_error neg (map fst trs) ws e) /\
  ((exists e, trueskill_multi_team trs cfg (Some ws) = Err e) <-> ~ weights_ok neg (map fst trs) ws) /\
  (forall e, trueskill_multi_team trs cfg None <> Err e).
Proof.
  intros F A trs cfg ws H1 H2 neg.
  assert (E : is_empty trs = false) by (destruct trs; [congruence|reflexivity]). pose proof (nonempty_existsb trs H2) as E2.
  assert (K : forall e, trueskill_multi_team trs cfg (Some ws) = Err e <-> get_weights (map fst trs) (Some ws) = Err e).
  { intros e. unfold trueskill_multi_team. rewrite E, E2. destruct (get_weights (map fst trs) (Some ws)); [|split; intros; congruence|split; discriminate].
    cbv zeta. destruct (run_schedule _ _ _ _ _ _ _ _ _) as [[? ?]|]; split; discriminate. }
  split; [|split].
  - intros e. rewrite K. apply get_weights_err.
  - split.
    + intros [e He] OK. apply K in He. rewrite get_weights_ok in He by exact OK. discriminate.
    + intros N. destruct (get_weights_cases (map fst trs) ws) as [[_ C]|[e C]]; [contradiction|]. exists e. now apply K.
  - intros e. unfold trueskill_multi_team. rewrite E, E2. cbn [get_weights]. cbv zeta. destruct (run_schedule _ _ _ _ _ _ _ _ _) as [[? ?]|]; discriminate.
Qed.
Lemma C49_quality_proof : forall (F : Type) (A : Arith F) (ts : list (list (TrueSkillRating F))) cfg ws,
  ts <> [] -> Forall (fun x => x <> []) ts ->
  let neg w := fltb w (#0)%flt = true in
  (forall e, match_quality_multi_team ts cfg (Some ws) = Err e <-> weight_error neg ts ws e) /\
  ((exists e, match_quality_multi_team ts cfg (Some ws) = Err e) <-> ~ weights_ok neg ts ws) /\
  (forall e, match_quality_multi_team ts cfg None <> Err e).
Proof.
  intros F A ts cfg ws H1 H2 neg.
  assert (E : is_empty ts = false) by (destruct ts; [congruence|reflexivity]). pose proof (nonempty_existsb' ts H2) as E2.
  assert (K : forall e, match_quality_multi_team ts cfg (Some ws) = Err e <-> get_weights ts (Some ws) = Err e).
  { intros e. unfold match_quality_multi_team, create_rotated_a_matrix. rewrite E, E2. cbv zeta. destruct (get_weights ts (Some ws)); [|split; intros; congruence|split; discriminate].
    destruct (quality_of_matrices _ _ _ _); split; discriminate. }
  split; [|split].
  - intros e. rewrite K. apply get_weights_err.
  - split.
    + intros [e He] OK. apply K in He. rewrite get_weights_ok in He by exact OK. discriminate.
    + intros N. destruct (get_weights_cases ts ws) as [[_ C]|[e C]]; [contradiction|]. exists e. now apply K.
  - intros e. unfold match_quality_multi_team, create_rotated_a_matrix. rewrite E, E2. cbn [get_weights]. cbv zeta. destruct (quality_of_matrices _ _ _ _); discriminate.
Qed.
Lemma ones_ok (ts : list (list (TrueSkillRating XR))) : weights_ok neg_weight ts (map (fun t => repeat (Fin 1) (length t)) ts).
Proof.
  induction ts as [|t ts IH]; constructor; auto. split; [apply repeat_length|]. apply Forall_forall. intros x Hx. apply repeat_spec in Hx. subst x.
  unfold neg_weight. rewrite xr_ofZ, xr_ltb. unfold Rltb. destruct (Rlt_dec 1 0); [lra|discriminate].
Qed.
Lemma C49_default_proof : forall trs cfg,
  trueskill_multi_team (F:=XR) trs cfg None = trueskill_multi_team trs cfg (Some (map (fun x => repeat (Fin 1) (length (fst x))) trs)) /\
  match_quality_multi_team (F:=XR) (map fst trs) cfg None = match_quality_multi_team (map fst trs) cfg (Some (map (fun x => repeat (Fin 1) (length (fst x))) trs)).
Proof.
  intros trs cfg.
  assert (K : get_weights (F:=XR) (map fst trs) None = get_weights (map fst trs) (Some (map (fun x => repeat (Fin 1) (length (fst x))) trs))).
  { replace (map (fun x => repeat (Fin 1) (length (fst x))) trs) with (map (fun t : list (TrueSkillRating XR) => repeat (Fin 1) (length t)) (map fst trs)) by apply map_map.
    rewrite get_weights_ok by apply ones_ok. cbn [get_weights]. f_equal. }
  split.
  - unfold trueskill_multi_team. now rewrite K.
  - unfold match_quality_multi_team, create_rotated_a_matrix. now rewrite K.
Qed.

(** ** C54: expected scores *)
Lemma ts_denom_eval beta s1 s2 : ts_denom (Fin beta) (Fin s1) (Fin s2) = Fin (tsc 2 beta (s1 ^ 2) (s2 ^ 2)).
Proof.
  unfold ts_denom. rewrite (xr_ofZ 2). assert (0 <= beta * beta) by apply Rle_0_sqr.
  assert (0 <= s1 * s1) by apply Rle_0_sqr. assert (0 <= s2 * s2) by apply Rle_0_sqr. xr. unfold tsc. f_equal. f_equal. ring.
Qed.
Lemma ts_expected_eval m1 s1 m2 s2 dp beta tau : 0 < beta ->
  ts_expected_score (ts_in (m1, s1)) (ts_in (m2, s2)) (ts_cfg dp beta tau) =
  (Fin (Phi ((m1 - m2) / tsc 2 beta (s1 ^ 2) (s2 ^ 2))), Fin (1 - Phi ((m1 - m2) / tsc 2 beta (s1 ^ 2) (s2 ^ 2)))).
Proof.
  intros Hb. unfold ts_expected_score, ts_in, ts_cfg. cbn [ts_rating ts_uncertainty ts_beta fst snd]. cbv zeta. rewrite ts_denom_eval.
  pose proof (tsc_pos' 2 beta (s1 ^ 2) (s2 ^ 2) ltac:(lra) Hb (pow2_ge_0 _) (pow2_ge_0 _)).
  rewrite xr_sub, xr_div by lra. rewrite cdf_eval, (xr_ofZ 1), xr_sub. reflexivity.
Qed.
Lemma ts_expected_two_eval t1 t2 dp beta tau : 0 < beta -> t1 ++ t2 <> [] ->
  let c := tsc (INR (length t1 + length t2)) beta (side_var t1) (side_var t2) in
  ts_expected_score_two_teams (tst_in t1) (tst_in t2) (ts_cfg dp beta tau) =
  (Fin (Phi ((side_mu t1 - side_mu t2) / c)), Fin (1 - Phi ((side_mu t1 - side_mu t2) / c))).
Proof.
  intros Hb Hn c. unfold ts_expected_score_two_teams. rewrite ts_total_eval, !ts_team_rating_eval, !ts_team_usq_eval. cbn [ts_cfg ts_beta]. cbv zeta.
  pose proof (side_var_nonneg t1). pose proof (side_var_nonneg t2).
  assert (0 < INR (length t1 + length t2)) by (apply lt_0_INR; destruct t1, t2; cbn in *; try congruence; lia).
  pose proof (tsc_pos' _ beta _ _ H1 Hb H H0) as Hc. fold c in Hc.
  assert (C : fsqrt (Fin (side_var t2) + ffma (Fin (INR (length t1 + length t2))) (fpowi (Fin beta) 2) (Fin (side_var t1)))%flt = Fin c).
  { assert (0 <= beta * beta) by apply Rle_0_sqr. xr. unfold c, tsc. f_equal. f_equal. ring. }
  rewrite C, xr_sub, xr_div by lra. rewrite cdf_eval, (xr_ofZ 1), xr_sub. reflexivity.
Qed.
Lemma C54_players_proof : forall m1 s1 m2 s2 dp beta tau, 0 < beta ->
  let c := sqrt (2 * beta ^ 2 + s1 ^ 2 + s2 ^ 2) in
  exists e, 0 < e < 1 /\ e = Phi ((m1 - m2) / c) /\
    ts_expected_score (ts_in (m1, s1)) (ts_in (m2, s2)) (ts_cfg dp beta tau) = (Fin e, Fin (1 - e)) /\
    (m1 <> m2 -> ts_expected_score (ts_in (m2, s2)) (ts_in (m1, s1)) (ts_cfg dp beta tau) = (Fin (1 - e), Fin e)) /\
    (m2 < m1 -> 0.4999999 < e) /\ (m1 < m2 -> e < 0.5000001).
Proof.
  intros m1 s1 m2 s2 dp beta tau Hb c. exists (Phi ((m1 - m2) / c)). pose proof (Phi_range ((m1 - m2) / c)) as HR.
  pose proof (tsc_pos' 2 beta (s1 ^ 2) (s2 ^ 2) ltac:(lra) Hb (pow2_ge_0 _) (pow2_ge_0 _)) as Hc. unfold tsc in Hc. fold c in Hc.
  assert (N : forall a b, a < b -> (a - b) / c < 0).
  { intros a b Hm. apply Ropp_lt_cancel. rewrite Ropp_0. replace (- ((a - b) / c)) with ((b - a) / c) by (field; lra). apply Rdiv_lt_0_compat; lra. }
  split; [auto|]. split; [reflexivity|]. split; [rewrite ts_expected_eval by auto; reflexivity|]. split; [|split].
  - intros Hm. rewrite ts_expected_eval by auto. rewrite tsc_sym. unfold tsc. fold c.
    replace ((m2 - m1) / c) with (- ((m1 - m2) / c)) by (field; lra).
    assert (X : (m1 - m2) / c <> 0) by (intros E; apply Rmult_integral in E as [E|E]; [lra|pose proof (Rinv_0_lt_compat c Hc); lra]).
    pose proof (Phi_compl _ X). f_equal; f_equal; lra.
  - intros Hm. apply Phi_pos_ge. apply Rlt_le, Rdiv_lt_0_compat; lra.
  - intros Hm. specialize (N _ _ Hm). pose proof (Phi_almost_mono ((m1 - m2) / c) 0 ltac:(lra)).
    pose proof (Phi_lt_neg _ 0 N ltac:(lra)). pose proof Phi_0. lra.
Qed.
Lemma C54_teams_proof : forall t1 t2 dp beta tau, 0 < beta -> t1 ++ t2 <> [] ->
  exists e, 0 < e < 1 /\ e = Phi ((side_mu t1 - side_mu t2) / sqrt (INR (length t1 + length t2) * beta ^ 2 + side_var t1 + side_var t2)) /\
    ts_expected_score_two_teams (tst_in t1) (tst_in t2) (ts_cfg dp beta tau) = (Fin e, Fin (1 - e)).
Proof.
  intros t1 t2 dp beta tau Hb Hn. eexists. split; [|split; [reflexivity|]]. apply Phi_range. rewrite ts_expected_two_eval by auto. reflexivity.
Qed.
Lemma C54_period_proof : forall m s os dp beta tau, 0 < beta ->
  exists es, ts_expected_score_rating_period (ts_in (m, s)) (tst_in os) (ts_cfg dp beta tau) = map Fin es /\
    length es = length os /\ Forall (fun e => 0 < e < 1) es /\
    Forall2 (fun e o => fst (ts_expected_score (ts_in (m, s)) (ts_in o) (ts_cfg dp beta tau)) = Fin e) es os.
Proof.
  intros m s os dp beta tau Hb. exists (map (fun o => Phi ((m - fst o) / tsc 2 beta (s ^ 2) (snd o ^ 2))) os).
  split; [|split; [|split]].
  - unfold ts_expected_score_rating_period, tst_in. rewrite !map_map. apply map_ext. intros [m2 s2].
    pose proof (ts_expected_eval m s m2 s2 dp beta tau Hb) as E. unfold ts_expected_score in E. cbv zeta in E. cbn [fst snd]. cbv zeta.
    injection E as E _. exact E.
  - apply map_length.
  - apply Forall_forall. intros x Hx. apply in_map_iff in Hx as (y & <- & _). apply Phi_range.
  - induction os as [|[m2 s2] os IH]; constructor; auto. rewrite ts_expected_eval by auto. reflexivity.
Qed.

(** Monotonicity: true on either side of equality, false across it. *)
Lemma C54_mono_proof : forall m m' s1 m2 s2 dp beta tau, 0 < beta -> m < m' ->
  exists e e',
    fst (ts_expected_score (ts_in (m, s1)) (ts_in (m2, s2)) (ts_cfg dp beta tau)) = Fin e /\
    fst (ts_expected_score (ts_in (m', s1)) (ts_in (m2, s2)) (ts_cfg dp beta tau)) = Fin e' /\
    e <= e' + 0.0000002 /\ (m' <= m2 \/ m2 < m -> e < e').
Proof.
  intros m m' s1 m2 s2 dp beta tau Hb Hm.
  pose proof (tsc_pos' 2 beta (s1 ^ 2) (s2 ^ 2) ltac:(lra) Hb (pow2_ge_0 _) (pow2_ge_0 _)) as Hc. set (c := tsc 2 beta (s1 ^ 2) (s2 ^ 2)) in *.
  do 2 eexists. rewrite !ts_expected_eval by auto. fold c. split; [reflexivity|]. split; [reflexivity|].
  assert (L : (m - m2) / c < (m' - m2) / c) by (apply Rmult_lt_compat_r; [apply Rinv_0_lt_compat; auto|lra]).
  pose proof (Rinv_0_lt_compat c Hc) as Hi. split; [apply Phi_almost_mono; lra|]. intros [D|D].
  - apply Phi_lt_neg; auto. unfold Rdiv. nra.
  - apply Phi_lt_pos; auto. apply Rdiv_lt_0_compat; lra.
Qed.
Lemma C54_refuted_proof : exists m m' s1 m2 s2 dp beta tau e e',
  0 < beta /\ 0 < s1 /\ 0 < s2 /\ m < m' /\
  fst (ts_expected_score (ts_in (m, s1)) (ts_in (m2, s2)) (ts_cfg dp beta tau)) = Fin e /\
  fst (ts_expected_score (ts_in (m', s1)) (ts_in (m2, s2)) (ts_cfg dp beta tau)) = Fin e' /\ e' < e.
Proof.
  pose (b := 1). pose (c := tsc 2 b (1 ^ 2) (1 ^ 2)). assert (Hc : 0 < c) by (apply tsc_pos'; unfold b; lra).
  pose proof sqrt2_pos as Hs. destruct nr_pos_near0 as (z & Hz & Nz).
  exists 0, (z * sqrt 2 * c), 1, 0, 1, 0, b, 0. do 2 eexists.
  split; [unfold b; lra|]. split; [lra|]. split; [lra|]. split; [repeat apply Rmult_lt_0_compat; auto|].
  rewrite !ts_expected_eval by (unfold b; lra). fold c. split; [reflexivity|]. split; [reflexivity|].
  replace ((0 - 0) / c) with 0 by (field; lra). replace ((z * sqrt 2 * c - 0) / c) with (z * sqrt 2) by (field; lra).
  pose proof Phi_0. rewrite Phi_pos by nra. replace (z * sqrt 2 / sqrt 2) with z by (field; lra). lra.
Qed.

(** Multi-team expected scores. *)
Lemma enumerate_from {X} (d : X) l k : combine (seq k (length l)) l = map (fun i => (i, nth (i - k) l d)) (seq k (length l)).
Proof.
  revert k. induction l as [|x l IH]; intros k; [reflexivity|]. cbn [length seq combine map]. rewrite Nat.sub_diag. f_equal. rewrite IH.
  apply map_ext_in. intros i Hi. apply in_seq in Hi. replace (i - k)%nat with (S (i - S k)) by lia. reflexivity.
Qed.
Lemma enumerate_nth {X} (d : X) l : enumerate l = map (fun i => (i, nth i l d)) (seq 0 (length l)).
Proof. unfold enumerate. rewrite (enumerate_from d). apply map_ext. intros i. now rewrite Nat.sub_0_r. Qed.
Lemma fold_concat ls a : fold_left fadd (concat (map (map Fin) ls)) (Fin a) = Fin (a + Rsum (map Rsum ls)).
Proof.
  revert a. induction ls as [|l ls IH]; intros a; cbn [map concat]; [cbn [fold_left]; now rewrite Rsum_nil, Rplus_0_r|].
  rewrite fold_left_app, xr_fold_add, IH, Rsum_cons, Rplus_assoc. reflexivity.
Qed.
Lemma ts_row_range beta ts i : (2 <= length ts)%nat -> (i < length ts)%nat -> 0 < ts_row beta ts i.
Proof.
  intros HT Hi. unfold ts_row.
  assert (exists j, (j < length ts)%nat /\ i <> j) as (j & Hj & Hij). { destruct (Nat.eq_dec i 0); [exists 1%nat|exists 0%nat]; lia. }
  assert (S : In j (seq 0 (length ts))) by (apply in_seq; lia). apply in_split in S as (l1 & l2 & ->). rewrite map_app, Rsum_app. cbn [map]. rewrite Rsum_cons.
  destruct (Nat.eqb_spec i j); [congruence|]. pose proof (Phi_range ((side_mu (nth i ts []) - side_mu (nth j ts [])) / sqrt (INR (list_sum (map (@length _) ts)) * beta ^ 2 + side_var (nth i ts []) + side_var (nth j ts [])))) as P.
  fold (ts_pair beta ts i j) in P.
  assert (G : forall l, 0 <= Rsum (map (fun j => if Nat.eqb i j then 0 else ts_pair beta ts i j) l)).
  { intros l. apply Rsum_nonneg. intros x Hx. apply in_map_iff in Hx as (y & <- & _). destruct (Nat.eqb i y); [lra|]. apply Rlt_le. apply Phi_range. }
  pose proof (G l1). pose proof (G l2). lra.
Qed.
Lemma C54_multi_proof : forall ts dp beta tau, 0 < beta -> (2 <= length ts)%nat -> concat ts <> [] ->
  let total := Rsum (map (ts_row beta ts) (seq 0 (length ts))) in
  let es := map (fun i => ts_row beta ts i / total) (seq 0 (length ts)) in
  ts_expected_score_multi_team (map tst_in ts) (ts_cfg dp beta tau) = map Fin es /\
  length es = length ts /\ Rsum es = 1 /\ Forall (fun e => 0 < e < 1) es.
Proof.
  intros ts dp beta tau Hb HT Hn total es.
  assert (Hrow : forall i, In i (seq 0 (length ts)) -> 0 < ts_row beta ts i) by (intros i Hi; apply in_seq in Hi; apply ts_row_range; auto; lia).
  assert (Ht : 0 < total). { apply Rsum_pos; [destruct ts; [cbn in HT; lia|discriminate]|]. intros x Hx. apply in_map_iff in Hx as (i & <- & Hi). auto. }
  set (n := list_sum (map (@length _) ts)) in *.
  assert (Hlen : (0 < n)%nat). { unfold n. clear -Hn. induction ts as [|t ts IH]; [cbn in Hn; congruence|]. cbn in *. destruct t; [cbn in *; auto|cbn; lia]. }
  assert (HN : 0 < INR n) by (apply lt_0_INR; auto).
  split; [|split; [|split]].
  - unfold ts_expected_score_multi_team.
    replace (list_sum (map (length (A:=TrueSkillRating XR)) (map tst_in ts))) with n
      by (unfold n; rewrite map_map; f_equal; apply map_ext; intros; unfold tst_in; now rewrite map_length).
    rewrite xr_ofZ, <- INR_IZR_INZ. cbv zeta.
    set (W := map _ (enumerate (map tst_in ts))).
    assert (EW : W = map (map Fin) (map (fun i => flat_map (fun j => if Nat.eqb i j then [] else [ts_pair beta ts i j]) (seq 0 (length ts))) (seq 0 (length ts)))).
    { unfold W. rewrite (enumerate_nth []), map_length, !map_map. apply map_ext. intros i. cbn [fst snd]. unfold ts_win_probabilities.
      rewrite (enumerate_nth []), map_length.
      assert (Hnth : forall k, nth k (map tst_in ts) [] = tst_in (nth k ts [])) by (intros; apply (map_nth tst_in ts [])).
      clear -Hb HN Hnth. induction (seq 0 (length ts)) as [|j l IH]; [reflexivity|]. cbn [map flat_map]. rewrite map_app, IH. f_equal.
      destruct (Nat.eqb i j); [reflexivity|]. rewrite !Hnth, !ts_team_rating_eval, !ts_team_usq_eval. cbn [ts_cfg ts_beta]. cbv zeta.
      pose proof (side_var_nonneg (nth i ts [])) as V1. pose proof (side_var_nonneg (nth j ts [])) as V2.
      pose proof (tsc_pos' _ beta _ _ HN Hb V1 V2) as Hc. unfold tsc in Hc.
      assert (0 <= beta * beta) by apply Rle_0_sqr. rewrite xr_powi2, xr_fma, xr_add, xr_sqrt by nra. rewrite xr_sub.
      replace (side_var (nth j ts []) + (INR n * (beta * beta) + side_var (nth i ts []))) with (INR n * beta ^ 2 + side_var (nth i ts []) + side_var (nth j ts [])) by ring.
      rewrite xr_div by lra. rewrite cdf_eval. reflexivity. }
    rewrite EW. clear EW W. rewrite (xr_ofZ 0), fold_concat.
    assert (R : forall i, Rsum (flat_map (fun j => if Nat.eqb i j then [] else [ts_pair beta ts i j]) (seq 0 (length ts))) = ts_row beta ts i).
    { intros i. unfold ts_row. clear. induction (seq 0 (length ts)) as [|j l IH]; [reflexivity|]. cbn [flat_map map]. rewrite Rsum_app, Rsum_cons, IH.
      destruct (Nat.eqb i j); [rewrite Rsum_nil; reflexivity|rewrite Rsum_cons, Rsum_nil; lra]. }
    replace (0 + Rsum (map Rsum (map (fun i => flat_map (fun j => if Nat.eqb i j then [] else [ts_pair beta ts i j]) (seq 0 (length ts))) (seq 0 (length ts))))) with total.
    + unfold es. rewrite !map_map. apply map_ext. intros i. rewrite xr_sum, R. rewrite xr_div by lra. reflexivity.
    + rewrite Rplus_0_l, map_map. unfold total. f_equal. apply map_ext. intros. now rewrite R.
  - unfold es. now rewrite map_length, seq_length.
  - unfold es, Rdiv. rewrite (map_ext _ (fun i => / total * ts_row beta ts i)) by (intros; ring). rewrite Rsum_map_scal. fold total. field. lra.
  - apply Forall_forall. intros x Hx. unfold es in Hx. apply in_map_iff in Hx as (i & <- & Hi). specialize (Hrow i Hi) as P.
    split; [pos|]. apply Rmult_lt_reg_r with total; auto. unfold Rdiv. rewrite Rmult_assoc, Rinv_l, Rmult_1_l, Rmult_1_r by lra.
    unfold total. assert (exists j, In j (seq 0 (length ts)) /\ j <> i) as (j & Hj & Hij).
    { apply in_seq in Hi. destruct (Nat.eq_dec i 0); [exists 1%nat|exists 0%nat]; split; try (apply in_seq; lia); lia. }
    apply (in_map (ts_row beta ts)) in Hj as Hj'. destruct (in_split _ _ Hi) as (l1 & l2 & El).
    assert (Hin : In j (l1 ++ l2)). { rewrite El in Hj. apply in_app_or in Hj. apply in_or_app. cbn in Hj. intuition congruence. }
    rewrite El, map_app, Rsum_app. cbn [map]. rewrite Rsum_cons.
    enough (0 < Rsum (map (ts_row beta ts) (l1 ++ l2))) by (rewrite map_app, Rsum_app in H; lra).
    apply Rsum_pos; [destruct (l1 ++ l2); [contradiction|discriminate]|]. intros y Hy. apply in_map_iff in Hy as (k & <- & Hk). apply Hrow. rewrite El.
    apply in_app_or in Hk. apply in_or_app. cbn. tauto.
Qed.
Lemma C54_one_team_proof : forall t dp beta tau, ts_expected_score_multi_team [tst_in t] (ts_cfg dp beta tau) = [NaN].
Proof.
  intros. unfold ts_expected_score_multi_team. cbn [enumerate length seq combine map fst snd].
  unfold ts_win_probabilities. cbn [enumerate length seq combine flat_map Nat.eqb app concat fold_left map].
  f_equal. unfold fsum. cbn [fold_left]. rewrite xr_sum0, (xr_ofZ 0). cbn. unfold Reqb. destruct (Req_EM_T 0 0); [reflexivity|congruence].
Qed.

(** ** C55: match quality *)
Lemma mq_range n beta v d : 0 < n -> 0 < beta -> 0 <= v -> 0 < mq n beta v d <= 1.
Proof.
  intros Hn Hb Hv. unfold mq. assert (0 < n * beta ^ 2) by pos. set (x := n * beta ^ 2) in *.
  assert (0 < sqrt (x / (x + v))) by (apply sqrt_lt_R0; pos).
  assert (sqrt (x / (x + v)) <= 1). { rewrite <- sqrt_1. apply sqrt_le_1_alt. apply Rmult_le_reg_r with (x + v); [lra|]. unfold Rdiv. rewrite Rmult_assoc, Rinv_l by lra. lra. }
  pose proof (exp_pos (- d ^ 2 / (2 * (x + v)))). assert (exp (- d ^ 2 / (2 * (x + v))) <= 1).
  { rewrite <- exp_0. apply exp_mono. assert (0 <= d ^ 2 / (2 * (x + v))); [|unfold Rdiv in *; lra]. pose proof (pow2_ge_0 d). apply Rmult_le_pos; auto. apply Rlt_le. apply Rinv_0_lt_compat. lra. }
  split; [pos|]. nra.
Qed.
Lemma mq_mono n beta v d d' : 0 < n -> 0 < beta -> 0 <= v -> Rabs d < Rabs d' -> mq n beta v d' < mq n beta v d.
Proof.
  intros Hn Hb Hv Hd. unfold mq. assert (0 < n * beta ^ 2) by pos. set (x := n * beta ^ 2) in *.
  apply Rmult_lt_compat_l; [apply sqrt_lt_R0; pos|]. apply exp_increasing. unfold Rdiv. apply Rmult_lt_compat_r; [pos|].
  rewrite <- (pow2_abs d), <- (pow2_abs d'). pose proof (Rabs_pos d). nra.
Qed.
Lemma match_quality_eval m1 s1 m2 s2 dp beta tau : 0 < beta ->
  match_quality (ts_in (m1, s1)) (ts_in (m2, s2)) (ts_cfg dp beta tau) = Fin (mq 2 beta (s1 ^ 2 + s2 ^ 2) (m1 - m2)).
Proof.
  intros Hb. unfold match_quality, ts_in, ts_cfg. cbn [ts_rating ts_uncertainty ts_beta fst snd]. cbv zeta. rewrite (xr_ofZ 2).
  assert (0 < beta * beta) by pos. assert (0 <= s1 * s1) by apply Rle_0_sqr. assert (0 <= s2 * s2) by apply Rle_0_sqr.
  rewrite !xr_powi2, !xr_fma, !xr_mul, !xr_sub, !xr_powi2, !xr_neg. rewrite !xr_div by (apply Rgt_not_eq; lra).
  rewrite xr_sqrt by (apply Rlt_le; apply Rdiv_lt_0_compat; lra). rewrite xr_exp, xr_mul. unfold mq. f_equal. f_equal; f_equal; f_equal; try ring.
Qed.
Lemma match_quality_two_eval t1 t2 dp beta tau : 0 < beta -> t1 ++ t2 <> [] ->
  match_quality_two_teams (tst_in t1) (tst_in t2) (ts_cfg dp beta tau) =
  Fin (mq (INR (length t1 + length t2)) beta (side_var t1 + side_var t2) (side_mu t1 - side_mu t2)).
Proof.
  intros Hb Hne. unfold match_quality_two_teams. rewrite ts_total_eval, !ts_team_rating_eval, !ts_team_usq_eval. cbn [ts_cfg ts_beta]. cbv zeta. rewrite (xr_ofZ 2).
  pose proof (side_var_nonneg t1). pose proof (side_var_nonneg t2).
  assert (0 < INR (length t1 + length t2)) by (apply lt_0_INR; destruct t1, t2; cbn in *; try congruence; lia).
  set (n := INR (length t1 + length t2)) in *. assert (0 < beta * beta) by pos. assert (0 < n * (beta * beta)) by pos.
  rewrite !xr_powi2, !xr_fma, !xr_add, !xr_mul, !xr_sub, !xr_powi2, !xr_neg. rewrite !xr_div by (apply Rgt_not_eq; lra).
  rewrite xr_sqrt by (apply Rlt_le; apply Rdiv_lt_0_compat; lra). rewrite xr_exp, xr_mul. unfold mq. f_equal. f_equal; f_equal; f_equal; try ring.
Qed.
Lemma C55_players_proof : forall m1 s1 m2 s2 m1' m2' dp beta tau, 0 < beta ->
  let cfg := ts_cfg dp beta tau in
  exists q q', q = mq 2 beta (s1 ^ 2 + s2 ^ 2) (m1 - m2) /\ 0 < q <= 1 /\
    match_quality (ts_in (m1, s1)) (ts_in (m2, s2)) cfg = Fin q /\
    match_quality (ts_in (m2, s2)) (ts_in (m1, s1)) cfg = Fin q /\
    match_quality_two_teams [ts_in (m1, s1)] [ts_in (m2, s2)] cfg = Fin q /\
    match_quality_rating_period (ts_in (m1, s1)) [ts_in (m2, s2)] cfg = [Fin q] /\
    match_quality (ts_in (m1', s1)) (ts_in (m2', s2)) cfg = Fin q' /\
    (Rabs (m1 - m2) < Rabs (m1' - m2') -> q' < q).
Proof.
  intros m1 s1 m2 s2 m1' m2' dp beta tau Hb cfg. assert (Hv : 0 <= s1 ^ 2 + s2 ^ 2) by (pose proof (pow2_ge_0 s1); pose proof (pow2_ge_0 s2); lra).
  do 2 eexists. split; [reflexivity|]. split; [apply mq_range; auto; lra|]. unfold cfg. rewrite !match_quality_eval by auto.
  split; [reflexivity|]. split; [|split; [|split; [|split; [reflexivity|]]]].
  - f_equal. unfold mq. rewrite (Rplus_comm (s2 ^ 2)). replace ((m2 - m1) ^ 2) with ((m1 - m2) ^ 2) by ring. reflexivity.
  - change [ts_in (m1, s1)] with (tst_in [(m1, s1)]). change [ts_in (m2, s2)] with (tst_in [(m2, s2)]).
    rewrite match_quality_two_eval by (auto; discriminate). cbn [length Nat.add]. change (INR 2) with 2. unfold side_mu, side_var. cbn [map fst snd].
    rewrite !Rsum_cons, !Rsum_nil, !Rplus_0_r. reflexivity.
  - unfold match_quality_rating_period. cbn [map]. rewrite match_quality_eval by auto. reflexivity.
  - intros Hd. apply mq_mono; auto. lra.
Qed.
Lemma C55_teams_proof : forall t1 t2 t1' t2' dp beta tau, 0 < beta -> t1 ++ t2 <> [] ->
  let cfg := ts_cfg dp beta tau in
  exists q, q = mq (INR (length t1 + length t2)) beta (side_var t1 + side_var t2) (side_mu t1 - side_mu t2) /\ 0 < q <= 1 /\
    match_quality_two_teams (tst_in t1) (tst_in t2) cfg = Fin q /\
    match_quality_two_teams (tst_in t2) (tst_in t1) cfg = Fin q /\
    (map snd t1 = map snd t1' -> map snd t2 = map snd t2' -> Rabs (side_mu t1 - side_mu t2) < Rabs (side_mu t1' - side_mu t2') ->
     exists q', match_quality_two_teams (tst_in t1') (tst_in t2') cfg = Fin q' /\ q' < q).
Proof.
  intros t1 t2 t1' t2' dp beta tau Hb Hne cfg. pose proof (side_var_nonneg t1) as V1. pose proof (side_var_nonneg t2) as V2.
  assert (Hn : 0 < INR (length t1 + length t2)) by (apply lt_0_INR; destruct t1, t2; cbn in *; try congruence; lia).
  eexists. split; [reflexivity|]. split; [apply mq_range; auto; lra|]. unfold cfg.
  split; [apply match_quality_two_eval; auto|]. split.
  - rewrite match_quality_two_eval; auto.
    + f_equal. unfold mq. rewrite (Nat.add_comm (length t2)), (Rplus_comm (side_var t2)). replace ((side_mu t2 - side_mu t1) ^ 2) with ((side_mu t1 - side_mu t2) ^ 2) by ring. reflexivity.
    + destruct t1, t2; cbn in *; congruence.
  - intros E1 E2 Hd.
    assert (L : forall a b : list (R * R), map snd a = map snd b -> length a = length b /\ side_var a = side_var b).
    { intros a b E. split; [rewrite <- (map_length snd a), E; apply map_length|]. unfold side_var. f_equal.
      rewrite <- (map_map snd (fun x => x ^ 2) a), E, map_map. reflexivity. }
    destruct (L _ _ E1) as [L1 W1]. destruct (L _ _ E2) as [L2 W2]. eexists. split.
    + apply match_quality_two_eval; auto. intros X. apply app_eq_nil in X as [-> ->]. cbn in L1, L2. destruct t1, t2; cbn in *; try congruence; lia.
    + rewrite <- L1, <- L2, <- W1, <- W2. apply mq_mono; auto. lra.
Qed.

(** ** C58: uncertainty *)
Lemma C58_refuted_proof : forall dp beta s1 s2, 0 < s1 -> 0 < s2 ->
  exists m1 m2 tau, 0 <= tau /\
    ts_uncertainty (fst (trueskill (ts_in (m1, s1)) (ts_in (m2, s2)) WIN (ts_cfg dp beta tau))) = NaN.
Proof.
  intros dp beta s1 s2 H1 H2. pose proof (draw_margin_eval dp beta 2 ltac:(lra)) as He. set (e := unit_margin dp * sqrt 2 * beta) in *.
  set (c := tsc 2 beta (s1 ^ 2) (s2 ^ 2)). assert (Hc : 0 < c) by (apply tsc_pos; [lra|apply pow2_ge_0|apply pow_lt; auto]).
  pose proof Phi_0. pose proof tiny_small. pose proof (phi_pos 0).
  set (w := (phi 0 / Phi 0) ^ 2). assert (Hw : 0 < w) by (unfold w; pos).
  exists e, 0, (c / sqrt w). split; [apply Rlt_le; pos|].
  rewrite (trueskill_eval _ _ _ _ _ _ _ _ e) by auto. fold c. cbn [fst ts_out ts_uncertainty ts_w].
  assert (W : wwin ((e - 0) / c) (e / c) = w).
  { rewrite Rminus_0_r. unfold wwin, vwin. rewrite Rminus_diag_eq by auto. destruct (Rlt_dec _ _); [lra|]. unfold w.
    replace (phi 0 / Phi 0 + e / c - e / c) with (phi 0 / Phi 0) by ring. ring. }
  rewrite W. unfold std. destruct (Rlt_dec _ _) as [|N]; [reflexivity|]. exfalso. apply N. unfold ts_var'. cbn [snd].
  replace ((c / sqrt w) ^ 2) with (c ^ 2 / w).
  2:{ unfold Rdiv. rewrite Rpow_mult_distr, pow_inv. f_equal. rewrite <- Rsqr_pow2, Rsqr_sqrt by lra. reflexivity. }
  assert (0 < c ^ 2) by pos. assert (0 < s1 ^ 2) by pos.
  replace (1 - w * (s1 ^ 2 + c ^ 2 / w) / c ^ 2) with (- (w * s1 ^ 2 / c ^ 2)) by (field; lra).
  assert (0 < w * s1 ^ 2 / c ^ 2) by pos. assert (0 < c ^ 2 / w) by pos. nra.
Qed.
(** Given a variance correction in [0,1] and a dynamics factor that is not too
    large, the uncertainty is a real number. *)
Lemma std_real tau c w m s : 0 < c -> 0 <= w <= 1 -> s ^ 2 + tau ^ 2 <= c ^ 2 ->
  std (ts_var' tau c w (m, s)) = Fin (sqrt (ts_var' tau c w (m, s))) /\ 0 <= ts_var' tau c w (m, s) <= s ^ 2 + tau ^ 2.
Proof.
  intros Hc Hw Hv. assert (0 < c ^ 2) by pos. pose proof (pow2_ge_0 s). pose proof (pow2_ge_0 tau). set (V := s ^ 2 + tau ^ 2) in *.
  assert (B : 0 <= w * V / c ^ 2 <= 1).
  { split; [apply Rmult_le_pos; [apply Rmult_le_pos; unfold V in *; lra|apply Rlt_le, Rinv_0_lt_compat; lra]|].
    apply Rmult_le_reg_r with (c ^ 2); auto. unfold Rdiv. rewrite Rmult_assoc, Rinv_l by lra. assert (0 <= V) by (unfold V; lra). nra. }
  assert (R : 0 <= ts_var' tau c w (m, s) <= V). { unfold ts_var'. cbn [snd]. fold V. assert (0 <= V) by (unfold V; lra). nra. }
  split; [|exact R]. unfold std. destruct (Rlt_dec _ _); [lra|reflexivity].
Qed.

(** ** C59: rank and draw margin *)
Lemma C59_rank_proof : forall m s, ts_get_rank (ts_in (m, s)) = Fin (m - 3 * s).
Proof. intros. unfold ts_get_rank, ts_in. cbn [ts_rating ts_uncertainty fst snd]. rewrite xr_ofZ. xr. f_equal. ring. Qed.
Lemma C59_margin_proof : forall dp, exists u, forall beta n, 0 <= n ->
  ts_draw_margin (Fin dp) (Fin beta) (Fin n) = Fin (u * sqrt n * beta).
Proof. intros dp. exists (unit_margin dp). intros. now apply draw_margin_eval. Qed.

(** ** C78: swapping the players swaps the expected scores, except at equality *)
Lemma C78_swap_proof : forall m1 s1 m2 s2 dp beta tau, 0 < beta -> m1 <> m2 ->
  let cfg := ts_cfg dp beta tau in
  let '(e1, e2) := ts_expected_score (ts_in (m1, s1)) (ts_in (m2, s2)) cfg in
  ts_expected_score (ts_in (m2, s2)) (ts_in (m1, s1)) cfg = (e2, e1).
Proof.
  intros m1 s1 m2 s2 dp beta tau Hb Hm cfg. destruct (C54_players_proof m1 s1 m2 s2 dp beta tau Hb) as (e & _ & _ & E & X & _).
  fold cfg in E, X. rewrite E. auto.
Qed.
Lemma C78_refuted_proof : forall m s1 s2 dp beta tau, 0 < beta ->
  exists e, ts_expected_score (ts_in (m, s1)) (ts_in (m, s2)) (ts_cfg dp beta tau) = (Fin e, Fin (1 - e)) /\
            ts_expected_score (ts_in (m, s2)) (ts_in (m, s1)) (ts_cfg dp beta tau) = (Fin e, Fin (1 - e)) /\ 1 - e < e < 1 - e + 0.0000002.
Proof.
  intros m s1 s2 dp beta tau Hb. exists (Phi 0). rewrite !ts_expected_eval by auto. rewrite Rminus_diag_eq by auto. unfold Rdiv. rewrite !Rmult_0_l.
  split; [reflexivity|]. split; [reflexivity|]. pose proof Phi_0. lra.
Qed.
