(** Glicko-2: a rating period whose volatility iteration never stops (in exact
    arithmetic). *)
From Coq Require Import ZArith NArith List Bool Reals Lra Lia.
From Verif Require Import Arith XR Tac ModelLib ModelGlicko2 Spec ProofElo MathIllinois MathGlicko2 MathG2Trap ProofGlicko2.
Import ListNotations.
Local Open Scope R_scope.

Section Hang.
  Variables (d2 p2 v s y tol : R).
  Hypothesis Hp2 : 0 <= p2.
  Hypothesis Hv : 0 < v.
  Hypothesis Hs : 0 < s.
  Hypothesis Hy : 0 < y.
  Hypothesis HS : d2 - p2 - v = 685 * y.
  Hypothesis HDy : p2 + v = 7 * y.
  Hypothesis Ha : ln (s ^ 2) = ln y + - (171 / 128).
  Hypothesis Htol : tol <= 1.
  Let t := 1 / 2.
  Let p := ln y.
  Let b := ln (685 * y).
  Let f := hf (d2 - p2 - v) (p2 + v) (ln (s ^ 2)) (t ^ 2).

  Lemma f_tf u : f (p + u) = tf u.
  Proof using All.
    unfold f, tf. rewrite HS, HDy, Ha. replace (t ^ 2) with (1 / 4) by (unfold t; field). unfold p. apply hf_scale; lra.
  Qed.
  Lemma f_quad d : 0 < d <= 171 / 128 -> 0.65 * d ^ 2 <= f (p - d) <= 1.05 * d ^ 2.
  Proof using All. intros H. replace (p - d) with (p + (0 - d)) by ring. rewrite f_tf. now apply tf_quad. Qed.
  Lemma b_p : b = p + ln 685. Proof using Hy. unfold b, p. rewrite ln_mult by lra. ring. Qed.
  Lemma ln685 : 1 < ln 685.
  Proof. rewrite <- (ln_exp 1). apply ln_increasing; [apply exp_pos|]. pose proof exp_le_3. lra. Qed.
  Lemma pb : p < b. Proof using Hy. rewrite b_p. pose proof ln685. lra. Qed.

  Notation tr := (trap f p b (171 / 128)).
  Lemma hang_loop n : forall g d, tr g d ->
    g2_illinois n (Fin b) (Fin (- g)) (Fin (p - d)) (Fin (f (p - d))) (Fin d2) (Fin p2) (Fin v) (Fin s) (Fin t) (Fin tol) = None.
  Proof using All.
    induction n as [|n IH]; intros g d H; [reflexivity|].
    pose proof H as (Hg & Hd & Hw). destruct (f_quad d Hd) as [Q1 _]. assert (D2 : 0 < d ^ 2) by (apply pow_lt; lra).
    assert (F0 : 0 < f (p - d)) by lra.
    assert (fb : f b < 0).
    { unfold f, b. rewrite HS. rewrite hf_at_lnS by (unfold t; lra). fold b. rewrite Ha. fold p.
      pose proof b_p. pose proof ln685. unfold t. lra. }
    assert (I : inv d2 p2 v s t b (- g) (p - d) (f (p - d))).
    { split; [reflexivity|]. fold f. split; [nra|]. exists (- g / f b). split; [|field; lra].
      replace (- g / f b) with (g / - f b) by (field; lra). apply Rdiv_lt_0_compat; lra. }
    rewrite (ill_step d2 p2 v s t tol Hp2 Hv Hs ltac:(unfold t; lra) n _ _ _ _ I). fold f.
    destruct (Rltb_spec tol (Rabs (p - d - b))) as [h|h].
    2:{ exfalso. apply h. pose proof b_p. pose proof ln685. rewrite Rabs_left by lra. lra. }
    destruct (Reqb_spec (f (p - d) - - g) 0) as [e|e]; [lra|]. cbv zeta.
    destruct (trap_step f p b 0.65 1.05 (171 / 128) pb ltac:(lra) ltac:(lra) f_quad g d H) as (d' & EC & Hd' & FC & T & _).
    unfold nxt in EC, FC. rewrite EC in *.
    destruct (Rleb_spec (f (p - d') * f (p - d)) 0) as [c|c]; [nra|].
    replace (- g / 2) with (- (g / 2)) by field. apply IH. exact T.
  Qed.

  Lemma hang_vol n : g2_new_volatility n (Fin s) (Fin d2) (Fin p2) (Fin v) (Fin t) (Fin tol) = None.
  Proof using All.
    unfold g2_new_volatility. cbv zeta. rewrite a_eval by auto. rewrite !xr_add, !xr_sub, xr_ltb, HS.
    destruct (Rltb_spec (p2 + v) d2) as [h|h]; [|lra].
    rewrite xr_ln by lra. fold b. rewrite !feval by (auto; unfold t; lra). fold f.
    set (a := ln (s ^ 2)). assert (Ea : a = p - 171 / 128) by (unfold a; rewrite Ha; fold p; lra).
    enough (E : g2_illinois n (Fin a) (Fin (f a)) (Fin b) (Fin (f b)) (Fin d2) (Fin p2) (Fin v) (Fin s) (Fin t) (Fin tol) = None) by now rewrite E.
    destruct n as [|n]; [reflexivity|].
    destruct (f_quad (171 / 128) ltac:(lra)) as [Q1 Q2]. rewrite <- Ea in Q1, Q2.
    assert (fb : f b = - (4 * (ln 685 + 171 / 128))).
    { unfold f at 1, b at 1. rewrite HS. rewrite hf_at_lnS by (unfold t; lra). fold b. fold a. rewrite Ea, b_p. unfold t. field. }
    pose proof ln685 as L. pose proof b_p as Eb.
    assert (I : inv d2 p2 v s t a (f a) b (f b)).
    { split; [reflexivity|]. fold f. split; [nra|]. exists 1. split; [lra|ring]. }
    rewrite (ill_step d2 p2 v s t tol Hp2 Hv Hs ltac:(unfold t; lra) n _ _ _ _ I). fold f.
    destruct (Rltb_spec tol (Rabs (b - a))) as [hw|hw].
    2:{ exfalso. apply hw. rewrite Rabs_pos_eq by lra. lra. }
    destruct (Reqb_spec (f b - f a) 0) as [e|e]; [lra|]. cbv zeta.
    set (g := 4 * (ln 685 + 171 / 128)) in *.
    assert (T0 : tr g (171 / 128)).
    { split; [unfold g; lra|]. split; [lra|]. rewrite <- Ea. replace (b - p) with (ln 685) by lra. unfold g. nra. }
    destruct (trap_step f p b 0.65 1.05 (171 / 128) pb ltac:(lra) ltac:(lra) f_quad g (171 / 128) T0) as (d' & EC & Hd' & FC & _ & T).
    assert (EC' : a + (a - b) * f a / (f b - f a) = p - d').
    { rewrite <- EC. unfold nxt. rewrite <- Ea, <- fb. field. lra. }
    rewrite EC' . rewrite EC in FC. destruct (Rleb_spec (f (p - d') * f b) 0) as [c|c]; [|rewrite fb in c; unfold g in c; nra].
    rewrite fb. apply hang_loop. exact T.
  Qed.
End Hang.

(** A rating period: 100 wins against opponents of the same rating. *)
Lemma Rsum_repeat x n : Rsum (repeat x n) = INR n * x.
Proof. induction n as [|n IH]; [cbn; ring|]. cbn [repeat]. rewrite Rsum_cons, IH, S_INR. ring. Qed.
Lemma map_repeat' {X Y} (h : X -> Y) x n : map h (repeat x n) = repeat (h x) n.
Proof. induction n as [|n IH]; [reflexivity|]. cbn [repeat map]. now rewrite IH. Qed.

Definition hang_sigma : R := exp (- (171 / 256)) / 10.
Definition hang_RD : R := g2s * (sqrt 2 / 50).
Definition hang_RDj : R := g2s * (PI * sqrt (73 / 300)).

Lemma hang_period tol n : tol <= 1 ->
  glicko2_rating_period n (mkGlicko2 (Fin 1500) (Fin hang_RD) (Fin hang_sigma))
    (repeat (mkGlicko2 (Fin 1500) (Fin hang_RDj) (Fin (6/100)), WIN) 100)
    (mkGlicko2Config (Fin (1 / 2)) (Fin tol)) = None.
Proof.
  intros Htol.
  replace (repeat (mkGlicko2 (Fin 1500) (Fin hang_RDj) (Fin (6 / 100)), WIN) 100) with
    (map (fun '(rj, RDj, sj, o) => (mkGlicko2 (Fin rj) (Fin RDj) (Fin sj), o)) (repeat (1500, hang_RDj, 6 / 100, WIN) 100)) by (now rewrite map_repeat').
  rewrite g2_period_eval by discriminate. cbv zeta. rewrite map_repeat'.
  set (game := (g2mu 1500, g2phi hang_RDj, points WIN)).
  enough (E : g2_vol n 1500 hang_RD hang_sigma (1 / 2) tol (repeat game 100) = None) by now rewrite E.
  pose proof g2s_pos as Gs.
  assert (Eg : g2g (g2phi hang_RDj) ^ 2 = 100 / 173).
  { unfold g2g, g2phi, hang_RDj. replace (g2s * (PI * sqrt (73 / 300)) / g2s) with (PI * sqrt (73 / 300)) by (field; lra).
    assert (HPI : PI <> 0) by (pose proof PI_RGT_0; lra).
    replace (1 + 3 * (PI * sqrt (73 / 300)) ^ 2 / PI ^ 2) with (1 + 3 * (sqrt (73 / 300) * sqrt (73 / 300))) by (field; auto).
    rewrite sqrt_sqrt by lra. replace (1 + 3 * (73 / 300)) with (173 / 100) by field.
    replace ((/ sqrt (173 / 100)) ^ 2) with (/ (sqrt (173 / 100) * sqrt (173 / 100))).
    - rewrite sqrt_sqrt by lra. field.
    - field. apply Rgt_not_eq, sqrt_lt_R0. lra. }
  assert (EE : g2E (g2mu 1500) (g2mu 1500) (g2phi hang_RDj) = 1 / 2) by apply g2E_self.
  assert (Ev : g2v (g2mu 1500) (repeat game 100) = 173 / 2500).
  { unfold g2v. rewrite map_repeat', Rsum_repeat. unfold game. rewrite EE, Eg. cbn [INR]. lra. }
  assert (EM : (g2v (g2mu 1500) (repeat game 100) * g2M (g2mu 1500) (repeat game 100)) ^ 2 = 173 / 25).
  { rewrite Ev. unfold g2M. rewrite map_repeat', Rsum_repeat. unfold game. rewrite EE. cbn [points].
    set (g := g2g _) in *. replace (INR 100) with 100 by (cbn [INR]; lra).
    replace ((173 / 2500 * (100 * (g * (1 - 1 / 2)))) ^ 2) with ((173 / 50) ^ 2 * g ^ 2) by field. rewrite Eg. field. }
  assert (Ep : g2phi hang_RD ^ 2 = 8 / 10000).
  { unfold g2phi, hang_RD. replace (g2s * (sqrt 2 / 50) / g2s) with (sqrt 2 / 50) by (field; lra).
    replace ((sqrt 2 / 50) ^ 2) with (sqrt 2 * sqrt 2 / 2500) by field. rewrite sqrt_sqrt by lra. field. }
  unfold g2_vol. cbv zeta. rewrite EM, Ep, Ev.
  apply (hang_vol (173 / 25) (8 / 10000) (173 / 2500) hang_sigma (1 / 100) tol); try lra.
  - unfold hang_sigma. pose proof (exp_pos (- (171 / 256))). lra.
  - unfold hang_sigma. replace ((exp (- (171 / 256)) / 10) ^ 2) with (1 / 100 * (exp (- (171 / 256)) * exp (- (171 / 256)))) by field.
    rewrite <- exp_plus, ln_mult, ln_exp by (try apply exp_pos; lra). lra.
Qed.

Lemma C40_refuted_proof : exists RD s RDj sj, 0 < RD <= 350 /\ 0 < s <= 6 / 100 /\ 0 < RDj <= 350 /\ 0 < sj <= 6 / 100 /\
  forall n tol, tol <= 1 ->
  glicko2_rating_period n (mkGlicko2 (Fin 1500) (Fin RD) (Fin s))
    (repeat (mkGlicko2 (Fin 1500) (Fin RDj) (Fin sj), WIN) 100) (mkGlicko2Config (Fin (1 / 2)) (Fin tol)) = None.
Proof.
  exists hang_RD, hang_sigma, hang_RDj, (6 / 100). unfold hang_RD, hang_sigma, hang_RDj.
  assert (S2 : 0 < sqrt 2 <= 2).
  { split; [apply sqrt_lt_R0; lra|]. rewrite <- (sqrt_square 2) at 2 by lra. apply sqrt_le_1; lra. }
  assert (S3 : 0 < sqrt (73 / 300) <= 1 / 2).
  { split; [apply sqrt_lt_R0; lra|]. rewrite <- (sqrt_square (1 / 2)) by lra. apply sqrt_le_1; lra. }
  assert (HP : 0 < PI <= 4) by (split; [apply PI_RGT_0|apply PI_4]).
  split; [|split; [|split; [|split; [lra|]]]].
  - unfold g2s. split; [apply Rmult_lt_0_compat; lra|nra].
  - split; [pose proof (exp_pos (- (171 / 256))); lra|].
    assert (exp (- (171 / 256)) <= 6 / 10); [|lra].
    (* e^(171/256) >= 1 + x + x^2/2 > 1/0.6 *)
    assert (E1 := exp_ineq1 (171 / 512) ltac:(lra)).
    replace (- (171 / 256)) with (- (171 / 512) + - (171 / 512)) by field. rewrite exp_plus, exp_Ropp.
    assert (I1 : / exp (171 / 512) <= / (1 + 171 / 512)) by (apply Rinv_le_contravar; lra).
    assert (0 < / exp (171 / 512)) by (apply Rinv_0_lt_compat, exp_pos).
    assert (/ (1 + 171 / 512) <= 0.75) by lra. nra.
  - unfold g2s. assert (0 < PI * sqrt (73 / 300)) by (apply Rmult_lt_0_compat; lra). split; [apply Rmult_lt_0_compat; lra|nra].
  - intros n tol Htol. apply (hang_period tol n Htol).
Qed.
