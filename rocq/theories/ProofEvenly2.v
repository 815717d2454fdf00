(** Proofs of C139, continued: Glicko and Weng-Lin. *)
From Coq Require Import ZArith NArith List Bool Reals Lra Lia.
From Verif Require Import Arith XR Tac ModelLib ModelElo ModelGlicko ModelWengLin Spec SpecSettle
  ProofElo ProofGlicko ProofWengLin MathIval ProofOrder ProofOrder2 ProofBoost2 ProofLong ProofRematch ProofDraw ProofEvenly.
Import ListNotations.
Local Open Scope R_scope.

Lemma sg_var d c : sg (c * d) * (1 - sg (c * d)) = sg (c * Rabs d) * (1 - sg (c * Rabs d)).
Proof. unfold Rabs. destruct (Rcase_abs d); [|reflexivity]. replace (c * d) with (- (c * - d)) by ring. rewrite sg_odd. ring. Qed.
Lemma sg_var_low y : 0 <= y <= 3 -> 0.009 <= sg y * (1 - sg y).
Proof.
  intros H. unfold sg. set (u := exp (- y)). assert (U1 : u <= 1) by (unfold u; rewrite <- exp_0; destruct (Req_dec y 0) as [->|]; [rewrite Ropp_0; lra|left; apply exp_increasing; lra]).
  assert (E3 : exp 1 ^ 3 <= 27). { assert (0 <= exp 1 <= 3) by (split; [left; apply exp_pos|apply exp_le_3]). replace 27 with (3 ^ 3) by lra. now apply pow_incr. }
  assert (U0 : / 27 <= u). { unfold u. rewrite exp_Ropp. apply Rinv_le_contravar; [apply exp_pos|]. apply Rle_trans with (exp 3). - destruct (Req_dec y 3) as [->|]; [lra|left; apply exp_increasing; lra]. - replace 3 with (1 + 1 + 1) by lra. rewrite !exp_plus. lra. }
  replace (/ (1 + u) * (1 - / (1 + u))) with (u * / ((1 + u) * (1 + u))) by (field; lra). assert (/ 4 <= / ((1 + u) * (1 + u))) by (apply Rinv_le_contravar; nra). nra.
Qed.
Lemma gl_ok d c P : 0 < c -> 0 < P -> c ^ 2 * P <= 4.07 -> d <> 0 -> c * / (/ P + c ^ 2 * (sg (c * d) * (1 - sg (c * d)))) * (sg (c * Rabs d) - 1 / 2) < Rabs d.
Proof.
  intros Hc HP HV N. rewrite sg_var. set (a := Rabs d). assert (A : 0 < a) by (now apply Rabs_pos_lt). set (y := c * a). assert (Y : 0 < y) by (now apply Rmult_lt_0_compat). pose proof (sg_slope y Y) as [S0 S1]. pose proof (sg_range y) as SR.
  set (v := sg y * (1 - sg y)). assert (V0 : 0 < v) by (unfold v; apply Rmult_lt_0_compat; lra). set (V := c ^ 2 * P) in *. assert (C2 : 0 < c ^ 2) by (now apply pow_lt). assert (VP : 0 < V) by (now apply Rmult_lt_0_compat).
  assert (Q : c * / (/ P + c ^ 2 * v) = V / (1 + V * v) / c). { unfold V. assert (0 < 1 + c ^ 2 * P * v) by (assert (0 < c ^ 2 * P * v) by (now apply Rmult_lt_0_compat); lra). field. repeat split; lra. }
  rewrite Q. apply Rmult_lt_reg_l with c; [auto|]. fold y. assert (DV : 0 < 1 + V * v) by (assert (0 < V * v) by (now apply Rmult_lt_0_compat); lra).
  replace (c * (V / (1 + V * v) / c * (sg y - 1 / 2))) with (V / (1 + V * v) * (sg y - 1 / 2)) by (field; split; lra).
  destruct (Rle_lt_dec y 3) as [L|L].
  - assert (v >= 0.009) by (apply Rle_ge, sg_var_low; lra). assert (V / (1 + V * v) <= 4). { apply Rmult_le_reg_r with (1 + V * v); [auto|]. replace (V / (1 + V * v) * (1 + V * v)) with V by (field; lra). nra. }
    assert (V / (1 + V * v) * (sg y - 1 / 2) <= 4 * (sg y - 1 / 2)) by (apply Rmult_le_compat_r; lra). lra.
  - assert (V / (1 + V * v) <= V). { apply Rmult_le_reg_r with (1 + V * v); [auto|]. replace (V / (1 + V * v) * (1 + V * v)) with V by (field; lra). assert (0 < V * v) by (now apply Rmult_lt_0_compat). nra. }
    assert (V / (1 + V * v) * (sg y - 1 / 2) <= V * (sg y - 1 / 2)) by (apply Rmult_le_compat_r; lra). nra.
Qed.
Lemma gE_sg r ro RDo : gE r ro RDo = sg (gq * gg RDo * (r - ro)).
Proof. rewrite gE_lg. unfold lg, sg. do 3 f_equal. ring. Qed.
Lemma gpre_bounds RD c : 0 < RD -> 0 < gpre RD c <= 350 /\ / gpre RD c ^ 2 <= / RD ^ 2 + / 350 ^ 2.
Proof.
  intros H. pose proof (gpre_pos RD c H) as P. split; [split; [auto|apply Rmin_r]|]. assert (I1 : 0 < / RD ^ 2) by (apply Rinv_0_lt_compat; now apply pow_lt). assert (I2 : 0 < / 350 ^ 2) by (apply Rinv_0_lt_compat; lra).
  unfold gpre in *. set (s := sqrt (RD ^ 2 + c ^ 2)) in *. assert (S : RD <= s) by (unfold s; rewrite <- (sqrt_pow2 RD) at 1 by lra; apply sqrt_le_1_alt; pose proof (pow2_ge_0 c); lra).
  destruct (Rle_dec s 350) as [L|L]; [rewrite Rmin_left by auto; assert (/ s ^ 2 <= / RD ^ 2); [|lra]; apply Rinv_le_contravar; [now apply pow_lt|]; apply pow_incr; lra|rewrite Rmin_right by lra; lra].
Qed.
Lemma C139_glicko_proof : forall r RD ro RDo c, 0 < RD -> 0 < RDo -> exists x d,
  (forall n, Nat.iter n (fun p => fst (glicko p (mkGlicko (Fin ro) (Fin RDo)) DRAW (mkGlickoConfig (Fin c)))) (mkGlicko (Fin r) (Fin RD)) = mkGlicko (Fin (x n)) (Fin (d n))) /\ settles x ro.
Proof.
  intros r RD ro RDo c HRD HO.
  set (f := fun p : R * R => (glicko_r (fst p) (gpre (snd p) c) [(ro, RDo, 1 / 2)], glicko_rd (fst p) (gpre (snd p) c) [(ro, RDo, 1 / 2)])).
  set (x := fun n => fst (Nat.iter n f (r, RD))). set (d := fun n => snd (Nat.iter n f (r, RD))). exists x, d.
  assert (XS : forall n, x (S n) = glicko_r (x n) (gpre (d n) c) [(ro, RDo, 1 / 2)]) by (intros n; unfold x at 1; rewrite iter_S; reflexivity).
  assert (DS : forall n, d (S n) = glicko_rd (x n) (gpre (d n) c) [(ro, RDo, 1 / 2)]) by (intros n; unfold d at 1; rewrite iter_S; reflexivity).
  assert (DP : forall n, 0 < d n). { induction n as [|n IH]; [exact HRD|]. rewrite DS. unfold glicko_rd. apply sqrt_lt_R0. destruct (glicko_one (x n) (gpre (d n) c) ro RDo (1 / 2) (gpre_pos _ c IH)) as ([P _] & _ & Q). unfold glicko_rd in Q.
    rewrite <- Q in P. destruct (Rlt_le_dec 0 (/ (/ gpre (d n) c ^ 2 + gd2inv (x n) [(ro, RDo, 1 / 2)]))) as [|L]; [auto|]. rewrite (sqrt_neg_0 _ L) in P. lra. }
  split. { induction n as [|n IH]; [reflexivity|]. rewrite iter_S, IH. rewrite C26_proof by auto. cbn [fst points]. now rewrite XS, DS. }
  pose proof gq_close as Q. pose proof (gg_range RDo) as G. set (c0 := gq * gg RDo). assert (C0 : 0 < c0 <= 0.00575751) by (unfold c0; split; [apply Rmult_lt_0_compat; lra|]; assert (gq * gg RDo <= 0.00575751 * 1) by (apply Rmult_le_compat; lra); lra).
  set (W := / 350 ^ 2 + c0 ^ 2 / 4). assert (C2 : 0 < c0 ^ 2 <= 0.00575751 ^ 2) by (split; [apply pow_lt; lra|apply pow_incr; lra]). assert (HW : 0 < W) by (unfold W; assert (0 < / 350 ^ 2) by (apply Rinv_0_lt_compat; lra); lra).
  set (y := fun n => d (S n) ^ 2).
  assert (STEP : forall n, y n = / (/ gpre (d n) c ^ 2 + c0 ^ 2 * (sg (c0 * (x n - ro)) * (1 - sg (c0 * (x n - ro))))) /\ x (S n) - ro = (x n - ro) - c0 * y n * (sg (c0 * (x n - ro)) - 1 / 2)).
  { intros n. destruct (glicko_one (x n) (gpre (d n) c) ro RDo (1 / 2) (gpre_pos _ c (DP n))) as (_ & E & E2). rewrite <- DS in E2. rewrite <- XS in E. rewrite gE_sg in E, E2. fold c0 in E, E2.
    assert (EQ : gq ^ 2 * (gg RDo ^ 2 * sg (c0 * (x n - ro)) * (1 - sg (c0 * (x n - ro)))) = c0 ^ 2 * (sg (c0 * (x n - ro)) * (1 - sg (c0 * (x n - ro))))) by (unfold c0; ring). rewrite EQ in E, E2. split; [exact E2|]. rewrite E. unfold y. rewrite E2. set (w := sg (c0 * (x n - ro))). set (Y := / (/ gpre (d n) c ^ 2 + c0 ^ 2 * (w * (1 - w)))). clearbody Y w. unfold c0. ring. }
  assert (YP : forall n, 0 < y n) by (intros n; apply pow_lt, DP).
  assert (V4 : forall n, 0 <= sg (c0 * (x n - ro)) * (1 - sg (c0 * (x n - ro))) <= / 4) by (intros n; pose proof (sg_range (c0 * (x n - ro))) as S; set (s := sg _) in *; pose proof (pow2_ge_0 (s - 1 / 2)); split; nra).
  assert (YW : forall n, / y (S n) <= / y n + W). { intros n. destruct (STEP (S n)) as [E _]. rewrite E, Rinv_inv. destruct (gpre_bounds (d (S n)) c (DP (S n))) as [_ B]. unfold y. specialize (V4 (S n)). unfold W. nra. }
  pose proof (harm_low y W HW YP YW) as LOW. assert (I0 : 0 < / y 0%nat) by (apply Rinv_0_lt_compat, YP).
  apply (settle x ro (/ y 0%nat / W) (fun e => c0 * / W * (sg (c0 * e) - 1 / 2))).
  - now apply Rdiv_lt_0_compat.
  - intros e He. assert (CE : 0 < c0 * e) by (apply Rmult_lt_0_compat; lra). pose proof (sg_slope _ CE). assert (0 < / W) by (now apply Rinv_0_lt_compat). apply Rmult_lt_0_compat; [apply Rmult_lt_0_compat; lra|lra].
  - intros n. destruct (STEP n) as [E1 E2]. specialize (YP n). destruct (sg_step (x n - ro) (c0 * y n) c0) as (t & Ht & E & B); [apply Rmult_lt_0_compat; lra|lra| |].
    + intros N. rewrite E1. destruct (gpre_bounds (d n) c (DP n)) as [GB _]. apply gl_ok; [lra|apply pow_lt; lra| |auto]. assert (gpre (d n) c ^ 2 <= 350 ^ 2) by (apply pow_incr; lra). assert (0 < gpre (d n) c ^ 2) by (apply pow_lt; lra). apply Rle_trans with (0.00575751 ^ 2 * 350 ^ 2); [apply Rmult_le_compat; lra|lra].
    + exists t. split; [auto|]. split; [rewrite E2; exact E|]. intros e He L. eapply Rle_trans; [|apply (B e He L)]. assert (CE : 0 < c0 * e) by (apply Rmult_lt_0_compat; lra). pose proof (sg_slope _ CE). specialize (LOW n).
      replace (c0 * / W * (sg (c0 * e) - 1 / 2) * / (/ y 0%nat / W + INR n)) with (c0 * (/ W * / (/ y 0%nat / W + INR n)) * (sg (c0 * e) - 1 / 2)) by ring. apply Rmult_le_compat_r; [lra|]. apply Rmult_le_compat_l; lra.
Qed.
Lemma C139_wl_proof : forall m s mo so beta kappa, 0 < s -> 0 < so -> 0 < kappa <= 1 -> exists x d,
  (forall n, Nat.iter n (fun p => fst (weng_lin p (mkWL (Fin mo) (Fin so)) DRAW (mkWLConfig (Fin beta) (Fin kappa)))) (mkWL (Fin m) (Fin s)) = mkWL (Fin (x n)) (Fin (d n))) /\ settles x mo.
Proof.
  intros m s mo so beta kappa Hs Ho Hk.
  set (cc := fun s => sqrt (s ^ 2 + so ^ 2 + 2 * beta ^ 2)).
  set (f := fun p : R * R => (fst p + snd p ^ 2 / cc (snd p) * (1 / 2 - / (1 + exp ((mo - fst p) / cc (snd p)))), snd p * sqrt (Rmax (1 - (snd p / cc (snd p)) ^ 3 * / (1 + exp ((mo - fst p) / cc (snd p))) * / (1 + exp ((fst p - mo) / cc (snd p)))) kappa))).
  set (x := fun n => fst (Nat.iter n f (m, s))). set (d := fun n => snd (Nat.iter n f (m, s))). exists x, d.
  assert (XS : forall n, x (S n) = x n + d n ^ 2 / cc (d n) * (1 / 2 - / (1 + exp ((mo - x n) / cc (d n))))) by (intros n; unfold x at 1; rewrite iter_S; reflexivity).
  assert (DS : forall n, d (S n) = d n * sqrt (Rmax (1 - (d n / cc (d n)) ^ 3 * / (1 + exp ((mo - x n) / cc (d n))) * / (1 + exp ((x n - mo) / cc (d n)))) kappa)) by (intros n; unfold d at 1; rewrite iter_S; reflexivity).
  assert (DP : forall n, 0 < d n). { induction n as [|n IH]; [exact Hs|]. rewrite DS. apply Rmult_lt_0_compat; [auto|]. apply sqrt_lt_R0. eapply Rlt_le_trans; [|apply Rmax_r]. lra. }
  split. { induction n as [|n IH]; [reflexivity|]. rewrite iter_S, IH. destruct (C42_proof (x n) (d n) mo so DRAW beta kappa (DP n) Ho Hk) as (a1 & b1 & a2 & b2 & -> & A1 & _ & B1 & _). cbn [fst]. rewrite A1, B1, XS, DS. reflexivity. }
  assert (CP : forall n, 0 < cc (d n) /\ d n <= cc (d n) /\ so <= cc (d n)).
  { intros n. specialize (DP n). pose proof (pow_lt _ 2 DP). pose proof (pow_lt _ 2 Ho). pose proof (pow2_ge_0 beta). unfold cc. split; [apply sqrt_lt_R0; lra|]. split; [rewrite <- (sqrt_pow2 (d n)) at 1 by lra|rewrite <- (sqrt_pow2 so) at 1 by lra]; apply sqrt_le_1_alt; lra. }
  set (E := fun n => sg (/ cc (d n) * (x n - mo))).
  assert (PE : forall n, / (1 + exp ((mo - x n) / cc (d n))) = E n) by (intros n; unfold E, sg; do 3 f_equal; unfold Rdiv; ring).
  assert (PE' : forall n, / (1 + exp ((x n - mo) / cc (d n))) = 1 - E n) by (intros n; unfold E; rewrite <- sg_odd; unfold sg; do 3 f_equal; unfold Rdiv; ring).
  assert (ER : forall n, 0 <= E n * (1 - E n) <= / 4) by (intros n; unfold E; pose proof (sg_range (/ cc (d n) * (x n - mo))) as S; set (w := sg _) in *; pose proof (pow2_ge_0 (w - 1 / 2)); split; nra).
  assert (Q1 : forall n, 0 < d n / cc (d n) <= 1). { intros n. destruct (CP n) as (A & B & _). split; [apply Rdiv_lt_0_compat; auto|]. apply Rmult_le_reg_r with (cc (d n)); [auto|]. replace (d n / cc (d n) * cc (d n)) with (d n) by (field; lra). lra. }
  set (eta := fun n => (d n / cc (d n)) ^ 3 * (E n * (1 - E n))).
  assert (D2 : forall n, d (S n) ^ 2 = d n ^ 2 * Rmax (1 - eta n) kappa).
  { intros n. rewrite DS, PE, PE', Rpow_mult_distr, pow2_sqrt; [unfold eta; do 3 f_equal; ring|]. eapply Rle_trans; [|apply Rmax_r]. lra. }
  assert (ET : forall n, 0 <= eta n <= / 4 /\ eta n <= d n ^ 2 / so ^ 2 / 4).
  { intros n. specialize (Q1 n). specialize (ER n). destruct (CP n) as (A & B & C). set (q := d n / cc (d n)) in *. assert (0 < q ^ 2 <= 1) by (split; [apply pow_lt; lra|replace 1 with (1 ^ 2) by lra; apply pow_incr; lra]). assert (q ^ 3 <= q ^ 2) by (replace (q ^ 3) with (q ^ 2 * q) by ring; nra). assert (0 < q ^ 3) by (apply pow_lt; lra).
    assert (q ^ 2 <= d n ^ 2 / so ^ 2). { unfold q. replace ((d n / cc (d n)) ^ 2) with (d n ^ 2 * / cc (d n) ^ 2) by (field; lra). unfold Rdiv. apply Rmult_le_compat_l; [apply pow2_ge_0|]. apply Rinv_le_contravar; [now apply pow_lt|]. apply pow_incr. lra. }
    unfold eta. fold q. split; [split; nra|nra]. }
  set (y := fun n => d n ^ 2). assert (YP : forall n, 0 < y n) by (intros n; apply pow_lt, DP).
  set (W := / so ^ 2). assert (S2 : 0 < so ^ 2) by (now apply pow_lt). assert (HW : 0 < W) by (now apply Rinv_0_lt_compat).
  assert (YW : forall n, / y (S n) <= / y n + W).
  { intros n. unfold y at 1. rewrite D2. fold (y n). specialize (ET n). specialize (YP n). assert (M : 3 / 4 <= Rmax (1 - eta n) kappa) by (eapply Rle_trans; [|apply Rmax_l]; lra). assert (M' : 1 - eta n <= Rmax (1 - eta n) kappa) by apply Rmax_l. set (mx := Rmax _ _) in *.
    replace (/ (y n * mx)) with (/ y n * / mx) by (field; lra). assert (IM : / mx <= 1 + 2 * eta n). { apply Rmult_le_reg_r with mx; [lra|]. rewrite Rinv_l by lra. nra. }
    apply Rle_trans with (/ y n * (1 + 2 * eta n)); [apply Rmult_le_compat_l; [left; now apply Rinv_0_lt_compat|auto]|]. assert (/ y n * eta n <= / y n * (y n / so ^ 2 / 4)) by (apply Rmult_le_compat_l; [left; now apply Rinv_0_lt_compat|unfold y; lra]). replace (/ y n * (y n / so ^ 2 / 4)) with (W / 4) in H by (unfold W; field; lra). lra. }
  pose proof (harm_low y W HW YP YW) as LOW. assert (I0 : 0 < / y 0%nat) by (apply Rinv_0_lt_compat, YP).
  assert (DM : forall n, d n <= s). { induction n as [|n IH]; [unfold d; cbn; lra|]. specialize (D2 n). specialize (ET n). assert (Rmax (1 - eta n) kappa <= 1) by (apply Rmax_lub; lra). pose proof (YP n) as Y. unfold y in Y. assert (d (S n) ^ 2 <= d n ^ 2) by (rewrite D2; nra). pose proof (DP n). pose proof (DP (S n)). nra. }
  set (cm := cc s). assert (CM : forall n, cc (d n) <= cm). { intros n. unfold cm, cc. apply sqrt_le_1_alt. assert (d n ^ 2 <= s ^ 2) by (apply pow_incr; split; [left; apply DP|apply DM]). lra. }
  assert (CM0 : 0 < cm) by (destruct (CP 0%nat) as (A & _); specialize (CM 0%nat); lra). assert (IC : 0 < / cm) by (now apply Rinv_0_lt_compat).
  apply (settle x mo (/ y 0%nat / W) (fun e => / cm * / W * (sg (/ cm * e) - 1 / 2))).
  - now apply Rdiv_lt_0_compat.
  - intros e He. assert (CE : 0 < / cm * e) by (apply Rmult_lt_0_compat; lra). pose proof (sg_slope _ CE). assert (0 < / W) by (now apply Rinv_0_lt_compat). apply Rmult_lt_0_compat; [apply Rmult_lt_0_compat; lra|lra].
  - intros n. destruct (CP n) as (A & B & _). assert (IA : 0 < / cc (d n)) by (now apply Rinv_0_lt_compat). assert (IL : / cm <= / cc (d n)) by (apply Rinv_le_contravar; auto). specialize (YP n).
    destruct (sg_step (x n - mo) (y n / cc (d n)) (/ cc (d n))) as (t & Ht & Et & Bt); [now apply Rdiv_lt_0_compat|auto| |].
    + intros N. apply slope_ok; [now apply Rdiv_lt_0_compat|auto| |auto]. replace (y n / cc (d n) * / cc (d n)) with ((d n / cc (d n)) ^ 2) by (unfold y; field; lra). specialize (Q1 n). assert ((d n / cc (d n)) ^ 2 <= 1 ^ 2) by (apply pow_incr; lra). lra.
    + exists t. split; [auto|]. split; [rewrite <- Et, XS, PE; unfold E, y; ring|]. intros e He L. eapply Rle_trans; [|apply (Bt e He L)]. assert (CE : 0 < / cm * e) by (apply Rmult_lt_0_compat; lra). pose proof (sg_slope _ CE). specialize (LOW n).
      assert (SM : sg (/ cm * e) <= sg (/ cc (d n) * e)). { assert (X : / cm * e <= / cc (d n) * e) by (apply Rmult_le_compat_r; lra). destruct X as [X| ->]; [left; now apply sg_mono|lra]. }
      pose proof (pos_INR n). assert (0 < / W) by (now apply Rinv_0_lt_compat). assert (BP : 0 < / y 0%nat / W) by (now apply Rdiv_lt_0_compat). assert (0 < / (/ y 0%nat / W + INR n)) by (apply Rinv_0_lt_compat; lra).
      replace (/ cm * / W * (sg (/ cm * e) - 1 / 2) * / (/ y 0%nat / W + INR n)) with (((/ W * / (/ y 0%nat / W + INR n)) * / cm) * (sg (/ cm * e) - 1 / 2)) by ring.
      apply Rmult_le_compat; [|lra| |lra]. * left. apply Rmult_lt_0_compat; [now apply Rmult_lt_0_compat|auto]. * unfold Rdiv. apply Rmult_le_compat; [left; now apply Rmult_lt_0_compat|lra|exact LOW|exact IL].
Qed.
