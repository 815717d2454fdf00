(** Proofs of C140: beating the same opponent again and again. *)
From Coq Require Import ZArith NArith List Bool Reals Lra Lia.
From Verif Require Import Arith XR Tac ModelLib ModelElo ModelGlicko ModelWengLin Spec
  ProofElo ProofGlicko ProofWengLin MathIval ProofOrder ProofOrder2 ProofBoost2 ProofLong ProofRematch ProofDraw ProofEvenly ProofEvenly2.
Import ListNotations.
Local Open Scope R_scope.

Lemma diverge (x : nat -> R) : (forall n, x n < x (S n)) -> (forall M, exists h B, 0 < h /\ 0 < B /\ forall n, x n <= M -> x n + h * / (B + INR n) <= x (S n)) -> forall M, exists N, forall n, (N <= n)%nat -> M < x n.
Proof.
  intros I H M. assert (MM : forall n m, (n <= m)%nat -> x n <= x m) by (intros n m L; induction L; [lra|]; pose proof (I m); lra).
  assert (X : exists N, M < x N).
  { destruct (H M) as (h & B & Hh & HB & D). destruct (ln_big B (ln B + Rabs (M - x 0%nat) / h) HB) as [n Hn]. exists n. destruct (Rlt_le_dec M (x n)) as [|L]; [auto|]. exfalso.
    assert (S : forall k, (k <= n)%nat -> x 0%nat + h * (ln (B + INR k) - ln B) <= x k).
    { induction k as [|k IH]; intros Lk; [cbn [INR]; rewrite Rplus_0_r; lra|]. specialize (IH ltac:(lia)). pose proof (MM k n ltac:(lia)). specialize (D k ltac:(lra)). pose proof (ln_harm B k HB). assert (h * (ln (B + INR (S k)) - ln (B + INR k)) <= h * / (B + INR k)) by (apply Rmult_le_compat_l; lra). lra. }
    specialize (S n (le_n n)). assert (Y : Rabs (M - x 0%nat) / h < ln (B + INR n) - ln B) by lra. apply (Rmult_lt_compat_l h) in Y; [|auto]. replace (h * (Rabs (M - x 0%nat) / h)) with (Rabs (M - x 0%nat)) in Y by (field; lra). pose proof (Rle_abs (M - x 0%nat)). lra. }
  destruct X as [N HN]. exists N. intros n Hn. pose proof (MM N n Hn). lra.
Qed.
Lemma exp4 : 4.07 * exp 4.07 <= 400.
Proof.
  assert (E : exp 4.07 <= 88); [|lra]. pose proof exp_le_3. pose proof (exp_pos 1). assert (exp 0.07 <= 1.08). { pose proof (exp_up 0.07 ltac:(lra)). lra. }
  replace 4.07 with (1 + 1 + 1 + 1 + 0.07) by lra. rewrite !exp_plus. pose proof (exp_pos 0.07). assert (exp 1 * exp 1 <= 9) by nra. assert (exp 1 * exp 1 * exp 1 <= 27) by nra. assert (exp 1 * exp 1 * exp 1 * exp 1 <= 81) by nra. nra.
Qed.
Lemma sg_compl y : 1 - sg y = / (1 + exp y).
Proof. unfold sg. rewrite exp_Ropp. pose proof (exp_pos y). field. split; lra. Qed.
(** One win along the logistic curve multiplies the odds by at most [exp (a / (1 + odds))]. *)
Lemma odds_step a y y' : 0 <= a <= 4.07 -> y' <= y + a * (1 - sg y) -> exp y' <= exp y + 400.
Proof.
  intros Ha H. rewrite sg_compl in H. set (f := exp y) in *. assert (F : 0 < f) by apply exp_pos. set (z := a * / (1 + f)) in *. assert (I : 0 < / (1 + f) <= 1) by (split; [apply Rinv_0_lt_compat; lra|rewrite <- Rinv_1 at 2; apply Rinv_le_contravar; lra]).
  assert (Z : 0 <= z <= 4.07) by (unfold z; split; nra). assert (FZ : f * z <= a). { unfold z. replace (f * (a * / (1 + f))) with (a * (1 - / (1 + f))) by (field; lra). nra. }
  apply Rle_trans with (exp (y + z)). { destruct H as [H| ->]; [left; now apply exp_increasing|lra]. } rewrite exp_plus. fold f. pose proof (exp_up z ltac:(lra)) as U. pose proof exp4.
  assert (EZ : exp z <= exp 4.07) by (destruct (Req_dec z 4.07) as [->|]; [lra|left; apply exp_increasing; lra]). pose proof (exp_pos z). assert (f * (z * exp z) <= 400). { replace (f * (z * exp z)) with (f * z * exp z) by ring. assert (0 <= f * z) by nra. apply Rle_trans with (4.07 * exp 4.07); [|auto]. apply Rmult_le_compat; lra. } nra.
Qed.
Lemma glicko_run r RD ro RDo c o : 0 < RD -> 0 < RDo -> exists x d y W, let c0 := gq * gg RDo in
  (forall n, Nat.iter n (fun p => fst (glicko p (mkGlicko (Fin ro) (Fin RDo)) o (mkGlickoConfig (Fin c)))) (mkGlicko (Fin r) (Fin RD)) = mkGlicko (Fin (x n)) (Fin (d n))) /\
  x 0%nat = r /\ 0 < W /\ (forall n, 0 < y n <= 350 ^ 2) /\ (forall n, / y (S n) <= / y n + W) /\ (forall n, x (S n) = x n + c0 * y n * (points o - sg (c0 * (x n - ro)))).
Proof.
  intros HRD HO.
  set (f := fun p : R * R => (glicko_r (fst p) (gpre (snd p) c) [(ro, RDo, points o)], glicko_rd (fst p) (gpre (snd p) c) [(ro, RDo, points o)])).
  set (x := fun n => fst (Nat.iter n f (r, RD))). set (d := fun n => snd (Nat.iter n f (r, RD))). set (c0 := gq * gg RDo). set (W := / 350 ^ 2 + c0 ^ 2 / 4). set (y := fun n => d (S n) ^ 2). exists x, d, y, W.
  assert (XS : forall n, x (S n) = glicko_r (x n) (gpre (d n) c) [(ro, RDo, points o)]) by (intros n; unfold x at 1; rewrite iter_S; reflexivity).
  assert (DS : forall n, d (S n) = glicko_rd (x n) (gpre (d n) c) [(ro, RDo, points o)]) by (intros n; unfold d at 1; rewrite iter_S; reflexivity).
  assert (DP : forall n, 0 < d n). { induction n as [|n IH]; [exact HRD|]. rewrite DS. unfold glicko_rd. apply sqrt_lt_R0. destruct (glicko_one (x n) (gpre (d n) c) ro RDo (points o) (gpre_pos _ c IH)) as ([P _] & _ & Q). unfold glicko_rd in Q.
    rewrite <- Q in P. destruct (Rlt_le_dec 0 (/ (/ gpre (d n) c ^ 2 + gd2inv (x n) [(ro, RDo, points o)]))) as [|L]; [auto|]. rewrite (sqrt_neg_0 _ L) in P. lra. }
  split. { induction n as [|n IH]; [reflexivity|]. rewrite iter_S, IH. rewrite C26_proof by auto. cbn [fst]. now rewrite XS, DS. }
  split; [reflexivity|]. pose proof gq_pos as Q. pose proof (gg_range RDo) as G. assert (C0 : 0 < c0) by (apply Rmult_lt_0_compat; lra). assert (C2 : 0 < c0 ^ 2) by (now apply pow_lt).
  split; [unfold W; assert (0 < / 350 ^ 2) by (apply Rinv_0_lt_compat; lra); lra|].
  assert (STEP : forall n, y n = / (/ gpre (d n) c ^ 2 + c0 ^ 2 * (sg (c0 * (x n - ro)) * (1 - sg (c0 * (x n - ro))))) /\ x (S n) = x n + c0 * y n * (points o - sg (c0 * (x n - ro))) /\ y n <= gpre (d n) c ^ 2).
  { intros n. destruct (glicko_one (x n) (gpre (d n) c) ro RDo (points o) (gpre_pos _ c (DP n))) as ([_ B] & E & E2). rewrite <- DS in E2. rewrite <- XS in E. rewrite gE_sg in B, E, E2. fold c0 in B, E, E2.
    assert (EQ : gq ^ 2 * (gg RDo ^ 2 * sg (c0 * (x n - ro)) * (1 - sg (c0 * (x n - ro)))) = c0 ^ 2 * (sg (c0 * (x n - ro)) * (1 - sg (c0 * (x n - ro))))) by (unfold c0; ring). rewrite EQ in B, E, E2. split; [exact E2|].
    unfold y. rewrite E2. split; [|exact B]. rewrite E. set (w := sg (c0 * (x n - ro))). set (Y := / (/ gpre (d n) c ^ 2 + c0 ^ 2 * (w * (1 - w)))). clearbody Y w. unfold c0. ring. }
  split. { intros n. split; [apply pow_lt, DP|]. destruct (STEP n) as (_ & _ & B). destruct (gpre_bounds (d n) c (DP n)) as [GB _]. assert (gpre (d n) c ^ 2 <= 350 ^ 2) by (apply pow_incr; lra). lra. }
  split; [|intros n; apply STEP]. intros n. destruct (STEP (S n)) as (E & _ & _). rewrite E, Rinv_inv. destruct (gpre_bounds (d (S n)) c (DP (S n))) as [_ B]. unfold y.
  assert (V4 : sg (c0 * (x (S n) - ro)) * (1 - sg (c0 * (x (S n) - ro))) <= / 4) by (set (w := sg _); pose proof (pow2_ge_0 (w - 1 / 2)); nra). unfold W. nra.
Qed.
Lemma C140_glicko_proof : forall r RD ro RDo c, 0 < RD -> 0 < RDo -> exists x d,
  (forall n, Nat.iter n (fun p => fst (glicko p (mkGlicko (Fin ro) (Fin RDo)) WIN (mkGlickoConfig (Fin c)))) (mkGlicko (Fin r) (Fin RD)) = mkGlicko (Fin (x n)) (Fin (d n))) /\
  (forall n, x n < x (S n)) /\ (forall M, exists N, forall n, (N <= n)%nat -> M < x n) /\
  (forall n, Rpower 10 (gg RDo * (x n - ro) / 400) <= Rpower 10 (gg RDo * (r - ro) / 400) + 400 * INR n).
Proof.
  intros r RD ro RDo c HRD HO. destruct (glicko_run r RD ro RDo c WIN HRD HO) as (x & d & y & W & IT & X0 & HW & YP & YW & XS). set (c0 := gq * gg RDo) in *. cbn [points] in XS.
  pose proof gq_close as Q. pose proof (gg_range RDo) as G. assert (C0 : 0 < c0 <= 0.00575751) by (unfold c0; split; [apply Rmult_lt_0_compat; lra|]; assert (gq * gg RDo <= 0.00575751 * 1) by (apply Rmult_le_compat; lra); lra).
  pose proof (harm_low y W HW (fun n => proj1 (YP n)) YW) as LOW. assert (I0 : 0 < / y 0%nat) by (apply Rinv_0_lt_compat, YP). assert (IW : 0 < / W) by (now apply Rinv_0_lt_compat).
  assert (UP : forall n, x n < x (S n)). { intros n. rewrite XS. pose proof (sg_range (c0 * (x n - ro))). destruct (YP n). assert (0 < c0 * y n) by (apply Rmult_lt_0_compat; lra). nra. }
  exists x, d. split; [exact IT|]. split; [exact UP|]. split.
  - apply (diverge x UP). intros M. pose proof (sg_range (c0 * (M - ro))) as SM. exists (c0 * / W * (1 - sg (c0 * (M - ro)))), (/ y 0%nat / W). split; [apply Rmult_lt_0_compat; [apply Rmult_lt_0_compat; lra|lra]|]. split; [now apply Rdiv_lt_0_compat|].
    intros n L. rewrite XS. apply Rplus_le_compat_l. specialize (LOW n). destruct (YP n) as [Y _]. pose proof (pos_INR n). assert (BP : 0 < / y 0%nat / W) by (now apply Rdiv_lt_0_compat). assert (0 < / (/ y 0%nat / W + INR n)) by (apply Rinv_0_lt_compat; lra).
    assert (SL : sg (c0 * (x n - ro)) <= sg (c0 * (M - ro))). { destruct L as [L| ->]; [|lra]. left. apply sg_mono. apply Rmult_lt_compat_l; lra. }
    replace (c0 * / W * (1 - sg (c0 * (M - ro))) * / (/ y 0%nat / W + INR n)) with (c0 * (/ W * / (/ y 0%nat / W + INR n)) * (1 - sg (c0 * (M - ro)))) by ring. apply Rmult_le_compat; [apply Rmult_le_pos; [lra|left; now apply Rmult_lt_0_compat]|lra|apply Rmult_le_compat_l; lra|lra].
  - assert (PW : forall z, Rpower 10 (gg RDo * (z - ro) / 400) = exp (c0 * (z - ro))) by (intros z; unfold Rpower, c0, gq; f_equal; field). intros n. rewrite !PW. induction n as [|n IH]; [rewrite X0; cbn; lra|]. rewrite S_INR.
    assert (exp (c0 * (x (S n) - ro)) <= exp (c0 * (x n - ro)) + 400); [|lra]. apply (odds_step (c0 ^ 2 * y n)).
    + destruct (YP n) as [Y1 Y2]. assert (C2 : 0 < c0 ^ 2 <= 0.00575751 ^ 2) by (split; [apply pow_lt; lra|apply pow_incr; lra]). split; [apply Rmult_le_pos; lra|]. apply Rle_trans with (0.00575751 ^ 2 * 350 ^ 2); [apply Rmult_le_compat; lra|lra].
    + right. rewrite XS. ring.
Qed.
Lemma odds_step1 a y y' : 0 <= a <= 1 -> y' <= y + a * (1 - sg y) -> exp y' <= exp y + 3.
Proof.
  intros Ha H. rewrite sg_compl in H. set (f := exp y) in *. assert (F : 0 < f) by apply exp_pos. set (z := a * / (1 + f)) in *. assert (I : 0 < / (1 + f) <= 1) by (split; [apply Rinv_0_lt_compat; lra|rewrite <- Rinv_1 at 2; apply Rinv_le_contravar; lra]).
  assert (Z : 0 <= z <= 1) by (unfold z; split; nra). assert (FZ : f * z <= a). { unfold z. replace (f * (a * / (1 + f))) with (a * (1 - / (1 + f))) by (field; lra). nra. }
  apply Rle_trans with (exp (y + z)). { destruct H as [H| ->]; [left; now apply exp_increasing|lra]. } rewrite exp_plus. fold f. pose proof (exp_up z ltac:(lra)) as U. pose proof exp_le_3.
  assert (EZ : exp z <= exp 1) by (destruct (Req_dec z 1) as [->|]; [lra|left; apply exp_increasing; lra]). pose proof (exp_pos z). assert (f * (z * exp z) <= 3). { replace (f * (z * exp z)) with (f * z * exp z) by ring. assert (0 <= f * z) by nra. apply Rle_trans with (1 * 3); [|lra]. apply Rmult_le_compat; lra. } nra.
Qed.
Lemma wl_run m s mo so o beta kappa : 0 < s -> 0 < so -> 0 < kappa <= 1 -> exists x d y c W, let cm := sqrt (s ^ 2 + so ^ 2 + 2 * beta ^ 2) in
  (forall n, Nat.iter n (fun p => fst (weng_lin p (mkWL (Fin mo) (Fin so)) o (mkWLConfig (Fin beta) (Fin kappa)))) (mkWL (Fin m) (Fin s)) = mkWL (Fin (x n)) (Fin (d n))) /\
  x 0%nat = m /\ 0 < W /\ (forall n, 0 < y n <= c n ^ 2) /\ (forall n, / y (S n) <= / y n + W) /\ (forall n, so <= c n <= cm) /\ (forall n, x (S n) = x n + y n / c n * (points o - sg (/ c n * (x n - mo)))).
Proof.
  intros Hs Ho Hk.
  set (cc := fun s => sqrt (s ^ 2 + so ^ 2 + 2 * beta ^ 2)).
  set (f := fun p : R * R => (fst p + snd p ^ 2 / cc (snd p) * (points o - / (1 + exp ((mo - fst p) / cc (snd p)))), snd p * sqrt (Rmax (1 - (snd p / cc (snd p)) ^ 3 * / (1 + exp ((mo - fst p) / cc (snd p))) * / (1 + exp ((fst p - mo) / cc (snd p)))) kappa))).
  set (x := fun n => fst (Nat.iter n f (m, s))). set (d := fun n => snd (Nat.iter n f (m, s))). set (y := fun n => d n ^ 2). set (W := / so ^ 2). exists x, d, y, (fun n => cc (d n)), W.
  assert (XS : forall n, x (S n) = x n + d n ^ 2 / cc (d n) * (points o - / (1 + exp ((mo - x n) / cc (d n))))) by (intros n; unfold x at 1; rewrite iter_S; reflexivity).
  assert (DS : forall n, d (S n) = d n * sqrt (Rmax (1 - (d n / cc (d n)) ^ 3 * / (1 + exp ((mo - x n) / cc (d n))) * / (1 + exp ((x n - mo) / cc (d n)))) kappa)) by (intros n; unfold d at 1; rewrite iter_S; reflexivity).
  assert (DP : forall n, 0 < d n). { induction n as [|n IH]; [exact Hs|]. rewrite DS. apply Rmult_lt_0_compat; [auto|]. apply sqrt_lt_R0. eapply Rlt_le_trans; [|apply Rmax_r]. lra. }
  split. { induction n as [|n IH]; [reflexivity|]. rewrite iter_S, IH. destruct (C42_proof (x n) (d n) mo so o beta kappa (DP n) Ho Hk) as (a1 & b1 & a2 & b2 & -> & A1 & _ & B1 & _). cbn [fst]. rewrite A1, B1, XS, DS. reflexivity. }
  assert (CP : forall n, 0 < cc (d n) /\ d n <= cc (d n) /\ so <= cc (d n)).
  { intros n. specialize (DP n). pose proof (pow_lt _ 2 DP). pose proof (pow_lt _ 2 Ho). pose proof (pow2_ge_0 beta). unfold cc. split; [apply sqrt_lt_R0; lra|]. split; [rewrite <- (sqrt_pow2 (d n)) at 1 by lra|rewrite <- (sqrt_pow2 so) at 1 by lra]; apply sqrt_le_1_alt; lra. }
  set (E := fun n => sg (/ cc (d n) * (x n - mo))).
  assert (PE : forall n, / (1 + exp ((mo - x n) / cc (d n))) = E n) by (intros n; unfold E, sg; do 3 f_equal; unfold Rdiv; ring).
  assert (PE' : forall n, / (1 + exp ((x n - mo) / cc (d n))) = 1 - E n) by (intros n; unfold E; rewrite <- sg_odd; unfold sg; do 3 f_equal; unfold Rdiv; ring).
  assert (ER : forall n, 0 <= E n * (1 - E n) <= / 4) by (intros n; unfold E; pose proof (sg_range (/ cc (d n) * (x n - mo))) as S; set (w := sg _) in *; pose proof (pow2_ge_0 (w - 1 / 2)); split; nra).
  assert (Q1 : forall n, 0 < d n / cc (d n) <= 1). { intros n. destruct (CP n) as (A & B & _). split; [apply Rdiv_lt_0_compat; auto|]. apply Rmult_le_reg_r with (cc (d n)); [auto|]. replace (d n / cc (d n) * cc (d n)) with (d n) by (field; lra). lra. }
  set (eta := fun n => (d n / cc (d n)) ^ 3 * (E n * (1 - E n))).
  assert (D2 : forall n, d (S n) ^ 2 = d n ^ 2 * Rmax (1 - eta n) kappa).
  { intros n. rewrite DS, PE, PE', Rpow_mult_distr, pow2_sqrt; [unfold eta; do 3 f_equal; ring|]. eapply Rle_trans; [|apply Rmax_r]. lra. }
  assert (ET : forall n, 0 <= eta n <= / 4 /\ eta n <= d n ^ 2 / so ^ 2 / 4).
  { intros n. specialize (Q1 n). specialize (ER n). destruct (CP n) as (A & B & C). set (q := d n / cc (d n)) in *. assert (0 < q ^ 2 <= 1) by (split; [apply pow_lt; lra|replace 1 with (1 ^ 2) by lra; apply pow_incr; lra]). assert (q ^ 3 <= q ^ 2) by (replace (q ^ 3) with (q ^ 2 * q) by ring; nra). assert (0 < q ^ 3) by (apply pow_lt; lra).
    assert (q ^ 2 <= d n ^ 2 / so ^ 2). { unfold q. replace ((d n / cc (d n)) ^ 2) with (d n ^ 2 * / cc (d n) ^ 2) by (field; lra). unfold Rdiv. apply Rmult_le_compat_l; [apply pow2_ge_0|]. apply Rinv_le_contravar; [now apply pow_lt|]. apply pow_incr. lra. }
    unfold eta. fold q. split; [split; nra|nra]. }
  assert (YP : forall n, 0 < y n) by (intros n; apply pow_lt, DP). assert (S2 : 0 < so ^ 2) by (now apply pow_lt). assert (HW : 0 < W) by (now apply Rinv_0_lt_compat).
  assert (DM : forall n, d n <= s). { induction n as [|n IH]; [unfold d; cbn; lra|]. specialize (D2 n). specialize (ET n). assert (Rmax (1 - eta n) kappa <= 1) by (apply Rmax_lub; lra). pose proof (YP n) as Y. unfold y in Y. assert (d (S n) ^ 2 <= d n ^ 2) by (rewrite D2; nra). pose proof (DP n). pose proof (DP (S n)). nra. }
  split; [reflexivity|]. split; [auto|]. split. { intros n. split; [auto|]. unfold y. destruct (CP n) as (A & B & _). apply pow_incr. split; [left; apply DP|auto]. }
  split; [|split].
  - intros n. unfold y at 1. rewrite D2. fold (y n). specialize (ET n). specialize (YP n). assert (M : 3 / 4 <= Rmax (1 - eta n) kappa) by (eapply Rle_trans; [|apply Rmax_l]; lra). assert (M' : 1 - eta n <= Rmax (1 - eta n) kappa) by apply Rmax_l. set (mx := Rmax _ _) in *.
    replace (/ (y n * mx)) with (/ y n * / mx) by (field; lra). assert (IM : / mx <= 1 + 2 * eta n). { apply Rmult_le_reg_r with mx; [lra|]. rewrite Rinv_l by lra. nra. }
    apply Rle_trans with (/ y n * (1 + 2 * eta n)); [apply Rmult_le_compat_l; [left; now apply Rinv_0_lt_compat|auto]|]. assert (/ y n * eta n <= / y n * (y n / so ^ 2 / 4)) by (apply Rmult_le_compat_l; [left; now apply Rinv_0_lt_compat|unfold y; lra]). replace (/ y n * (y n / so ^ 2 / 4)) with (W / 4) in H by (unfold W; field; lra). lra.
  - intros n. destruct (CP n) as (A & B & C). split; [auto|]. unfold cc. apply sqrt_le_1_alt. assert (d n ^ 2 <= s ^ 2) by (apply pow_incr; split; [left; apply DP|apply DM]). lra.
  - intros n. rewrite XS, PE. reflexivity.
Qed.
Lemma C140_wl_proof : forall m s mo so beta kappa, 0 < s -> 0 < so -> 0 < kappa <= 1 -> let c := sqrt (s ^ 2 + so ^ 2 + 2 * beta ^ 2) in exists x d,
  (forall n, Nat.iter n (fun p => fst (weng_lin p (mkWL (Fin mo) (Fin so)) WIN (mkWLConfig (Fin beta) (Fin kappa)))) (mkWL (Fin m) (Fin s)) = mkWL (Fin (x n)) (Fin (d n))) /\
  (forall n, x n < x (S n)) /\ (forall M, exists N, forall n, (N <= n)%nat -> M < x n) /\ (forall n, exp ((x n - mo) / c) <= exp ((m - mo) / c) + 3 * INR n).
Proof.
  intros m s mo so beta kappa Hs Ho Hk cm. destruct (wl_run m s mo so WIN beta kappa Hs Ho Hk) as (x & d & y & c & W & IT & X0 & HW & YP & YW & CB & XS). fold cm in CB. cbn [points] in XS.
  pose proof (harm_low y W HW (fun n => proj1 (YP n)) YW) as LOW. assert (I0 : 0 < / y 0%nat) by (apply Rinv_0_lt_compat, YP). assert (IW : 0 < / W) by (now apply Rinv_0_lt_compat).
  assert (C0 : forall n, 0 < / cm <= / c n /\ / c n <= / so) by (intros n; specialize (CB n); split; [split; [apply Rinv_0_lt_compat; lra|apply Rinv_le_contravar; lra]|apply Rinv_le_contravar; lra]).
  assert (UP : forall n, x n < x (S n)). { intros n. rewrite XS. pose proof (sg_range (/ c n * (x n - mo))). destruct (YP n). specialize (CB n). assert (0 < y n / c n) by (apply Rdiv_lt_0_compat; lra). nra. }
  exists x, d. split; [exact IT|]. split; [exact UP|]. split.
  - apply (diverge x UP). intros M. set (q := Rmax 0 (M - mo) * / so). pose proof (sg_range q) as SM. destruct (C0 0%nat) as [C00 _]. exists (/ cm * / W * (1 - sg q)), (/ y 0%nat / W). split; [apply Rmult_lt_0_compat; [apply Rmult_lt_0_compat; lra|lra]|]. split; [now apply Rdiv_lt_0_compat|].
    intros n L. rewrite XS. apply Rplus_le_compat_l. specialize (LOW n). destruct (YP n) as [Y _]. pose proof (pos_INR n). assert (BP : 0 < / y 0%nat / W) by (now apply Rdiv_lt_0_compat). assert (0 < / (/ y 0%nat / W + INR n)) by (apply Rinv_0_lt_compat; lra). destruct (C0 n) as [C1 C2].
    assert (SL : sg (/ c n * (x n - mo)) <= sg q). { assert (Z : / c n * (x n - mo) <= q). { unfold q. rewrite Rmult_comm. pose proof (Rmax_l 0 (M - mo)). pose proof (Rmax_r 0 (M - mo)). apply Rle_trans with (Rmax 0 (M - mo) * / c n); [apply Rmult_le_compat_r; lra|apply Rmult_le_compat_l; lra]. } destruct Z as [Z| ->]; [left; now apply sg_mono|lra]. }
    replace (/ cm * / W * (1 - sg q) * / (/ y 0%nat / W + INR n)) with ((/ W * / (/ y 0%nat / W + INR n)) * / cm * (1 - sg q)) by ring. unfold Rdiv. apply Rmult_le_compat; [apply Rmult_le_pos; [left; now apply Rmult_lt_0_compat|lra]|lra|apply Rmult_le_compat; [left; now apply Rmult_lt_0_compat|lra|exact LOW|lra]|lra].
  - intros n. induction n as [|n IH]; [rewrite X0; cbn; lra|]. rewrite S_INR. assert (exp ((x (S n) - mo) / cm) <= exp ((x n - mo) / cm) + 3); [|lra]. destruct (YP n) as [Y1 Y2]. destruct (C0 n) as [C1 C2]. specialize (CB n). set (a := y n / c n * / cm).
    assert (YC : y n / c n <= c n). { apply Rmult_le_reg_r with (c n); [lra|]. replace (y n / c n * c n) with (y n) by (field; lra). nra. } assert (Y3 : 0 < y n / c n) by (apply Rdiv_lt_0_compat; lra).
    assert (A : 0 < a <= 1). { unfold a. split; [apply Rmult_lt_0_compat; lra|]. apply Rmult_le_reg_r with cm; [lra|]. rewrite Rmult_assoc, Rinv_l by lra. lra. }
    pose proof (sg_range (/ c n * (x n - mo))) as SR. assert (E : (x (S n) - mo) / cm = (x n - mo) / cm + a * (1 - sg (/ c n * (x n - mo)))) by (rewrite XS; unfold a; field; lra).
    destruct (Rlt_le_dec (x n) mo) as [L|L].
    + assert (NEG : (x n - mo) / cm < 0) by (unfold Rdiv; nra). assert (EN : exp ((x n - mo) / cm) < 1) by (rewrite <- exp_0; now apply exp_increasing). assert (exp ((x (S n) - mo) / cm) < exp 1) by (apply exp_increasing; rewrite E; nra). pose proof exp_le_3. pose proof (exp_pos ((x n - mo) / cm)). lra.
    + apply (odds_step1 a); [lra|]. rewrite E. apply Rplus_le_compat_l. apply Rmult_le_compat_l; [lra|]. assert (Z : (x n - mo) / cm <= / c n * (x n - mo)) by (unfold Rdiv; rewrite Rmult_comm; apply Rmult_le_compat_r; lra).
      assert (sg ((x n - mo) / cm) <= sg (/ c n * (x n - mo))) by (destruct Z as [Z| <-]; [left; now apply sg_mono|lra]). lra.
Qed.
