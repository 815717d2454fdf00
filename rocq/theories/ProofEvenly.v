(** Proofs of C139: what happens when two players of the same systems keep drawing. *)
From Coq Require Import ZArith NArith List Bool Reals Lra Lia.
From Verif Require Import Arith XR Tac ModelLib ModelElo ModelIngo ModelUscf ModelGlicko ModelWengLin Spec SpecSettle
  ProofElo ProofIngo ProofUscf ProofGlicko ProofWengLin MathIval ProofOrder ProofOrder2 ProofBoost2 ProofLong ProofRematch ProofDraw.
Import ListNotations.
Local Open Scope R_scope.

Lemma iter_S {A} n (f : A -> A) a : Nat.iter (S n) f a = f (Nat.iter n f a).
Proof. reflexivity. Qed.
Lemma ln_harm B n : 0 < B -> ln (B + INR (S n)) - ln (B + INR n) <= / (B + INR n).
Proof.
  intros HB. pose proof (pos_INR n) as P. rewrite S_INR. assert (0 < / (B + INR n)) by (apply Rinv_0_lt_compat; lra).
  replace (B + (INR n + 1)) with ((B + INR n) * (1 + / (B + INR n))) by (field; lra). rewrite ln_mult by lra.
  assert (ln (1 + / (B + INR n)) < / (B + INR n)); [|lra]. rewrite <- (ln_exp (/ (B + INR n))) at 2. apply ln_increasing; [lra|]. apply exp_ineq1. lra.
Qed.
Lemma ln_big B M : 0 < B -> exists n, M < ln (B + INR n).
Proof. intros HB. destruct (INR_big (exp M)) as [n Hn]. exists n. rewrite <- (ln_exp M) at 1. apply ln_increasing; [apply exp_pos|]. lra. Qed.
Lemma settle_cv (x : nat -> R) l B (h : R -> R) : 0 < B -> (forall e, 0 < e -> 0 < h e) ->
  (forall n, exists t, 0 < t <= 1 /\ x (S n) - l = (1 - t) * (x n - l) /\ forall e, 0 < e -> e <= Rabs (x n - l) -> h e * / (B + INR n) <= t * Rabs (x n - l)) -> Un_cv x l.
Proof.
  intros HB Hh H.
  assert (M : forall n, Rabs (x (S n) - l) <= Rabs (x n - l)). { intros n. destruct (H n) as (t & Ht & E & _). rewrite E, Rabs_mult, (Rabs_pos_eq (1 - t)) by lra. pose proof (Rabs_pos (x n - l)). nra. }
  assert (MM : forall n m, (n <= m)%nat -> Rabs (x m - l) <= Rabs (x n - l)) by (intros n m L; induction L; [lra|]; pose proof (M m); lra).
  intros e He. assert (X : exists n, Rabs (x n - l) < e).
  { destruct (ln_big B (ln B + Rabs (x 0%nat - l) / h e) HB) as [n Hn]. destruct (Rlt_le_dec (Rabs (x n - l)) e) as [|L]; [eauto|]. exfalso.
    assert (S : forall k, (k <= n)%nat -> Rabs (x k - l) <= Rabs (x 0%nat - l) - h e * (ln (B + INR k) - ln B)).
    { induction k as [|k IH]; intros Lk; [cbn [INR]; rewrite Rplus_0_r; lra|]. specialize (IH ltac:(lia)). destruct (H k) as (t & Ht & E & D). specialize (D e He). pose proof (MM k n ltac:(lia)). specialize (D ltac:(lra)).
      rewrite E, Rabs_mult, (Rabs_pos_eq (1 - t)) by lra. pose proof (ln_harm B k HB). specialize (Hh e He). assert (h e * (ln (B + INR (S k)) - ln (B + INR k)) <= h e * / (B + INR k)) by (apply Rmult_le_compat_l; lra). lra. }
    specialize (S n (le_n n)). pose proof (Rabs_pos (x n - l)). specialize (Hh e He). assert (Rabs (x 0%nat - l) / h e < ln (B + INR n) - ln B) by lra. apply (Rmult_lt_compat_l (h e)) in H1; [|auto]. replace (h e * (Rabs (x 0%nat - l) / h e)) with (Rabs (x 0%nat - l)) in H1 by (field; lra). lra. }
  destruct X as [N HN]. exists N. intros n Hn. unfold R_dist. pose proof (MM N n Hn). lra.
Qed.
Lemma settle (x : nat -> R) l B (h : R -> R) : 0 < B -> (forall e, 0 < e -> 0 < h e) ->
  (forall n, exists t, 0 < t < 1 /\ x (S n) - l = (1 - t) * (x n - l) /\ forall e, 0 < e -> e <= Rabs (x n - l) -> h e * / (B + INR n) <= t * Rabs (x n - l)) -> settles x l.
Proof.
  intros HB Hh H. split; [|split; [|split]].
  - apply (settle_cv x l B h HB Hh). intros n. destruct (H n) as (t & Ht & R). exists t. split; [lra|auto].
  - intros H0. assert (A : forall n, x n < l) by (induction n as [|n IH]; [auto|]; destruct (H n) as (t & Ht & E & _); nra). intros n. split; [|apply A]. destruct (H n) as (t & Ht & E & _). specialize (A n). nra.
  - intros H0. assert (A : forall n, l < x n) by (induction n as [|n IH]; [auto|]; destruct (H n) as (t & Ht & E & _); nra). intros n. split; [apply A|]. destruct (H n) as (t & Ht & E & _). specialize (A n). nra.
  - intros H0. induction n as [|n IH]; [auto|]. destruct (H n) as (t & Ht & E & _). rewrite IH in E. lra.
Qed.
(** A step along the logistic curve. *)
Lemma sg_step d k c : 0 < k -> 0 < c -> (d <> 0 -> k * (sg (c * Rabs d) - 1 / 2) < Rabs d) ->
  exists t, 0 < t < 1 /\ d - k * (sg (c * d) - 1 / 2) = (1 - t) * d /\ forall e, 0 < e -> e <= Rabs d -> k * (sg (c * e) - 1 / 2) <= t * Rabs d.
Proof.
  intros Hk Hc H. destruct (Req_dec d 0) as [->|N].
  - exists (1 / 2). split; [lra|]. split; [rewrite Rmult_0_r, sg_0; lra|]. intros e He L. rewrite Rabs_R0 in L. lra.
  - specialize (H N). assert (A : 0 < Rabs d) by (now apply Rabs_pos_lt). assert (CA : 0 < c * Rabs d) by (now apply Rmult_lt_0_compat). pose proof (sg_slope _ CA) as [S0 _].
    set (g := k * (sg (c * Rabs d) - 1 / 2)) in *. assert (G : 0 < g) by (apply Rmult_lt_0_compat; lra). exists (g / Rabs d). assert (GE : g = k * (sg (c * Rabs d) - 1 / 2)) by reflexivity. clearbody g.
    assert (TA : g / Rabs d * Rabs d = g) by (field; lra). split; [split; [now apply Rdiv_lt_0_compat|apply Rmult_lt_reg_r with (Rabs d); lra]|]. split.
    + destruct (Rlt_le_dec d 0) as [L|L].
      * rewrite Rabs_left in * by auto. assert (E : sg (c * d) - 1 / 2 = - (sg (c * - d) - 1 / 2)) by (replace (c * d) with (- (c * - d)) by ring; rewrite sg_odd; lra). rewrite E. replace (d - k * - (sg (c * - d) - 1 / 2)) with (d + g) by (rewrite GE; ring). field. lra.
      * rewrite Rabs_pos_eq in * by auto. rewrite <- GE. field. lra.
    + intros e He L. rewrite TA, GE. apply Rmult_le_compat_l; [lra|]. destruct L as [L|L]; [|rewrite L; lra]. pose proof (sg_mono (c * e) (c * Rabs d)). assert (c * e < c * Rabs d) by (now apply Rmult_lt_compat_l). lra.
Qed.
Lemma slope_ok d k c : 0 < k -> 0 < c -> k * c <= 4 -> d <> 0 -> k * (sg (c * Rabs d) - 1 / 2) < Rabs d.
Proof.
  intros Hk Hc H N. assert (A : 0 < Rabs d) by (now apply Rabs_pos_lt). assert (CA : 0 < c * Rabs d) by (now apply Rmult_lt_0_compat). pose proof (sg_slope _ CA) as [_ S].
  apply Rlt_le_trans with (k * (c * Rabs d / 4)); [now apply Rmult_lt_compat_l|]. replace (k * (c * Rabs d / 4)) with (k * c * (Rabs d / 4)) by field. assert (k * c * (Rabs d / 4) <= 4 * (Rabs d / 4)) by (apply Rmult_le_compat_r; lra). lra.
Qed.
(** 1/y_n grows at most linearly. *)
Lemma harm_low (y : nat -> R) W : 0 < W -> (forall n, 0 < y n) -> (forall n, / y (S n) <= / y n + W) -> forall n, / W * / (/ y 0%nat / W + INR n) <= y n.
Proof.
  intros HW P H n. assert (A : / y n <= / y 0%nat + INR n * W). { induction n as [|n IH]; [cbn; lra|]. specialize (H n). rewrite S_INR. lra. }
  assert (I0 : 0 < / y 0%nat) by (apply Rinv_0_lt_compat, P). assert (In : 0 < / y n) by (apply Rinv_0_lt_compat, P). pose proof (pos_INR n). pose proof (P n). pose proof (P 0%nat).
  assert (0 < / W) by (now apply Rinv_0_lt_compat). rewrite <- (Rinv_inv (y n)), <- Rinv_mult. apply Rinv_le_contravar; [auto|]. replace (W * (/ y 0%nat / W + INR n)) with (/ y 0%nat + INR n * W) by (field; split; lra). auto.
Qed.
Lemma C139_ingo_proof : forall r a ro ao o, let D := ingo_D a in let l := ro - (100 * points o - 50) in let x n := l + (r - l) * (D / (D + 1)) ^ n in
  (forall n, Nat.iter n (fun p => fst (ingo p (mkIngo (Fin ro) ao) o)) (mkIngo (Fin r) a) = mkIngo (Fin (x n)) a) /\ settles x l.
Proof.
  intros r a ro ao o D l x. assert (HD : 10 <= D <= 20) by (unfold D; pose proof (ingo_D_range a); lra).
  assert (S : forall n, x (S n) = ingo_upd 1 (x n) D ro (points o)) by (intros n; unfold x, ingo_upd, ingo_perf; cbn [pow]; fold l; field; lra). split.
  - induction n as [|n IH]; [cbn; unfold x; cbn; do 2 f_equal; ring|]. rewrite iter_S. rewrite IH. destruct (C23_proof (x n) a ro ao o) as (-> & _). cbn [fst]. fold D. now rewrite S.
  - assert (I : 0 < / (D + 1) <= / 11) by (split; [apply Rinv_0_lt_compat; lra|apply Rinv_le_contravar; lra]).
    apply (settle x l 1 (fun e => e * / (D + 1))); [lra|intros; apply Rmult_lt_0_compat; lra|]. intros n. exists (/ (D + 1)). split; [lra|]. split; [rewrite S; unfold ingo_upd, ingo_perf; fold l; field; lra|].
    intros e He L. pose proof (pos_INR n). assert (J : / (1 + INR n) <= 1) by (rewrite <- Rinv_1 at 2; apply Rinv_le_contravar; lra). assert (0 < e * / (D + 1)) by (apply Rmult_lt_0_compat; lra).
    apply Rle_trans with (e * / (D + 1) * 1); [apply Rmult_le_compat_l; lra|]. rewrite Rmult_1_r, Rmult_comm. apply Rmult_le_compat_l; lra.
Qed.
Lemma uscf_Ne_low r n : 100 <= r -> 9 <= n -> 1 <= uscf_Ne r n <= 50.
Proof.
  intros Hr Hn. unfold uscf_Ne. destruct (Rlt_dec r 2355) as [L|L].
  - assert (Q : 0 < 0.662 + 0.00000739 * (2569 - r) ^ 2 <= 10 ^ 2). { assert (0 <= (2569 - r) ^ 2 <= 2469 ^ 2) by (split; [apply pow2_ge_0|apply pow_incr; lra]). lra. }
    assert (S : sqrt (0.662 + 0.00000739 * (2569 - r) ^ 2) <= 10) by (rewrite <- (sqrt_pow2 10) by lra; apply sqrt_le_1_alt; lra). assert (S0 : 0 < sqrt (0.662 + 0.00000739 * (2569 - r) ^ 2)) by (apply sqrt_lt_R0; lra).
    assert (/ 10 <= / sqrt (0.662 + 0.00000739 * (2569 - r) ^ 2)) by (apply Rinv_le_contravar; lra).
    split; [repeat apply Rmin_glb; try lra; unfold Rdiv; lra|]. eapply Rle_trans; [apply Rmin_l|apply Rmin_r].
  - split; [apply Rmin_glb; lra|apply Rmin_r].
Qed.
Definition uscf_h (e : R) : R := Rmin (e / 9) (800 / 51 * (sg (ln 10 / 400 * e) - 1 / 2)).
Lemma uscf_t r n ro t : 100 <= r -> 100 <= ro -> exists s, 0 < s <= 1 /\
  Rmax 100 (if (n <=? 8)%N then uscf_prov (IZR (Z.of_N n)) r 1 ro 0 0 else uscf_upd r (IZR (Z.of_N n)) 1 (1 / 2) (elo_E r ro) t) - ro = (1 - s) * (r - ro) /\ forall e, 0 < e -> e <= Rabs (r - ro) -> uscf_h e <= s * Rabs (r - ro).
Proof.
  intros Hr Ho. pose proof ln10_close as L10.
  assert (M : forall s y, 0 < s <= 1 -> y - ro = (1 - s) * (r - ro) -> Rmax 100 y = y) by (intros s y Hs E; apply Rmax_right; nra).
  destruct (n <=? 8)%N eqn:EN.
  - apply N.leb_le in EN. set (k := IZR (Z.of_N n)). assert (K : 0 <= k <= 8) by (unfold k; split; apply IZR_le; lia). unfold uscf_prov. assert (I : / 9 <= / (k + 1) <= 1) by (split; [apply Rinv_le_contravar; lra|rewrite <- Rinv_1 at 2; apply Rinv_le_contravar; lra]).
    assert (E : (k * r + 1 * ro + 400 * (0 - 0)) / (k + 1) - ro = (1 - / (k + 1)) * (r - ro)) by (field; lra). exists (/ (k + 1)). split; [lra|]. rewrite (M (/ (k + 1)) _ ltac:(lra) E). split; [auto|].
    intros e He L. eapply Rle_trans; [apply Rmin_l|]. unfold Rdiv. rewrite Rmult_comm. apply Rmult_le_compat; lra.
  - apply N.leb_gt in EN. set (k := IZR (Z.of_N n)). assert (K : 9 <= k) by (unfold k; apply IZR_le; lia). unfold uscf_upd, uscf_bonus. cbn [Nat.ltb Nat.leb INR]. destruct (uscf_Ne_low r k Hr K) as [N1 N2].
    set (KK := uscf_K r k 1). assert (KB : 800 / 51 <= KK <= 400) by (unfold KK, uscf_K, Rdiv; split; [apply Rmult_le_compat_l; [lra|]; apply Rinv_le_contravar; lra|]; assert (/ (uscf_Ne r k + 1) <= / 2) by (apply Rinv_le_contravar; lra); lra).
    set (c := ln 10 / 400). assert (C0 : 0 < c <= 0.00576) by (unfold c; lra).
    destruct (sg_step (r - ro) KK c ltac:(lra) ltac:(lra)) as (s & Hs & E & B). { intros N. apply slope_ok; [lra|lra| |auto]. assert (KK * c <= 400 * 0.00576) by (apply Rmult_le_compat; lra). lra. }
    assert (E' : r + KK * (1 / 2 - elo_E r ro) + 0 - ro = (1 - s) * (r - ro)). { rewrite <- E, elo_E_sg. replace ((r - ro) * ln 10 / 400) with (c * (r - ro)) by (unfold c; field). ring. }
    exists s. split; [lra|]. rewrite (M s _ ltac:(lra) E'). split; [auto|]. intros e He L. eapply Rle_trans; [apply Rmin_r|]. eapply Rle_trans; [|apply (B e He L)]. fold c.
    assert (CE : 0 < c * e) by (apply Rmult_lt_0_compat; lra). pose proof (sg_slope _ CE). apply Rmult_le_compat_r; lra.
Qed.
Lemma C139_uscf_proof : forall r n ro no t, 100 <= r -> 100 <= ro -> exists x m,
  (forall k, Nat.iter k (fun p => fst (uscf p (mkUscf (Fin ro) no) DRAW (mkUscfConfig (Fin t)))) (mkUscf (Fin r) n) = mkUscf (Fin (x k)) (m k)) /\
  Un_cv x ro /\ (r <= ro -> forall k, x k <= x (S k) <= ro) /\ (ro <= r -> forall k, ro <= x (S k) <= x k).
Proof.
  intros r n ro no t Hr Ho.
  set (f := fun p : R * N => (Rmax 100 (if (snd p <=? 8)%N then uscf_prov (IZR (Z.of_N (snd p))) (fst p) 1 ro 0 0 else uscf_upd (fst p) (IZR (Z.of_N (snd p))) 1 (1 / 2) (elo_E (fst p) ro) t), ((snd p + 1) mod 2 ^ 64)%N)).
  set (x := fun k => fst (Nat.iter k f (r, n))). exists x, (fun k => snd (Nat.iter k f (r, n))).
  assert (X0 : x 0%nat = r) by reflexivity. assert (XL : forall k, 100 <= x k) by (intros [|k]; [auto|]; unfold x; rewrite iter_S; unfold f at 1; cbn [fst]; apply Rmax_l).
  assert (T : forall k, exists s, 0 < s <= 1 /\ x (S k) - ro = (1 - s) * (x k - ro) /\ forall e, 0 < e -> e <= Rabs (x k - ro) -> uscf_h e <= s * Rabs (x k - ro)).
  { intros k. unfold x at 1. rewrite iter_S. unfold f at 1. cbn [fst]. fold (x k). exact (uscf_t (x k) _ ro t (XL k) Ho). }
  split; [|split; [|split]].
  - induction k as [|k IH]; [reflexivity|]. rewrite iter_S. rewrite IH. rewrite C10_proof. cbn [fst points]. unfold x at 1. rewrite iter_S. reflexivity.
  - apply (settle_cv x ro 1 uscf_h); [lra| |].
    + intros e He. pose proof ln10_close. assert (CE : 0 < ln 10 / 400 * e) by (apply Rmult_lt_0_compat; lra). pose proof (sg_slope _ CE). unfold uscf_h. apply Rmin_glb_lt; lra.
    + intros k. destruct (T k) as (s & Hs & E & B). exists s. split; [auto|]. split; [auto|]. intros e He L. specialize (B e He L). pose proof (pos_INR k). assert (J : / (1 + INR k) <= 1) by (rewrite <- Rinv_1 at 2; apply Rinv_le_contravar; lra). assert (0 < / (1 + INR k)) by (apply Rinv_0_lt_compat; lra).
      assert (0 < uscf_h e) by (pose proof ln10_close; assert (CE : 0 < ln 10 / 400 * e) by (apply Rmult_lt_0_compat; lra); pose proof (sg_slope _ CE); unfold uscf_h; apply Rmin_glb_lt; lra). nra.
  - intros H0. assert (A : forall k, x k <= ro) by (induction k as [|k IH]; [lra|]; destruct (T k) as (s & Hs & E & _); nra). intros k. split; [|apply A]. destruct (T k) as (s & Hs & E & _). specialize (A k). nra.
  - intros H0. assert (A : forall k, ro <= x k) by (induction k as [|k IH]; [lra|]; destruct (T k) as (s & Hs & E & _); nra). intros k. split; [apply A|]. destruct (T k) as (s & Hs & E & _). specialize (A k). nra.
Qed.
