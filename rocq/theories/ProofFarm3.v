(** Proofs of C140 for Glicko-2: beating the same opponent again and again. *)
From Coq Require Import ZArith NArith List Bool Reals Lra Lia ConstructiveEpsilon.
From Verif Require Import Arith XR Tac ModelLib ModelGlicko2 Spec
  ProofGlicko2 ProofOrder2 ProofLong ProofRematch ProofEvenly ProofFarm.
Import ListNotations.
Local Open Scope R_scope.

Lemma g2E_sg mu muj h : g2E mu muj h = sg (g2g h * (mu - muj)).
Proof. unfold g2E, sg. do 3 f_equal. ring. Qed.
Lemma C140_glicko2_proof : forall r RD s ro RDo so t tol (p : nat -> Glicko2Rating XR), 0 < RD -> 0 < s -> 0 < so -> 0 < t -> 0 <= tol ->
  p 0%nat = mkGlicko2 (Fin r) (Fin RD) (Fin s) ->
  (forall n, exists fuel q, glicko2 fuel (p n) (mkGlicko2 (Fin ro) (Fin RDo) (Fin so)) WIN (mkGlicko2Config (Fin t) (Fin tol)) = Some (p (S n), q)) ->
  exists x, (forall n, g2_rating (p n) = Fin (x n)) /\ (forall n, x n < x (S n)) /\ (forall M, exists N, forall n, (N <= n)%nat -> M < x n).
Proof.
  intros r RD s ro RDo so t tol p HRD Hs Ho Ht Htol P0 PS.
  set (re := fun z : XR => match z with Fin a => a | _ => 0 end). set (x := fun n => re (g2_rating (p n))). set (d := fun n => re (g2_deviation (p n))). set (v := fun n => re (g2_volatility (p n))).
  assert (V : forall n, p n = mkGlicko2 (Fin (x n)) (Fin (d n)) (Fin (v n)) /\ 0 < d n /\ 0 < v n).
  { induction n as [|n (E & D & U)]; [unfold x, d, v; rewrite P0; auto|]. destruct (PS n) as (fuel & q & G). rewrite E in G.
    destruct (C39_proof _ _ _ _ _ _ _ _ _ _ _ _ U Ho Ht Htol G) as (u1 & u2 & E1 & _ & [U1 _] & _ & D1 & _). unfold x, d, v. rewrite E1. cbn [g2_rating g2_deviation g2_volatility re]. auto. }
  set (c0 := g2g (g2phi RDo)). assert (C0 : 0 < c0 <= 1) by apply g2g_range. set (y := fun n => g2phi (d (S n)) ^ 2). pose proof g2s_pos as S0.
  assert (ST : forall n, x n < x (S n) /\ g2mu (x (S n)) = g2mu (x n) + y n * (c0 * (1 - sg (c0 * (g2mu (x n) - g2mu ro)))) /\ / y n <= / g2phi (d n) ^ 2 + 1 / 4).
  { intros n. destruct (V n) as (E & D & U). destruct (PS n) as (fuel & q & G). rewrite E in G.
    destruct (C39_proof _ _ _ _ _ _ _ _ _ _ _ _ U Ho Ht Htol G) as (u1 & u2 & E1 & _ & [U1 _] & _ & D1 & _ & W & _). destruct (W eq_refl) as [W1 _]. cbn [points] in *.
    assert (XE : x (S n) = g2_new_r (x n) (d n) u1 [(g2mu ro, g2phi RDo, 1)]) by (unfold x at 1; rewrite E1; reflexivity).
    assert (DE : d (S n) = g2_new_rd (x n) (d n) u1 [(g2mu ro, g2phi RDo, 1)]) by (unfold d at 1; rewrite E1; reflexivity).
    split; [rewrite XE; exact W1|]. destruct (g2_one (x n) (d n) u1 (g2mu ro) (g2phi RDo) 1 U1) as (A & B). rewrite <- XE in A. rewrite <- DE in B. fold (y n) in B. rewrite <- B in A. rewrite g2E_sg in A, B. fold c0 in A, B.
    split; [rewrite A; ring|]. rewrite B, Rinv_inv. assert (Q : 0 < g2phi (d n) ^ 2) by (apply pow_lt; unfold g2phi; apply Rdiv_lt_0_compat; lra).
    assert (/ (g2phi (d n) ^ 2 + u1 ^ 2) <= / g2phi (d n) ^ 2) by (apply Rinv_le_contravar; [auto|pose proof (pow2_ge_0 u1); lra]). pose proof (sg_range (c0 * (g2mu (x n) - g2mu ro))) as SR. set (w := sg _) in *.
    assert (w * (1 - w) <= 1 / 4) by (pose proof (pow2_ge_0 (w - 1 / 2)); nra). assert (c0 ^ 2 <= 1) by (rewrite <- (pow1 2); apply pow_incr; lra). assert (0 <= c0 ^ 2) by apply pow2_ge_0. assert (0 < w * (1 - w)) by (apply Rmult_lt_0_compat; lra).
    assert (c0 ^ 2 * (w * (1 - w)) <= 1 * (1 / 4)) by (apply Rmult_le_compat; lra). lra. }
  exists x. split; [intros n; destruct (V n) as (E & _); rewrite E; reflexivity|]. assert (UP : forall n, x n < x (S n)) by (intros n; apply ST). split; [exact UP|].
  assert (YP : forall n, 0 < y n) by (intros n; unfold y; apply pow_lt; unfold g2phi; apply Rdiv_lt_0_compat; [apply V|lra]).
  assert (YS : forall n, / y (S n) <= / y n + 1 / 4) by (intros n; apply ST). pose proof (harm_low y (1 / 4) ltac:(lra) YP YS) as LOW. set (B := / y 0%nat / (1 / 4)) in *. assert (HB : 0 < B) by (unfold B; apply Rdiv_lt_0_compat; [apply Rinv_0_lt_compat, YP|lra]).
  apply (diverge x UP). intros M. set (q := c0 * (g2mu M - g2mu ro)). pose proof (sg_range q) as SQ. exists (g2s * (/ (1 / 4) * (c0 * (1 - sg q)))), B. assert (C1 : 0 < c0 * (1 - sg q)) by (apply Rmult_lt_0_compat; lra).
  split; [apply Rmult_lt_0_compat; [auto|apply Rmult_lt_0_compat; [lra|auto]]|]. split; [auto|]. intros n L. destruct (ST n) as (_ & X & _). specialize (LOW n). pose proof (pos_INR n). assert (IB : 0 < / (B + INR n)) by (apply Rinv_0_lt_compat; lra).
  assert (XE : x (S n) = x n + g2s * (g2mu (x (S n)) - g2mu (x n))) by (unfold g2mu; field; lra). rewrite XE, X. apply Rplus_le_compat_l. rewrite Rmult_assoc. apply Rmult_le_compat_l; [lra|].
  assert (SL : sg (c0 * (g2mu (x n) - g2mu ro)) <= sg q). { assert (Z : c0 * (g2mu (x n) - g2mu ro) <= q). { unfold q. apply Rmult_le_compat_l; [lra|]. apply Rplus_le_compat_r. unfold g2mu, Rdiv. apply Rmult_le_compat_r; [left; now apply Rinv_0_lt_compat|lra]. } destruct Z as [Z| ->]; [left; now apply sg_mono|lra]. }
  apply Rle_trans with (y n * (c0 * (1 - sg q))); [|ring_simplify; assert (0 < y n) by apply YP; assert (y n * c0 * sg (c0 * (g2mu (x n) - g2mu ro)) <= y n * c0 * sg q) by (apply Rmult_le_compat_l; [apply Rmult_le_pos; lra|auto]); lra].
  replace (/ (1 / 4) * (c0 * (1 - sg q)) * / (B + INR n)) with (/ (1 / 4) * / (B + INR n) * (c0 * (1 - sg q))) by ring. apply Rmult_le_compat_r; [lra|exact LOW].
Qed.

(** Such careers exist: the volatility iteration ends in every game. *)
Lemma sg_odds u b : exp (- u) < b -> (1 - sg u) ^ 2 / (sg u * (1 - sg u)) < b.
Proof.
  intros H. pose proof (exp_pos (- u)) as E. replace ((1 - sg u) ^ 2 / (sg u * (1 - sg u))) with (exp (- u)); [auto|]. unfold sg. set (e := exp (- u)) in *. field. replace (1 + e - 1) with e by ring. split; lra.
Qed.
Lemma farm_ends r RD s ro RDo so t tol : 0 < s -> 0 < so -> 0 < t -> 0 < tol -> exp ((ro - r) / g2s) < 1 + 27 / (2 * t ^ 2) ->
  exists n, glicko2 n (mkGlicko2 (Fin r) (Fin RD) (Fin s)) (mkGlicko2 (Fin ro) (Fin RDo) (Fin so)) WIN (mkGlicko2Config (Fin t) (Fin tol)) <> None.
Proof.
  intros Hs Ho Ht Htol H. pose proof g2s_pos as S0. assert (T0 : 0 < 27 / (2 * t ^ 2)) by (apply Rdiv_lt_0_compat; [lra|]; assert (0 < t ^ 2) by (apply pow_lt; auto); lra).
  assert (A : forall h, exp (- (g2g h * (g2mu r - g2mu ro))) < 1 + 27 / (2 * t ^ 2)).
  { intros h. pose proof (g2g_range h) as G. set (z := (ro - r) / g2s) in *. replace (- (g2g h * (g2mu r - g2mu ro))) with (g2g h * z) by (unfold z, g2mu; field; lra).
    destruct (Rlt_le_dec z 0) as [Z|Z]. { assert (g2g h * z < 0) by nra. assert (exp (g2g h * z) < exp 0) by (now apply exp_increasing). rewrite exp_0 in *. lra. }
    apply Rle_lt_trans with (exp z); [|auto]. assert (Q : g2g h * z <= z) by nra. destruct Q as [Q| ->]; [left; now apply exp_increasing|lra]. }
  destruct (C40_game_proof r RD s ro RDo so WIN t tol Hs Ho Ht Htol) as (n & N).
  - cbn [points]. rewrite g2E_sg. apply sg_odds, A.
  - cbn [points invert]. rewrite g2E_sg. replace (g2g (g2phi RD) * (g2mu ro - g2mu r)) with (- (g2g (g2phi RD) * (g2mu r - g2mu ro))) by ring. specialize (A (g2phi RD)). set (u := g2g (g2phi RD) * (g2mu r - g2mu ro)) in *.
    apply Rle_lt_trans with (exp (- u)); [|auto]. right. unfold sg. rewrite Ropp_involutive, exp_Ropp. pose proof (exp_pos u). field. split; lra.
  - exists n. destruct (N n (le_n n)) as (a & b & ->). discriminate.
Qed.
Lemma C140_glicko2_run_proof : forall r RD s ro RDo so t tol, 0 < s -> 0 < so -> 0 < t -> 0 < tol -> exp ((ro - r) / g2s) < 1 + 27 / (2 * t ^ 2) ->
  exists p : nat -> Glicko2Rating XR, p 0%nat = mkGlicko2 (Fin r) (Fin RD) (Fin s) /\
  forall n, exists fuel q, glicko2 fuel (p n) (mkGlicko2 (Fin ro) (Fin RDo) (Fin so)) WIN (mkGlicko2Config (Fin t) (Fin tol)) = Some (p (S n), q).
Proof.
  intros r RD s ro RDo so t tol Hs Ho Ht Htol H. set (opp := mkGlicko2 (Fin ro) (Fin RDo) (Fin so)). set (cfg := mkGlicko2Config (Fin t) (Fin tol)). pose proof g2s_pos as S0.
  set (I := fun p : Glicko2Rating XR => exists a b c, p = mkGlicko2 (Fin a) (Fin b) (Fin c) /\ r <= a /\ 0 < c).
  assert (EX : forall p, I p -> exists n, glicko2 n p opp WIN cfg <> None).
  { intros p (a & b & c & -> & L & C). apply farm_ends; auto. apply Rle_lt_trans with (exp ((ro - r) / g2s)); [|auto]. assert (Q : (ro - a) / g2s <= (ro - r) / g2s) by (unfold Rdiv; apply Rmult_le_compat_r; [left; now apply Rinv_0_lt_compat|lra]). destruct Q as [Q| ->]; [left; now apply exp_increasing|lra]. }
  assert (STEP : forall p : {p | I p}, {q : {q | I q} | exists n z, glicko2 n (proj1_sig p) opp WIN cfg = Some (proj1_sig q, z)}).
  { intros [p Hp]. cbn [proj1_sig]. destruct (constructive_indefinite_ground_description_nat (fun n => glicko2 n p opp WIN cfg <> None)) as [n Hn].
    - intros n. destruct (glicko2 n p opp WIN cfg); [left; discriminate|right; congruence].
    - now apply EX.
    - destruct (glicko2 n p opp WIN cfg) as [[q z]|] eqn:E; [|congruence]. assert (Iq : I q).
      { destruct Hp as (a & b & c & -> & L & C). destruct (C39_proof _ _ _ _ _ _ _ _ _ _ _ _ C Ho Ht (Rlt_le _ _ Htol) E) as (u1 & u2 & -> & _ & [U1 _] & _ & _ & _ & W & _). destruct (W eq_refl) as [W1 _]. do 3 eexists. split; [reflexivity|]. split; [lra|auto]. }
      exists (exist _ q Iq). exists n, z. exact E. }
  assert (I0 : I (mkGlicko2 (Fin r) (Fin RD) (Fin s))) by (do 3 eexists; split; [reflexivity|]; split; [lra|auto]).
  set (run := fun n => Nat.iter n (fun p => proj1_sig (STEP p)) (exist _ _ I0)). exists (fun n => proj1_sig (run n)). split; [reflexivity|]. intros n. unfold run at 2. rewrite iter_S. fold (run n). apply (proj2_sig (STEP (run n))).
Qed.
