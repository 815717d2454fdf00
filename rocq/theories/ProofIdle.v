(** Proofs of C143: players who stay away. *)
From Coq Require Import ZArith NArith List Bool Reals Lra Lia.
From Verif Require Import Arith XR Tac ModelLib ModelGlicko ModelGlicko2 ModelSticko ModelBoost Spec SpecIn
  ProofElo ProofGlicko ProofGlicko2 ProofSticko ProofBoost ProofEvenly ProofPull.
Import Spec ListNotations.
Local Open Scope R_scope.

(** A deviation that grows by a fixed variance per period up to the cap. *)
Definition idle (RD v : R) (n : nat) : R := Rmin (sqrt (RD ^ 2 + INR n * v ^ 2)) 350.
Lemma idle_0 RD v : 0 <= RD <= 350 -> idle RD v 0 = RD.
Proof. intros H. unfold idle. cbn [INR]. rewrite Rmult_0_l, Rplus_0_r, sqrt_pow2 by lra. apply Rmin_left. lra. Qed.
Lemma idle_S RD v n : Rmin (sqrt (idle RD v n ^ 2 + v ^ 2)) 350 = idle RD v (S n).
Proof.
  unfold idle. rewrite S_INR. pose proof (pow2_ge_0 RD). pose proof (pow2_ge_0 v). pose proof (pos_INR n). assert (0 <= INR n * v ^ 2) by (now apply Rmult_le_pos). unfold Rmin at 2. destruct (Rle_dec (sqrt (RD ^ 2 + INR n * v ^ 2)) 350) as [h|h].
  - rewrite pow2_sqrt by lra. do 2 f_equal. ring.
  - apply Rnot_le_lt in h. rewrite !Rmin_right; auto.
    + apply Rlt_le. eapply Rlt_le_trans; [exact h|]. apply sqrt_le_1_alt. lra.
    + rewrite <- (sqrt_pow2 350) at 1 by lra. apply sqrt_le_1_alt. lra.
Qed.
Lemma idle_cap RD v n : idle RD v n = 350 <-> 350 ^ 2 <= RD ^ 2 + INR n * v ^ 2.
Proof.
  unfold idle. pose proof (pow2_ge_0 RD). pose proof (pow2_ge_0 v). pose proof (pos_INR n). assert (0 <= INR n * v ^ 2) by (now apply Rmult_le_pos). split; intros L.
  - assert (A : 350 <= sqrt (RD ^ 2 + INR n * v ^ 2)) by (rewrite <- L at 1; apply Rmin_l). assert (A2 : 350 ^ 2 <= sqrt (RD ^ 2 + INR n * v ^ 2) ^ 2) by (apply pow_incr; lra). rewrite pow2_sqrt in A2; lra.
  - apply Rmin_right. rewrite <- (sqrt_pow2 350) at 1 by lra. now apply sqrt_le_1_alt.
Qed.
Lemma idle_lt RD v n : 0 <= RD < 350 -> v <> 0 -> (0 < n)%nat -> RD < idle RD v n.
Proof.
  intros H Hv Hn. unfold idle. apply Rmin_glb_lt; [|lra]. rewrite <- (sqrt_pow2 RD) at 1 by lra. apply sqrt_lt_1_alt. pose proof (pow2_ge_0 RD). assert (0 < v ^ 2) by (destruct (Rdichotomy _ _ Hv); nra). assert (0 < INR n) by (now apply lt_0_INR). split; [auto|]. assert (0 < INR n * v ^ 2) by (now apply Rmult_lt_0_compat). lra.
Qed.
Lemma C143_glicko_proof : forall r RD c n, 0 < RD <= 350 -> exists d,
  Nat.iter n (fun p => glicko_rating_period p [] (mkGlickoConfig (Fin c))) (mkGlicko (Fin r) (Fin RD)) = mkGlicko (Fin r) (Fin d) /\
  d = Rmin (sqrt (RD ^ 2 + INR n * c ^ 2)) 350 /\ (d = 350 <-> 350 ^ 2 <= RD ^ 2 + INR n * c ^ 2).
Proof. intros r RD c n H. destruct (C30_proof r RD c n H) as (d & E & D & _). exists d. split; [exact E|]. split; [exact D|]. rewrite D. apply idle_cap. Qed.
Lemma C143_sticko_proof : forall r RD h beta lambda gamma c n, 0 < RD <= 350 -> exists d,
  Nat.iter n (fun p => sticko_rating_period p [] (mkStickoConfig (Fin h) (Fin beta) (Fin lambda) (Fin gamma) (Fin c))) (mkSticko (Fin r) (Fin RD)) = mkSticko (Fin r) (Fin d) /\
  d = Rmin (sqrt (RD ^ 2 + INR n * c ^ 2)) 350 /\ (d = 350 <-> 350 ^ 2 <= RD ^ 2 + INR n * c ^ 2).
Proof.
  intros r RD h beta lambda gamma c n H. exists (idle RD c n). split; [|split; [reflexivity|apply idle_cap]]. induction n as [|n IH]; [rewrite idle_0 by lra; reflexivity|].
  rewrite iter_S, IH. cbn [sticko_rating_period]. unfold sticko_decay_deviation. cbn [st_rating st_deviation st_c]. change (@st_pre_deviation XR XRA) with (@gl_pre_deviation XR XRA). rewrite gl_pre_eval. unfold gpre. now rewrite idle_S.
Qed.
Lemma C143_glicko2_proof : forall fuel r RD s t tol n, 0 <= RD <= 350 -> exists d,
  Nat.iter n (fun p => match p with Some q => glicko2_rating_period fuel q [] (mkGlicko2Config (Fin t) (Fin tol)) | None => None end) (Some (mkGlicko2 (Fin r) (Fin RD) (Fin s))) = Some (mkGlicko2 (Fin r) (Fin d) (Fin s)) /\
  d = Rmin (sqrt (RD ^ 2 + INR n * (1737178 / 10000 * s) ^ 2)) 350 /\ (d = 350 <-> 350 ^ 2 <= RD ^ 2 + INR n * (1737178 / 10000 * s) ^ 2).
Proof.
  intros fuel r RD s t tol n H. exists (idle RD (g2s * s) n). split; [|split; [reflexivity|apply idle_cap]]. induction n as [|n IH]; [rewrite idle_0 by lra; reflexivity|].
  rewrite iter_S, IH, C41_empty_proof. assert (P : 0 <= idle RD (g2s * s) n) by (unfold idle; apply Rmin_glb; [apply sqrt_pos|lra]). destruct (C41_decay_proof r _ s P) as (d & E & D & _). rewrite E, D. now rewrite idle_S.
Qed.
Lemma archimed_nat x : exists n, x < INR n.
Proof. destruct (archimed (Rabs x)) as [A _]. pose proof (Rle_abs x). pose proof (Rabs_pos x). exists (Z.to_nat (up (Rabs x))). rewrite INR_IZR_INZ, Z2Nat.id; [lra|]. apply le_IZR. lra. Qed.
Lemma boost_floor c r RD : 0 <= RD <= 350 -> exp (bc_a0 c - 350 * Rabs (bc_a1 c) - 350 * Rabs (bc_a2 c * (r / 1000)) + bc_a3 c * (r / 1000) + bc_a4 c * (r / 1000) ^ 2) <=
  exp (bc_a0 c + bc_a1 c * RD + bc_a2 c * RD * (r / 1000) + bc_a3 c * (r / 1000) + bc_a4 c * (r / 1000) ^ 2).
Proof.
  intros H. assert (Q : forall x, - (350 * Rabs x) <= x * RD). { intros x. pose proof (Rabs_pos x). pose proof (Rle_abs (- x)) as A. rewrite Rabs_Ropp in A. nra. }
  pose proof (Q (bc_a1 c)). pose proof (Q (bc_a2 c * (r / 1000))) as Q2. set (x := _ + bc_a4 c * (r / 1000) ^ 2). set (y := bc_a0 c + bc_a1 c * RD + _ + _ + _). assert (L : x <= y) by (unfold x, y; lra). destruct L as [L| ->]; [left; now apply exp_increasing|lra].
Qed.
Lemma C143_boost_proof : forall r RD c, 0 <= RD <= 350 -> let cfg := mkBoostConfig (Fin (bc_eta c)) (Fin (bc_k c)) (Fin (bc_b0 c)) (Fin (bc_b1 c)) (Fin (bc_a0 c)) (Fin (bc_a1 c)) (Fin (bc_a2 c)) (Fin (bc_a3 c)) (Fin (bc_a4 c)) in exists d,
  (forall n, Nat.iter n (fun p => glicko_boost_rating_period p [] cfg) (mkBoost (Fin r) (Fin RD)) = mkBoost (Fin r) (Fin (d n))) /\
  (forall n, d n < 350 -> d n < d (S n)) /\ (forall n, d n <= 350) /\ exists N, forall n, (N <= n)%nat -> d n = 350.
Proof.
  intros r RD c H cfg. set (d := fun n => Nat.iter n (boost_end c r) RD). exists d. assert (DS : forall n, d (S n) = boost_end c r (d n)) by (intros n; unfold d; now rewrite iter_S).
  split. { induction n as [|n IH]; [reflexivity|]. rewrite iter_S, IH. cbn [glicko_boost_rating_period]. unfold boost_decay_deviation. cbn [gb_rating gb_deviation]. unfold cfg. fold (bcfg c). rewrite gb_end_eval, DS. reflexivity. }
  assert (B : forall n, 0 <= d n <= 350). { induction n as [|n IH]; [exact H|]. rewrite DS. unfold boost_end. split; [apply Rmin_glb; [apply sqrt_pos|lra]|apply Rmin_r]. }
  set (K := exp (bc_a0 c - 350 * Rabs (bc_a1 c) - 350 * Rabs (bc_a2 c * (r / 1000)) + bc_a3 c * (r / 1000) + bc_a4 c * (r / 1000) ^ 2)). assert (HK : 0 < K) by apply exp_pos.
  assert (ST : forall n, d (S n) = 350 \/ d n ^ 2 + K <= d (S n) ^ 2).
  { intros n. rewrite DS. unfold boost_end. pose proof (boost_floor c r (d n) (B n)) as F. fold K in F. set (X := exp (bc_a0 c + bc_a1 c * d n + _ + _ + _)) in *. pose proof (pow2_ge_0 (d n)). unfold Rmin. destruct (Rle_dec _ 350); [right; rewrite pow2_sqrt; lra|now left]. }
  split. { intros n L. destruct (ST n) as [E|E]; [lra|]. specialize (B n). pose proof (pow2_ge_0 (d n)). apply Rnot_le_lt. intros N. assert (P : 0 <= d (S n)) by (rewrite DS; unfold boost_end; apply Rmin_glb; [apply sqrt_pos|lra]). assert (d (S n) ^ 2 <= d n ^ 2) by (apply pow_incr; lra). lra. }
  split; [apply B|].
  assert (KEEP : forall n, d n = 350 -> d (S n) = 350).
  { intros n E. destruct (ST n) as [|L]; [auto|]. specialize (B (S n)). rewrite E in L. nra. }
  assert (G : forall n, d n = 350 \/ INR n * K <= d n ^ 2).
  { induction n as [|n [E|IH]]; [right; cbn [INR]; pose proof (pow2_ge_0 (d 0%nat)); lra|left; now apply KEEP|]. destruct (ST n) as [|L]; [now left|right]. rewrite S_INR. lra. }
  destruct (archimed_nat (350 ^ 2 / K)) as [N HN]. exists N.
  assert (DN : d N = 350). { destruct (G N) as [|L]; [auto|]. specialize (B N). assert (d N ^ 2 <= 350 ^ 2) by (apply pow_incr; lra). apply (Rmult_lt_compat_r K) in HN; [|auto]. replace (350 ^ 2 / K * K) with (350 ^ 2) in HN by (field; lra). lra. }
  intros n L. induction L as [|n L IH]; [exact DN|now apply KEEP].
Qed.
(** What the forecasts make of it. *)
Lemma C143_forecast_proof : forall r RD ro RDo c n, 0 < RD < 350 -> c <> 0 -> (0 < n)%nat -> ro < r -> exists e e',
  fst (glicko_expected_score (mkGlicko (Fin r) (Fin RD)) (mkGlicko (Fin ro) (Fin RDo))) = Fin e /\
  fst (glicko_expected_score (Nat.iter n (fun p => glicko_rating_period p [] (mkGlickoConfig (Fin c))) (mkGlicko (Fin r) (Fin RD))) (mkGlicko (Fin ro) (Fin RDo))) = Fin e' /\ 1 / 2 < e' < e.
Proof.
  intros r RD ro RDo c n H Hc Hn L. destruct (C143_glicko_proof r RD c n ltac:(lra)) as (d & E & D & _). rewrite E. apply glicko_pull; [auto|]. pose proof (idle_lt RD c n ltac:(lra) Hc Hn) as Q. unfold idle in Q. rewrite <- D in Q. nra.
Qed.
