(** Relative errors of positive double-precision quantities, and sums. *)
From Coq Require Import ZArith List Bool Reals Lra Lia Psatz.
From Flocq Require Import Core.Core IEEE754.BinarySingleNaN.
From Verif Require Import Arith XR B64 ModelLib Spec SpecB64 SpecAcc Tac MathB64 ProofB64 ProofB64b ProofB64c MathB64b ProofB64d MathAcc ProofAcc.
Import ListNotations.
Local Open Scope R_scope.
#[local] Opaque Bplus Bminus Bmult Bdiv Bfma Bsqrt Bopp Babs b64_max b64_min b64_of_Z b64_lit.

(** [x] is a number within a relative error [a] of the positive real [X]. *)
Definition rl (x : B64) (X a : R) : Prop := 0 < X /\ 0 <= a <= / 10 ^ 4 /\ ap x X (a * X).
Definition v0 : R := 122 / 10 ^ 18.
Lemma u0v X : 0 < X -> u0 * (1.01 * X) <= v0 * X.
Proof. intros H. assert (E : u0 * (1.01 * X) = u0 * 1.01 * X) by ring. rewrite E. apply Rmult_le_compat_r; [lra|]. unfold u0, v0. lra. Qed.
Lemma rl_weak x X a b : rl x X a -> a <= b -> b <= / 10 ^ 4 -> rl x X b.
Proof. intros [P [B A]] H H'. split; [auto|]. split; [lra|]. apply (ap_weak _ _ _ _ A). apply Rmult_le_compat_r; lra. Qed.
Lemma rl_eq x X Y a : rl x X a -> X = Y -> rl x Y a. Proof. intros H <-. exact H. Qed.
Lemma rl_exact x X : ap x X 0 -> 0 < X -> rl x X 0.
Proof. intros A P. split; [auto|]. split; [lra|]. rewrite Rmult_0_l. exact A. Qed.
Lemma rl_ap x X a d : rl x X a -> a * X <= d -> ap x X d. Proof. intros [_ [_ A]] H. apply (ap_weak _ _ _ _ A H). Qed.
Lemma rl_mul x y X Y a b c : rl x X a -> rl y Y b -> / 10 ^ 29 <= X * Y <= 10 ^ 29 -> a + b + a * b + v0 <= c -> c <= / 10 ^ 4 -> rl (Bmult mode_NE x y) (X * Y) c.
Proof.
  intros [PX [Ba Ax]] [PY [Bb Ay]] BP H H'. assert (P : 0 < X * Y) by (apply Rmult_lt_0_compat; auto). assert (AB : 0 <= a * b <= / 10 ^ 4 * / 10 ^ 4) by (split; [apply Rmult_le_pos; lra|apply Rmult_le_compat; lra]).
  assert (V : 0 < v0) by (unfold v0; lra). split; [exact P|]. split; [lra|].
  assert (E : X * (b * Y) + Y * (a * X) + a * X * (b * Y) = (a + b + a * b) * (X * Y)) by ring.
  pose proof (ap_mul _ _ _ _ _ _ X Y (1.01 * (X * Y)) Ax Ay ltac:(rewrite Rabs_pos_eq; lra) ltac:(rewrite Rabs_pos_eq; lra)) as T. rewrite E in T.
  assert (HE : (a + b + a * b) * (X * Y) <= / 100 * (X * Y)) by (apply Rmult_le_compat_r; lra). specialize (T ltac:(lra) ltac:(okb)).
  apply (ap_weak _ _ _ _ T). pose proof (u0v _ P). apply Rle_trans with ((a + b + a * b + v0) * (X * Y)); [lra|]. apply Rmult_le_compat_r; lra.
Qed.
Lemma rl_div x y X Y a b c : rl x X a -> rl y Y b -> / 10 ^ 29 <= X / Y <= 10 ^ 29 -> 1.001 * (a + b) + v0 <= c -> c <= / 10 ^ 4 -> rl (Bdiv mode_NE x y) (X / Y) c.
Proof.
  intros [PX [Ba Ax]] [PY [Bb Ay]] BP H H'. assert (P : 0 < X / Y) by (apply Rdiv_lt_0_compat; auto). assert (V : 0 < v0) by (unfold v0; lra).
  split; [exact P|]. split; [lra|]. assert (bY : 0 <= b * Y <= / 10 ^ 4 * Y) by (split; [apply Rmult_le_pos; lra|apply Rmult_le_compat_r; lra]).
  pose proof (ap_div _ _ _ _ _ _ ((1 - / 10 ^ 4) * Y) (X / Y) (1.01 * (X / Y)) Ax Ay ltac:(lra) ltac:(rewrite Rabs_pos_eq; lra) ltac:(rewrite Rabs_pos_eq; lra)) as T.
  assert (E : (a * X + X / Y * (b * Y)) / ((1 - / 10 ^ 4) * Y) = (a + b) / (1 - / 10 ^ 4) * (X / Y)) by (field; lra). rewrite E in T.
  assert (HE : (a + b) / (1 - / 10 ^ 4) <= 1.001 * (a + b)) by lra.
  assert (HF : (a + b) / (1 - / 10 ^ 4) * (X / Y) <= 1.001 * (a + b) * (X / Y)) by (apply Rmult_le_compat_r; lra).
  assert (HG : 1.001 * (a + b) * (X / Y) <= / 100 * (X / Y)) by (apply Rmult_le_compat_r; lra). specialize (T ltac:(lra) ltac:(okb)).
  apply (ap_weak _ _ _ _ T). pose proof (u0v _ P). apply Rle_trans with ((1.001 * (a + b) + v0) * (X / Y)); [lra|]. apply Rmult_le_compat_r; lra.
Qed.
Lemma rl_sqrt x X a c : rl x X a -> / 10 ^ 29 <= sqrt X <= 10 ^ 29 -> a + v0 <= c -> c <= / 10 ^ 4 -> rl (Bsqrt mode_NE x) (sqrt X) c.
Proof.
  intros [PX [Ba Ax]] BP H H'. assert (P : 0 < sqrt X) by (apply sqrt_lt_R0; auto). assert (V : 0 < v0) by (unfold v0; lra). split; [exact P|]. split; [lra|].
  assert (E : a * X / sqrt X = a * sqrt X). { rewrite <- (sqrt_sqrt X) at 1 by lra. field. lra. }
  assert (H1 : a * X <= 1 * X) by (apply Rmult_le_compat_r; lra). assert (H2 : a * sqrt X <= / 10 ^ 4 * sqrt X) by (apply Rmult_le_compat_r; lra).
  pose proof (ap_sqrt _ _ _ (sqrt X) (sqrt X) (1.01 * sqrt X) Ax P (Rle_refl _) (Rle_refl _) ltac:(lra)) as T. rewrite E in T. specialize (T ltac:(lra) ltac:(okb)).
  apply (ap_weak _ _ _ _ T). pose proof (u0v _ P). apply Rle_trans with ((a + v0) * sqrt X); [lra|]. apply Rmult_le_compat_r; lra.
Qed.
Lemma rl_add x y X Y a b c : rl x X a -> rl y Y b -> / 10 ^ 29 <= X + Y <= 10 ^ 29 -> Rmax a b + v0 <= c -> c <= / 10 ^ 4 -> rl (Bplus mode_NE x y) (X + Y) c.
Proof.
  intros [PX [Ba Ax]] [PY [Bb Ay]] BP H H'. assert (V : 0 < v0) by (unfold v0; lra). pose proof (Rmax_l a b) as M1. pose proof (Rmax_r a b) as M2. set (m := Rmax a b) in *.
  split; [lra|]. split; [lra|]. assert (H1 : a * X <= m * X) by (apply Rmult_le_compat_r; lra). assert (H2 : b * Y <= m * Y) by (apply Rmult_le_compat_r; lra).
  assert (H3 : m * (X + Y) <= / 100 * (X + Y)) by (apply Rmult_le_compat_r; lra).
  pose proof (ap_add _ _ _ _ _ _ (1.01 * (X + Y)) Ax Ay ltac:(rewrite Rabs_pos_eq; lra) ltac:(okb)) as T. apply (ap_weak _ _ _ _ T). pose proof (u0v (X + Y) ltac:(lra)).
  apply Rle_trans with ((m + v0) * (X + Y)); [lra|]. apply Rmult_le_compat_r; lra.
Qed.
(** x * y + z *)
Lemma rl_fma x y z X Y Z a b e c : rl x X a -> rl y Y b -> rl z Z e -> / 10 ^ 29 <= X * Y + Z <= 10 ^ 29 -> a + b + a * b <= e -> e + v0 <= c -> c <= / 10 ^ 4 ->
  rl (Bfma mode_NE x y z) (X * Y + Z) c.
Proof.
  intros [PX [Ba Ax]] [PY [Bb Ay]] [PZ [Be Az]] BP H1 H H'. assert (P : 0 < X * Y) by (apply Rmult_lt_0_compat; auto). assert (V : 0 < v0) by (unfold v0; lra). split; [lra|]. split; [lra|].
  assert (E : X * (b * Y) + Y * (a * X) + a * X * (b * Y) = (a + b + a * b) * (X * Y)) by ring.
  pose proof (ap_fma _ _ _ _ _ _ _ _ _ X Y (1.01 * (X * Y + Z)) Ax Ay Az ltac:(rewrite Rabs_pos_eq; lra) ltac:(rewrite Rabs_pos_eq; lra)) as T. rewrite E in T.
  assert (HE : (a + b + a * b) * (X * Y) <= e * (X * Y)) by (apply Rmult_le_compat_r; lra). assert (H3 : e * (X * Y + Z) <= / 100 * (X * Y + Z)) by (apply Rmult_le_compat_r; lra).
  specialize (T ltac:(rewrite Rabs_pos_eq; lra) ltac:(okb)). apply (ap_weak _ _ _ _ T). pose proof (u0v (X * Y + Z) ltac:(lra)).
  apply Rle_trans with ((e + v0) * (X * Y + Z)); [lra|]. apply Rmult_le_compat_r; lra.
Qed.

(** ** Sums of [n] numbers *)
Lemma Rsum_nonneg (X : Type) (F : X -> R) l : Forall (fun x => 0 < F x) l -> 0 <= Rsum (map F l).
Proof. induction 1 as [|x l Hx _ IH]; simpl; lra. Qed.
(** numbers of any sign, exact on input *)
Lemma fsumN_acc (X : Type) (L : Libm) (f : X -> B64) (F : X -> R) M NN l : 1 <= M <= 10 ^ 6 -> 1 <= NN <= 1000 ->
  Forall (fun x => ap (f x) (F x) 0 /\ Rabs (F x) <= M) l ->
  forall acc s (n : nat), ap acc s (INR n * (u0 * (1.01 * NN * M))) -> Rabs s <= INR n * M -> INR (n + length l) <= NN ->
  ap (fold_left (Bplus mode_NE) (map f l) acc) (s + Rsum (map F l)) (INR (n + length l) * (u0 * (1.01 * NN * M))).
Proof.
  intros BM BN. induction l as [|x l IH]; intros HF acc s n A Bs Hn; simpl.
  - rewrite Nat.add_0_r, Rplus_0_r. auto.
  - inversion HF as [|? ? [Ax Bx] Hl]; subst. simpl in Hn. replace (n + S (length l))%nat with (S n + length l)%nat in * by lia.
    assert (HN : INR (S n) <= NN) by (apply Rle_trans with (2 := Hn); apply le_INR; lia). rewrite S_INR in HN. pose proof (pos_INR n) as N0.
    assert (B : Rabs (s + F x) <= (INR n + 1) * M) by (eapply Rle_trans; [apply Rabs_triang|]; lra).
    assert (NM : 1 <= NN * M <= 10 ^ 9) by (split; [apply Rle_trans with (1 * 1); [lra|apply Rmult_le_compat; lra]|apply Rle_trans with (1000 * 10 ^ 6); [apply Rmult_le_compat; lra|lra]]).
    assert (E2 : (INR n + 1) * M <= NN * M) by (apply Rmult_le_compat_r; lra). replace (1.01 * NN * M) with (1.01 * (NN * M)) in * by ring. set (Q := NN * M) in *.
    assert (U0 : 0 < u0 <= 12 / 10 ^ 17) by ulra. assert (UM : 0 <= u0 * (1.01 * Q) <= 13 / 10 ^ 17 * Q) by (split; [apply Rmult_le_pos; lra|]; rewrite <- Rmult_assoc; apply Rmult_le_compat_r; lra).
    assert (E : INR n * (u0 * (1.01 * Q)) <= 1000 * (13 / 10 ^ 17 * Q)) by (apply Rmult_le_compat; lra).
    pose proof (ap_add _ _ _ _ _ _ (1.01 * Q) A Ax ltac:(lra) ltac:(okb)) as P.
    apply (ap_weak _ _ _ (INR (S n) * (u0 * (1.01 * Q)))) in P; [|rewrite S_INR; lra].
    pose proof (IH Hl _ _ (S n) P ltac:(rewrite S_INR; lra) Hn) as G. rewrite <- Rplus_assoc. exact G.
Qed.
Lemma fsumN (X : Type) (L : Libm) (f : X -> B64) (F : X -> R) M NN l : 1 <= M <= 10 ^ 6 -> 1 <= NN <= 1000 ->
  Forall (fun x => ap (f x) (F x) 0 /\ Rabs (F x) <= M) l -> INR (length l) <= NN ->
  ap (fsum (A := B64A L) (map f l)) (Rsum (map F l)) (NN * (u0 * (1.01 * NN * M))).
Proof.
  intros BM BN HF Hn. pose proof (fsumN_acc X L f F M NN l BM BN HF (B754_zero true) 0 0%nat) as H. rewrite !Rplus_0_l in H.
  apply (ap_weak _ _ (INR (0 + length l) * (u0 * (1.01 * NN * M)))).
  - apply H; [|rewrite Rabs_R0; simpl; lra|exact Hn]. split; [reflexivity|]. simpl. rewrite Rminus_0_r, Rabs_R0. lra.
  - simpl. apply Rmult_le_compat_r; [|exact Hn]. apply Rmult_le_pos; [ulra|]. apply Rmult_le_pos; lra.
Qed.
(** positive numbers *)
Lemma fsumP_acc (X : Type) (L : Libm) (f : X -> B64) (F : X -> R) a T l : 0 <= a <= 5 / 10 ^ 5 -> 0 < T -> / 10 ^ 200 <= 1.01 * T <= 10 ^ 200 ->
  Forall (fun x => rl (f x) (F x) a) l ->
  forall acc s (n : nat), ap acc s (a * s + INR n * (u0 * (1.01 * T))) -> 0 <= s -> s + Rsum (map F l) <= T -> INR (n + length l) <= 1000 ->
  ap (fold_left (Bplus mode_NE) (map f l) acc) (s + Rsum (map F l)) (a * (s + Rsum (map F l)) + INR (n + length l) * (u0 * (1.01 * T))).
Proof.
  intros Ba T0 BT. induction l as [|x l IH]; intros HF acc s n A Bs HT Hn; simpl.
  - rewrite Nat.add_0_r, Rplus_0_r. auto.
  - inversion HF as [|? ? [Px [_ Ax]] Hl]; subst. simpl in Hn, HT. replace (n + S (length l))%nat with (S n + length l)%nat in * by lia.
    assert (HN : INR (S n) <= 1000) by (apply Rle_trans with (2 := Hn); apply le_INR; lia). rewrite S_INR in HN. pose proof (pos_INR n) as N0.
    assert (HS : 0 <= Rsum (map F l)). { apply Rsum_nonneg. eapply Forall_impl; [|exact Hl]. intros ? [? _]. auto. }
    assert (U0 : 0 < u0 <= 12 / 10 ^ 17) by ulra. assert (UM : 0 <= u0 * (1.01 * T) <= 13 / 10 ^ 17 * T) by (split; [apply Rmult_le_pos; lra|]; rewrite <- Rmult_assoc; apply Rmult_le_compat_r; lra).
    assert (E : INR n * (u0 * (1.01 * T)) <= 1000 * (13 / 10 ^ 17 * T)) by (apply Rmult_le_compat; lra).
    assert (E2 : a * (s + F x) <= 5 / 10 ^ 5 * T) by (apply Rmult_le_compat; lra).
    pose proof (ap_add _ _ _ _ _ _ (1.01 * T) A Ax ltac:(rewrite Rabs_pos_eq; lra) BT) as P.
    apply (ap_weak _ _ _ (a * (s + F x) + INR (S n) * (u0 * (1.01 * T)))) in P; [|rewrite S_INR; lra].
    pose proof (IH Hl _ _ (S n) P ltac:(lra) ltac:(lra) Hn) as G. rewrite <- Rplus_assoc. exact G.
Qed.
Lemma fsumP (X : Type) (L : Libm) (f : X -> B64) (F : X -> R) a c z l : z = B754_zero true \/ z = b64_of_Z 0 -> 0 <= a <= 5 / 10 ^ 5 -> l <> [] -> / 10 ^ 200 <= 1.01 * Rsum (map F l) <= 10 ^ 200 ->
  Forall (fun x => rl (f x) (F x) a) l -> INR (length l) <= 1000 -> a + INR (length l) * v0 <= c -> c <= / 10 ^ 4 ->
  rl (fold_left (Bplus mode_NE) (map f l) z) (Rsum (map F l)) c.
Proof.
  intros Hz Ba NE BT HF Hn H H'. assert (T0 : 0 < Rsum (map F l)). { destruct l as [|x l]; [congruence|]. inversion HF as [|? ? [P _] Hl]; subst. cbn [map]. rewrite Rsum_cons. pose proof (Rsum_nonneg _ F l ltac:(eapply Forall_impl; [|exact Hl]; intros ? [? _]; auto)). lra. }
  pose proof (fsumP_acc X L f F a (Rsum (map F l)) l Ba T0 BT HF z 0 0%nat) as G. rewrite !Rplus_0_l in G.
  set (T := Rsum (map F l)) in *. pose proof (pos_INR (length l)) as N0. assert (V : 0 < v0) by (unfold v0; lra). assert (NV : 0 <= INR (length l) * v0) by (apply Rmult_le_pos; lra). split; [exact T0|]. split; [lra|].
  apply (ap_weak _ _ (a * T + INR (length l) * (u0 * (1.01 * T)))).
  - apply G; [|lra|lra|exact Hn]. destruct Hz as [->| ->]; [split; [reflexivity|]; simpl; rewrite Rminus_0_r, Rabs_R0; lra|]. apply (ap_weak _ _ 0); [exact (ap_Z 0 ltac:(vm_compute; discriminate))|simpl; lra].
  - apply Rle_trans with ((a + INR (length l) * v0) * T); [|apply Rmult_le_compat_r; lra]. pose proof (u0v T ltac:(lra)).
    assert (INR (length l) * (u0 * (1.01 * T)) <= INR (length l) * (v0 * T)) by (apply Rmult_le_compat_l; lra). lra.
Qed.
