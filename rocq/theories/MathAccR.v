(** Relative error of positive binary64 values. *)
From Coq Require Import ZArith List Bool Reals Lra Lia Psatz.
From Flocq Require Import Core.Core IEEE754.BinarySingleNaN.
From Verif Require Import Arith B64 MathB64 ProofB64 ProofB64b MathAcc.
Local Open Scope R_scope.

(** [x] is finite and within the relative distance [e] of the positive [r]. *)
Definition rp (x : B64) (r e : R) : Prop := fin x /\ 0 < r /\ Rabs (ext x - r) <= e * r.

Lemma rp_ap x r e : rp x r e -> ap x r (e * r).
Proof. intros (F & _ & H). split; auto. Qed.
Lemma ap_rp x r d e : ap x r d -> 0 < r -> d <= e * r -> rp x r e.
Proof. intros (F & H) P L. repeat split; auto. lra. Qed.
Lemma rp_weak x r e e' : rp x r e -> e <= e' -> rp x r e'.
Proof. intros (F & P & H) L. repeat split; auto. eapply Rle_trans; [exact H|]. apply Rmult_le_compat_r; lra. Qed.
Lemma rp_eq x r r' e : rp x r e -> r = r' -> rp x r' e.
Proof. intros H <-. auto. Qed.
Lemma rp_nonneg x r e : rp x r e -> 0 <= e.
Proof. intros (F & P & H). pose proof (Rabs_pos (ext x - r)). destruct (Rle_dec 0 e); auto. assert (e * r < 0) by nra. lra. Qed.
Lemma p200 : 10 ^ 200 = 10 ^ 190 * 10 ^ 10.
Proof. rewrite <- pow_add. reflexivity. Qed.
Lemma ok190 k v : / 10 ^ 190 <= v <= 10 ^ 190 -> 1 <= k <= 2 -> / 10 ^ 200 <= k * v <= 10 ^ 200.
Proof.
  intros [A B] K. assert (P : 0 < 10 ^ 190) by (apply pow_lt; lra). assert (I : 0 < / 10 ^ 190) by (apply Rinv_0_lt_compat; auto).
  assert (J : / 10 ^ 200 <= / 10 ^ 190) by (apply Rinv_le_contravar; auto; apply Rle_pow; [lra|lia]). rewrite p200 in *. split; [nra|].
  apply Rle_trans with (2 * 10 ^ 190); [nra|]. rewrite (Rmult_comm (10 ^ 190)). apply Rmult_le_compat_r; lra.
Qed.
Lemma rp_mul x y r s d e : rp x r d -> rp y s e -> d <= / 100 -> e <= / 100 -> / 10 ^ 190 <= r * s <= 10 ^ 190 ->
  rp (Bmult mode_NE x y) (r * s) (1.011 * (d + e) + 13 / 10 ^ 17).
Proof.
  intros X Y Hd He B. pose proof (rp_nonneg _ _ _ X) as D0. pose proof (rp_nonneg _ _ _ Y) as E0. assert (r0 : 0 < r) by apply X. assert (s0 : 0 < s) by apply Y.
  assert (P : 0 < r * s) by (apply Rmult_lt_0_compat; auto). assert (DE : 0 <= d * e <= (d + e) / 100) by nra.
  pose proof (ap_mul _ _ _ _ _ _ r s (1.03 * (r * s)) (rp_ap _ _ _ X) (rp_ap _ _ _ Y) ltac:(rewrite Rabs_pos_eq; lra) ltac:(rewrite Rabs_pos_eq; lra)) as M.
  replace (r * (e * s) + s * (d * r) + d * r * (e * s)) with ((d + e + d * e) * (r * s)) in M by ring.
  specialize (M ltac:(nra) (ok190 1.03 _ B ltac:(lra))). apply (ap_rp _ _ _ _ M P). unfold u0. nra.
Qed.
Lemma rp_div x y r s d e : rp x r d -> rp y s e -> d <= / 100 -> e <= / 100 -> / 10 ^ 190 <= r / s <= 10 ^ 190 ->
  rp (Bdiv mode_NE x y) (r / s) (1.011 * (d + e) + 13 / 10 ^ 17).
Proof.
  intros X Y Hd He B. pose proof (rp_nonneg _ _ _ X) as D0. pose proof (rp_nonneg _ _ _ Y) as E0. assert (r0 : 0 < r) by apply X. assert (s0 : 0 < s) by apply Y.
  assert (P : 0 < r / s) by (unfold Rdiv; apply Rmult_lt_0_compat; auto; apply Rinv_0_lt_compat; auto).
  assert (Ev : (d * r + r / s * (e * s)) / (0.99 * s) = (d + e) / 0.99 * (r / s)) by (field; lra).
  pose proof (ap_div _ _ _ _ _ _ (0.99 * s) (r / s) (1.03 * (r / s)) (rp_ap _ _ _ X) (rp_ap _ _ _ Y) ltac:(lra) ltac:(rewrite Rabs_pos_eq; nra) ltac:(rewrite Rabs_pos_eq; lra)) as M.
  rewrite Ev in M. specialize (M ltac:(nra) (ok190 1.03 _ B ltac:(lra))). apply (ap_rp _ _ _ _ M P). unfold u0. nra.
Qed.
(** changing the reference value *)
Lemma rp_trans x r s d e : rp x r d -> 0 < s -> Rabs (r - s) <= e * s -> e <= / 100 -> rp x s (1.01 * d + e).
Proof.
  intros X S H He. pose proof (rp_nonneg _ _ _ X) as D0. destruct X as (F & P & A). repeat split; auto. apply Rabs_le_inv in A, H. apply Rabs_le.
  assert (d * r <= d * (1.01 * s)) by (apply Rmult_le_compat_l; nra). nra.
Qed.
