(** Forward error analysis of binary64 expressions: a float near a real number,
    and how the basic operations keep it near. *)
From Coq Require Import ZArith List Bool Reals Lra Lia Psatz.
From Flocq Require Import Core.Core IEEE754.BinarySingleNaN.
From Verif Require Import Arith B64 MathB64 ProofB64 ProofB64b.
Import ListNotations.
Local Open Scope R_scope.

(** [x] is finite and within [d] of [r]. *)
Definition ap (x : B64) (r d : R) : Prop := fin x /\ Rabs (ext x - r) <= d.
(** a bit more than the unit roundoff 2^-53 *)
Definition u0 : R := 12 / 10 ^ 17.

Lemma bpow_nat n : bpow radix2 (- Z.of_nat n) = / 2 ^ n.
Proof. rewrite bpow_opp. f_equal. rewrite <- (IZR_Zpower radix2) by lia. simpl radix_val. rewrite <- pow_IZR. reflexivity. Qed.
Lemma u53 : bpow radix2 (-53) <= u0.
Proof. change (-53)%Z with (- Z.of_nat 53)%Z. rewrite bpow_nat. unfold u0. lra. Qed.
Lemma lo_bnd : bpow radix2 (-1022) <= / 10 ^ 300.
Proof.
  change (-1022)%Z with (- Z.of_nat 1022)%Z. rewrite bpow_nat. apply Rinv_le_contravar; [apply pow_lt; lra|].
  rewrite !pow_IZR. apply IZR_le. vm_compute. discriminate.
Qed.
Lemma hi_bnd : 10 ^ 300 <= bpow radix2 1023.
Proof. change (bpow radix2 1023) with (IZR (2 ^ 1023)). rewrite pow_IZR. apply IZR_le. vm_compute. discriminate. Qed.
(** the error of one rounding *)
Lemma rnd_B v B : Rabs v <= B -> / 10 ^ 200 <= B <= 10 ^ 200 -> Rabs (rnd v - v) <= u0 * B.
Proof.
  intros H HB. pose proof u53 as U. pose proof lo_bnd as LB. pose proof hi_bnd as HI. assert (U0 : 0 < u0) by (unfold u0; lra).
  assert (H300 : 10 ^ 200 <= 10 ^ 300) by (apply Rle_pow; [lra|lia]).
  destruct (Rle_dec (bpow radix2 (-1022)) (Rabs v)) as [L|L].
  - eapply Rle_trans; [apply rnd_rel; lra|]. pose proof (Rabs_pos v). apply Rmult_le_compat; try lra. apply bpow_ge_0.
  - assert (V : Rabs v <= bpow radix2 (-900)) by (apply Rle_trans with (bpow radix2 (-1022)); [lra|apply bpow_le; lia]).
    eapply Rle_trans; [apply (rnd_abs (-900)); [lia|exact V]|].
    apply Rle_trans with (bpow radix2 (- Z.of_nat 954)); [apply bpow_le; lia|]. rewrite bpow_nat.
    apply Rle_trans with (u0 * / 10 ^ 200); [|apply Rmult_le_compat_l; lra]. unfold u0.
    apply Rle_trans with (/ 10 ^ 16 * / 10 ^ 200); [|apply Rmult_le_compat_r; [left; apply Rinv_0_lt_compat, pow_lt; lra|lra]].
    rewrite <- Rinv_mult. apply Rinv_le_contravar; [apply Rmult_lt_0_compat; apply pow_lt; lra|].
    rewrite !pow_IZR, <- mult_IZR. apply IZR_le. vm_compute. discriminate.
Qed.
Lemma ap_rnd z v r d B : nn z -> ext z = rnd v -> Rabs (v - r) <= d -> Rabs r + d <= B -> / 10 ^ 200 <= B <= 10 ^ 200 -> ap z r (d + u0 * B).
Proof.
  intros N E D H HB. assert (V : Rabs v <= B). { replace v with ((v - r) + r) by ring. eapply Rle_trans; [apply Rabs_triang|]. lra. }
  pose proof (rnd_B v B V HB) as R. assert (U0 : 0 < u0 < / 10 ^ 10) by (unfold u0; lra). split.
  - apply fin_iff; auto. rewrite E. replace (rnd v) with ((rnd v - v) + v) by ring. eapply Rle_lt_trans; [apply Rabs_triang|].
    apply Rle_lt_trans with (2 * 10 ^ 200); [assert (u0 * B <= 1 * B) by (apply Rmult_le_compat_r; lra); lra|].
    apply Rlt_le_trans with (10 ^ 300); [|pose proof hi_bnd; apply Rle_trans with (1 := H0); apply bpow_le; lia].
    replace 300%nat with (100 + 200)%nat by reflexivity. rewrite pow_add. apply Rmult_lt_compat_r; [apply pow_lt; lra|].
    apply Rlt_le_trans with (10 ^ 1); [lra|]. apply Rle_pow; [lra|lia].
  - rewrite E. replace (rnd v - r) with ((v - r) + (rnd v - v)) by ring. eapply Rle_trans; [apply Rabs_triang|]. lra.
Qed.
Lemma ap_weak x r d d' : ap x r d -> d <= d' -> ap x r d'.
Proof. intros [F H] L. split; auto. lra. Qed.
Lemma ap_eq x r r' d : ap x r d -> r = r' -> ap x r' d.
Proof. intros H <-. auto. Qed.
Lemma ap_self x : fin x -> ap x (ext x) 0.
Proof. intros F. split; auto. rewrite Rminus_diag_eq by reflexivity. rewrite Rabs_R0. lra. Qed.
Lemma ap_exact x r : fin x -> ext x = r -> ap x r 0.
Proof. intros F <-. apply ap_self; auto. Qed.
Lemma ap_fin x r d : ap x r d -> fin x. Proof. intros [F _]; exact F. Qed.
Lemma ap_nonneg x r d : ap x r d -> 0 <= d. Proof. intros [_ H]. pose proof (Rabs_pos (ext x - r)). lra. Qed.
Lemma ap_int x r d : ap x r d -> r - d <= ext x <= r + d.
Proof. intros [_ H]. apply Rabs_le_inv in H. lra. Qed.
Lemma ap_Z z : (Z.abs z <= 2 ^ 53)%Z -> ap (b64_of_Z z) (IZR z) 0.
Proof. intros H. destruct (ext_ofZ z H) as [F E]. apply ap_exact; auto. Qed.

Lemma ap_add x y r s d e B : ap x r d -> ap y s e -> Rabs (r + s) + (d + e) <= B -> / 10 ^ 200 <= B <= 10 ^ 200 ->
  ap (Bplus mode_NE x y) (r + s) (d + e + u0 * B).
Proof.
  intros [Fx Hx] [Fy Hy] H HB. destruct (ext_plus x y Fx Fy) as [N E]. apply (ap_rnd _ _ _ (d + e) B N E); auto.
  replace (ext x + ext y - (r + s)) with ((ext x - r) + (ext y - s)) by ring. eapply Rle_trans; [apply Rabs_triang|]. lra.
Qed.
Lemma ap_sub x y r s d e B : ap x r d -> ap y s e -> Rabs (r - s) + (d + e) <= B -> / 10 ^ 200 <= B <= 10 ^ 200 ->
  ap (Bminus mode_NE x y) (r - s) (d + e + u0 * B).
Proof.
  intros [Fx Hx] [Fy Hy] H HB. destruct (ext_minus x y Fx Fy) as [N E]. apply (ap_rnd _ _ _ (d + e) B N E); auto.
  replace (ext x - ext y - (r - s)) with ((ext x - r) + - (ext y - s)) by ring. eapply Rle_trans; [apply Rabs_triang|]. rewrite Rabs_Ropp. lra.
Qed.
Lemma mul_err a b r s d e M N : Rabs (a - r) <= d -> Rabs (b - s) <= e -> Rabs r <= M -> Rabs s <= N ->
  Rabs (a * b - r * s) <= M * e + N * d + d * e.
Proof.
  intros Ha Hb Hr Hs. replace (a * b - r * s) with (r * (b - s) + s * (a - r) + (a - r) * (b - s)) by ring.
  eapply Rle_trans; [apply Rabs_triang|]. apply Rplus_le_compat; [eapply Rle_trans; [apply Rabs_triang|]; apply Rplus_le_compat|];
    rewrite Rabs_mult; apply Rmult_le_compat; auto; apply Rabs_pos.
Qed.
Lemma ap_mul x y r s d e M N B : ap x r d -> ap y s e -> Rabs r <= M -> Rabs s <= N ->
  M * N + (M * e + N * d + d * e) <= B -> / 10 ^ 200 <= B <= 10 ^ 200 ->
  ap (Bmult mode_NE x y) (r * s) (M * e + N * d + d * e + u0 * B).
Proof.
  intros [Fx Hx] [Fy Hy] Hr Hs H HB. destruct (ext_mult x y Fx Fy) as [NN E]. apply (ap_rnd _ _ _ (M * e + N * d + d * e) B NN E); auto.
  - apply mul_err; auto.
  - apply Rle_trans with (2 := H). apply Rplus_le_compat_r. rewrite Rabs_mult. apply Rmult_le_compat; auto; apply Rabs_pos.
Qed.
Lemma ap_fma x y z r s t d e f M N B : ap x r d -> ap y s e -> ap z t f -> Rabs r <= M -> Rabs s <= N ->
  Rabs (r * s + t) + (M * e + N * d + d * e + f) <= B -> / 10 ^ 200 <= B <= 10 ^ 200 ->
  ap (Bfma mode_NE x y z) (r * s + t) (M * e + N * d + d * e + f + u0 * B).
Proof.
  intros [Fx Hx] [Fy Hy] [Fz Hz] Hr Hs H HB. destruct (ext_fma x y z Fx Fy Fz) as [NN E]. apply (ap_rnd _ _ _ _ B NN E); auto.
  replace (ext x * ext y + ext z - (r * s + t)) with ((ext x * ext y - r * s) + (ext z - t)) by ring.
  eapply Rle_trans; [apply Rabs_triang|]. apply Rplus_le_compat; auto. apply mul_err; auto.
Qed.
(** [m] is a lower bound of the divisor, [Q] an upper bound of the quotient *)
Lemma div_err a b r s d e m Q : Rabs (a - r) <= d -> Rabs (b - s) <= e -> 0 < m -> m + e <= Rabs s -> Rabs (r / s) <= Q ->
  b <> 0 /\ Rabs (a / b - r / s) <= (d + Q * e) / m.
Proof.
  intros Ha Hb Hm Hs HQ. assert (S0 : s <> 0) by (intros ->; rewrite Rabs_R0 in Hs; pose proof (Rabs_pos (b - 0)); lra).
  assert (B0 : m <= Rabs b). { replace s with (b - (b - s)) in Hs by ring. pose proof (Rabs_triang b (- (b - s))) as T. rewrite Rabs_Ropp in T. unfold Rminus in Hs, T, Hb. lra. }
  assert (Bn : b <> 0) by (intros ->; rewrite Rabs_R0 in B0; lra). split; auto.
  replace (a / b - r / s) with (((a - r) - r / s * (b - s)) / b) by (field; auto).
  unfold Rdiv at 1. rewrite Rabs_mult, Rabs_inv. apply Rmult_le_compat; [apply Rabs_pos|left; apply Rinv_0_lt_compat; lra| |apply Rinv_le_contravar; lra].
  eapply Rle_trans; [apply Rabs_triang|]. rewrite Rabs_Ropp, Rabs_mult. apply Rplus_le_compat; auto. apply Rmult_le_compat; auto; apply Rabs_pos.
Qed.
Lemma ap_div x y r s d e m Q B : ap x r d -> ap y s e -> 0 < m -> m + e <= Rabs s -> Rabs (r / s) <= Q ->
  Q + (d + Q * e) / m <= B -> / 10 ^ 200 <= B <= 10 ^ 200 ->
  ap (Bdiv mode_NE x y) (r / s) ((d + Q * e) / m + u0 * B).
Proof.
  intros [Fx Hx] [Fy Hy] Hm Hs HQ H HB. destruct (div_err _ _ _ _ _ _ _ _ Hx Hy Hm Hs HQ) as [Y0 D].
  destruct (ext_div x y Fx Fy Y0) as [NN E]. apply (ap_rnd _ _ _ _ B NN E); auto. lra.
Qed.
(** [m] is a lower bound of the root *)
Lemma ap_sqrt x r d m M B : ap x r d -> 0 < m -> m <= sqrt r -> sqrt r <= M -> d <= r -> M + d / m <= B -> / 10 ^ 200 <= B <= 10 ^ 200 ->
  ap (Bsqrt mode_NE x) (sqrt r) (d / m + u0 * B).
Proof.
  intros [Fx Hx] Hm Hs HM Hd H HB. pose proof (Rabs_le_inv _ _ Hx) as Hx'. assert (X0 : 0 <= ext x) by lra.
  assert (R0 : 0 <= r) by (pose proof (Rabs_pos (ext x - r)); lra).
  destruct (ext_sqrt x Fx X0) as [NN E]. apply (ap_rnd _ _ _ _ B NN E); auto.
  - pose proof (sqrt_pos (ext x)) as P. assert (D : 0 < sqrt (ext x) + sqrt r) by lra.
    replace (sqrt (ext x) - sqrt r) with ((ext x - r) / (sqrt (ext x) + sqrt r)).
    + unfold Rdiv. rewrite Rabs_mult, Rabs_inv. apply Rmult_le_compat; auto; [apply Rabs_pos|left; apply Rinv_0_lt_compat; apply Rabs_pos_lt; lra|].
      apply Rinv_le_contravar; [lra|]. rewrite Rabs_pos_eq by lra. lra.
    + apply Rmult_eq_reg_r with (sqrt (ext x) + sqrt r); [|lra]. unfold Rdiv. rewrite Rmult_assoc, Rinv_l, Rmult_1_r by lra.
      rewrite <- (sqrt_sqrt (ext x)) at 1 by lra. rewrite <- (sqrt_sqrt r) at 1 by lra. ring.
  - rewrite Rabs_pos_eq by apply sqrt_pos. lra.
Qed.
Lemma ap_opp x r d : ap x r d -> ap (Bopp x) (- r) d.
Proof.
  intros [F H]. destruct (ext_opp x (fin_nn _ F)) as [N E]. assert (FF : fin (Bopp x)) by (unfold fin in *; destruct x; simpl in *; congruence).
  split; auto. rewrite E. replace (- ext x - - r) with (- (ext x - r)) by ring. rewrite Rabs_Ropp. auto.
Qed.
