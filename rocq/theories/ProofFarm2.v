(** Proofs of C140 for TrueSkill: beating the same opponent again and again. *)
From Coq Require Import ZArith NArith List Bool Reals Lra Lia.
From Verif Require Import Arith XR Tac ModelLib ModelTS Spec SpecTS SpecInTS
  MathTS MathTSDraw MathTSMono MathTSNorm2 ProofTS ProofTSUpset ProofFloor ProofEvenly ProofFarm.
Import ListNotations.
Local Open Scope R_scope.

Lemma vx_low x X : 0 <= X -> x <= X -> phi X <= vx x.
Proof.
  intros HX L. pose proof (phi_le0 X). destruct (Rlt_le_dec (Phi x) tiny) as [T|T].
  - rewrite (vx_in x T). destruct (Rlt_le_dec x (-26)) as [|L2]; [lra|]. pose proof (Phi_not_tiny x L2). lra.
  - assert (Q : forall y, 0 <= y <= X -> tiny <= Phi y -> phi X <= vx y).
    { intros y Hy Ty. rewrite (vx_out y Ty). pose proof (MathTSDraw.phi_dec y X Hy). pose proof (Phi_range y). pose proof (phi_pos y). apply Rle_trans with (phi y); [auto|]. apply Rmult_le_reg_r with (Phi y); [lra|]. unfold Rdiv. rewrite Rmult_assoc, Rinv_l by lra. nra. }
    destruct (Rlt_le_dec x 0) as [N|N]; [|apply Q; auto; lra]. pose proof (vx_lt x 0 N ltac:(lra) ltac:(auto)). pose proof (Q 0 ltac:(lra) (Phi_not_tiny 0 ltac:(lra))). lra.
Qed.
Lemma frac_low K S : 0 < K -> 0 < S -> Rmin S 1 * / sqrt (K + 1) <= S / sqrt (K + S).
Proof.
  intros HK HS. assert (A : 0 < sqrt (K + 1)) by (apply sqrt_lt_R0; lra). assert (B : 0 < sqrt (K + S)) by (apply sqrt_lt_R0; lra).
  assert (A2 : sqrt (K + 1) ^ 2 = K + 1) by (apply pow2_sqrt; lra). assert (B2 : sqrt (K + S) ^ 2 = K + S) by (apply pow2_sqrt; lra).
  unfold Rdiv. destruct (Rle_lt_dec S 1) as [L|L].
  - rewrite Rmin_left by auto. apply Rmult_le_compat_l; [lra|]. apply Rinv_le_contravar; [auto|]. apply sqrt_le_1_alt. lra.
  - rewrite Rmin_right by lra. rewrite Rmult_1_l. apply Rmult_le_reg_r with (sqrt (K + 1) * sqrt (K + S)); [now apply Rmult_lt_0_compat|].
    replace (/ sqrt (K + 1) * (sqrt (K + 1) * sqrt (K + S))) with (sqrt (K + S)) by (field; lra). replace (S * / sqrt (K + S) * (sqrt (K + 1) * sqrt (K + S))) with (S * sqrt (K + 1)) by (field; lra).
    apply Rsqr_incr_0; [|lra|nra]. rewrite Rsqr_mult, !Rsqr_pow2, A2, B2. assert (S <= S ^ 2) by nra. assert (K * 1 <= K * S ^ 2) by (apply Rmult_le_compat_l; lra). lra.
Qed.
Lemma C140_ts_proof : forall m s mo so dp beta tau, 0 < s -> 0 < so -> tau ^ 2 <= 2 * beta ^ 2 -> exists x d,
  (forall n, Nat.iter n (fun p => fst (trueskill p (ts_in (mo, so)) WIN (ts_cfg dp beta tau))) (ts_in (m, s)) = ts_in (x n, d n)) /\
  (forall n, 0 < d n) /\ (forall n, x n < x (S n)) /\ (forall M, exists N, forall n, (N <= n)%nat -> M < x n).
Proof.
  intros m s mo so dp beta tau Hs Ho Ht. set (e := unit_margin dp * sqrt 2 * beta).
  set (C := fun p : R * R => tsc 2 beta (snd p ^ 2) (so ^ 2)). set (T := fun p : R * R => (fst p - mo) / C p).
  set (f := fun p : R * R => (ts_mu' tau (C p) (vwin (T p) (e / C p)) p, sqrt (ts_var' tau (C p) (ts_w WIN (T p) (e / C p)) p))).
  set (x := fun n => fst (Nat.iter n f (m, s))). set (d := fun n => snd (Nat.iter n f (m, s))). exists x, d.
  assert (XS : forall n, x (S n) = fst (f (x n, d n))) by (intros n; unfold x at 1; rewrite iter_S; unfold x, d; now destruct (Nat.iter n f (m, s))).
  assert (DS : forall n, d (S n) = snd (f (x n, d n))) by (intros n; unfold d at 1; rewrite iter_S; unfold x, d; now destruct (Nat.iter n f (m, s))).
  assert (P2 : 0 < so ^ 2) by (apply pow_lt; auto). pose proof (pow2_ge_0 beta) as B2. pose proof (pow2_ge_0 tau) as T2.
  set (K0 := 2 * beta ^ 2 + so ^ 2 - tau ^ 2). assert (HK0 : 0 < K0) by (unfold K0; lra). set (W := / K0). assert (HW : 0 < W) by (now apply Rinv_0_lt_compat).
  assert (ST : forall p, 0 < snd p -> 0 < C p /\ C p ^ 2 = K0 + (snd p ^ 2 + tau ^ 2) /\ 0 < snd (f p) /\ / (snd (f p) ^ 2 + tau ^ 2) <= / (snd p ^ 2 + tau ^ 2) + W /\
     std (ts_var' tau (C p) (ts_w WIN (T p) (e / C p)) p) = Fin (snd (f p))).
  { intros [mu u] Hu. cbn [snd] in Hu |- *. assert (U2 : 0 < u ^ 2) by (apply pow_lt; auto). assert (HC : 0 < C (mu, u)) by (apply tsc_pos; cbn [snd]; lra).
    assert (HC2 : C (mu, u) ^ 2 = K0 + (u ^ 2 + tau ^ 2)) by (unfold C, tsc, K0; cbn [snd]; rewrite pow2_sqrt; lra). split; [auto|]. split; [auto|].
    set (c := C (mu, u)) in *. cbn [f snd]. unfold f. cbn [snd]. fold c. set (w := ts_w WIN _ _). assert (Hw : 0 <= w <= 1) by (apply ts_w_unit; discriminate).
    destruct (std_real tau c w mu u HC Hw ltac:(lra)) as [SR SB]. set (V := ts_var' tau c w (mu, u)) in *.
    assert (VL : (u ^ 2 + tau ^ 2) * (K0 / (K0 + (u ^ 2 + tau ^ 2))) <= V).
    { unfold V, ts_var'. cbn [snd]. apply Rmult_le_compat_l; [lra|]. rewrite HC2. set (S := u ^ 2 + tau ^ 2) in *. apply Rmult_le_reg_r with (K0 + S); [unfold S; lra|]. replace (K0 / (K0 + S) * (K0 + S)) with K0 by (field; unfold S; lra). replace ((1 - w * S / (K0 + S)) * (K0 + S)) with (K0 + S - w * S) by (field; unfold S; lra). assert (0 < S) by (unfold S; lra). nra. }
    assert (VP : 0 < V). { eapply Rlt_le_trans; [|exact VL]. apply Rmult_lt_0_compat; [lra|]. apply Rdiv_lt_0_compat; lra. }
    split; [now apply sqrt_lt_R0|]. split; [|exact SR]. rewrite pow2_sqrt by lra. set (S := u ^ 2 + tau ^ 2) in *. assert (HS : 0 < S) by (unfold S; lra).
    apply Rle_trans with (/ (S * (K0 / (K0 + S)))). { apply Rinv_le_contravar; [apply Rmult_lt_0_compat; [auto|apply Rdiv_lt_0_compat; lra]|lra]. }
    unfold W. replace (/ (S * (K0 / (K0 + S)))) with (/ S + / K0) by (field; lra). lra. }
  assert (DP : forall n, 0 < d n) by (induction n as [|n IH]; [exact Hs|]; rewrite DS; apply ST; exact IH).
  split. { induction n as [|n IH]; [reflexivity|]. rewrite iter_S, IH. rewrite (trueskill_eval (x n) (d n) mo so WIN dp beta tau e (DP n) Ho (draw_margin_eval dp beta 2 ltac:(lra))). cbv zeta. cbn [fst].
    destruct (ST (x n, d n) (DP n)) as (_ & _ & _ & _ & SR). unfold ts_out. unfold ts_in. cbn [fst snd]. rewrite DS, XS. rewrite <- SR. reflexivity. }
  split; [exact DP|].
  set (y := fun n => d n ^ 2 + tau ^ 2). assert (YP : forall n, 0 < y n) by (intros n; unfold y; assert (0 < d n ^ 2) by (apply pow_lt, DP); lra).
  assert (G : forall n, x (S n) = x n + y n / C (x n, d n) * vx ((x n - mo - e) / C (x n, d n))).
  { intros n. rewrite XS. unfold f, ts_mu'. cbn [fst snd]. fold (y n). rewrite vwin_vx. unfold T. cbn [fst]. do 3 f_equal. unfold Rdiv. ring. }
  assert (CP : forall n, 0 < C (x n, d n) /\ C (x n, d n) = sqrt (K0 + y n) /\ so <= C (x n, d n)).
  { intros n. destruct (ST (x n, d n) (DP n)) as (A & B & _). split; [auto|]. cbn [snd] in B. split; [unfold y; rewrite <- B, sqrt_pow2; lra|]. assert (0 < d n ^ 2) by (apply pow_lt, DP). apply Rsqr_incr_0; [unfold Rsqr; unfold K0 in B; nra|lra|lra]. }
  assert (UP : forall n, x n < x (S n)).
  { intros n. rewrite G. destruct (CP n) as [A _]. assert (0 < y n / C (x n, d n)) by (apply Rdiv_lt_0_compat; auto). pose proof (vwin_pos ((x n - mo - e) / C (x n, d n)) 0) as V. rewrite vwin_vx, Rminus_0_r in V. nra. }
  split; [exact UP|]. apply (diverge x UP). intros M. set (q := Rmax 0 (M - mo - e) * / so). assert (Q0 : 0 <= q) by (apply Rmult_le_pos; [apply Rmax_l|left; now apply Rinv_0_lt_compat]).
  assert (A1 : 0 < sqrt (K0 + 1)) by (apply sqrt_lt_R0; lra). pose proof (Rinv_0_lt_compat _ A1) as A2. pose proof (phi_pos q) as PQ.
  assert (YS : forall n, / y (S n) <= / y n + W). { intros n. unfold y. rewrite DS. apply (ST (x n, d n)). apply DP. }
  pose proof (harm_low y W HW YP YS) as LOW. assert (I0 : 0 < / y 0%nat) by (apply Rinv_0_lt_compat, YP). assert (IW : 0 < / W) by (now apply Rinv_0_lt_compat).
  set (k := Rmin (/ W) 1). assert (Hk : 0 < k <= 1 /\ k <= / W) by (unfold k; split; [split; [apply Rmin_glb_lt; lra|apply Rmin_r]|apply Rmin_l]).
  set (B := Rmax 1 (/ y 0%nat / W)). assert (HB : 1 <= B /\ / y 0%nat / W <= B) by (unfold B; split; [apply Rmax_l|apply Rmax_r]). exists (k * / sqrt (K0 + 1) * phi q), B.
  split; [apply Rmult_lt_0_compat; [apply Rmult_lt_0_compat; lra|auto]|]. split; [lra|]. intros n L. rewrite G. apply Rplus_le_compat_l. destruct (CP n) as (C1 & C2 & C3).
  assert (VL : phi q <= vx ((x n - mo - e) / C (x n, d n))).
  { apply vx_low; [auto|]. unfold q. pose proof (Rmax_l 0 (M - mo - e)). pose proof (Rmax_r 0 (M - mo - e)). pose proof (Rinv_0_lt_compat _ C1). unfold Rdiv. apply Rle_trans with (Rmax 0 (M - mo - e) * / C (x n, d n)); [apply Rmult_le_compat_r; lra|apply Rmult_le_compat_l; [lra|apply Rinv_le_contravar; lra]]. }
  rewrite C2 at 1. pose proof (frac_low K0 (y n) HK0 (YP n)) as FL. pose proof (pos_INR n) as NN. assert (IB : 0 < / (B + INR n) <= 1) by (split; [apply Rinv_0_lt_compat; lra|rewrite <- Rinv_1; apply Rinv_le_contravar; lra]).
  assert (YL : k * / (B + INR n) <= Rmin (y n) 1).
  { apply Rmin_glb; [|nra]. eapply Rle_trans; [|apply LOW]. apply Rmult_le_compat; [lra|lra|lra|]. apply Rinv_le_contravar; [|lra]. assert (0 < / y 0%nat / W) by (apply Rdiv_lt_0_compat; auto). lra. }
  replace (k * / sqrt (K0 + 1) * phi q * / (B + INR n)) with (k * / (B + INR n) * / sqrt (K0 + 1) * phi q) by ring.
  apply Rmult_le_compat; [|lra| |exact VL]. { apply Rmult_le_pos; [apply Rmult_le_pos; lra|lra]. } eapply Rle_trans; [|exact FL]. apply Rmult_le_compat_r; [lra|exact YL].
Qed.
