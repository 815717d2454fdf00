(** Proofs of the IEEE-754 binary64 properties, eighth part: Weng-Lin. *)
From Coq Require Import ZArith NArith List Bool Reals Lra Lia Psatz.
From Flocq Require Import Core.Core IEEE754.BinarySingleNaN.
From Verif Require Import Arith B64 MathB64 MathB64b SpecB64 ModelLib ModelWengLin Spec ProofB64 ProofB64b ProofB64c ProofB64d ProofB64e ProofB64f.
Import ListNotations.
Local Open Scope R_scope.
#[local] Opaque Bplus Bminus Bmult Bdiv Bfma Bsqrt b64_max b64_of_Z.

(** ** A non-negative number of size at most 2^e *)
Definition ng (x : B64) (e : Z) : Prop := fin x /\ 0 <= ext x <= bpow radix2 e.
Lemma ng_up x a b : (a <= b)%Z -> ng x a -> ng x b.
Proof. intros H [F [P B]]. split; [exact F|]. split; [exact P|]. apply Rle_trans with (1 := B). apply bpow_le, H. Qed.
Lemma ng_abs x e : ng x e -> Rabs (ext x) <= bpow radix2 e.
Proof. intros [_ [P B]]. rewrite Rabs_pos_eq; auto. Qed.
Lemma ng_mul x y a b c : ng x a -> ng y b -> (a + b <= c)%Z -> (-1022 <= c <= 1023)%Z -> ng (Bmult mode_NE x y) c.
Proof.
  intros [Fx [Px Bx]] [Fy [Py By]] H Hc. destruct (ext_mult x y Fx Fy) as [N E].
  assert (B : 0 <= ext (Bmult mode_NE x y) <= bpow radix2 c).
  { rewrite E. split; [apply rnd_nonneg; nra|]. apply rnd_le_pow; [lia|]. apply Rle_trans with (bpow radix2 a * bpow radix2 b); [apply Rmult_le_compat; lra|].
    rewrite <- bpow_plus. apply bpow_le, H. }
  split; [apply (fin_le _ c); [exact N|lia|exact B]|exact B].
Qed.
Lemma ng_div x y a k c : ng x a -> fin y -> bpow radix2 k <= ext y -> (a - k <= c)%Z -> (-1022 <= c <= 1023)%Z -> ng (Bdiv mode_NE x y) c.
Proof.
  intros [Fx [Px Bx]] Fy Hy H Hc. pose proof (bpow_gt_0 radix2 k) as Pk. destruct (ext_div x y Fx Fy ltac:(lra)) as [N E].
  assert (B : 0 <= ext (Bdiv mode_NE x y) <= bpow radix2 c).
  { rewrite E. split; [apply rnd_nonneg; apply Rmult_le_pos; [lra|apply Rinv_ge_0; lra]|]. apply rnd_le_pow; [lia|].
    apply Rmult_le_reg_r with (ext y); [lra|]. unfold Rdiv. rewrite Rmult_assoc, Rinv_l, Rmult_1_r by lra. apply Rle_trans with (1 := Bx).
    apply Rle_trans with (bpow radix2 c * bpow radix2 k); [rewrite <- bpow_plus; apply bpow_le; lia|]. apply Rmult_le_compat_l; [apply bpow_ge_0|exact Hy]. }
  split; [apply (fin_le _ c); [exact N|lia|exact B]|exact B].
Qed.
Lemma ng_plus x y e c : ng x e -> ng y e -> (e + 1 <= c)%Z -> (-1022 <= c <= 1023)%Z -> ng (Bplus mode_NE x y) c /\ ext x <= ext (Bplus mode_NE x y) /\ ext y <= ext (Bplus mode_NE x y).
Proof.
  intros [Fx [Px Bx]] [Fy [Py By]] H Hc. destruct (ext_plus x y Fx Fy) as [N E].
  assert (B : 0 <= ext (Bplus mode_NE x y) <= bpow radix2 c).
  { rewrite E. split; [apply rnd_nonneg; lra|]. apply rnd_le_pow; [lia|]. apply Rle_trans with (bpow radix2 (e + 1)); [rewrite bpow_1; lra|apply bpow_le, H]. }
  split; [split; [apply (fin_le _ c); [exact N|lia|exact B]|exact B]|]. rewrite E. split.
  - rewrite <- (rnd_ext x Fx) at 1. apply rnd_le. lra.
  - rewrite <- (rnd_ext y Fy) at 1. apply rnd_le. lra.
Qed.
Lemma ng_sqrt x a c : ng x a -> (a <= c + c)%Z -> (-1022 <= c <= 1023)%Z -> ng (Bsqrt mode_NE x) c.
Proof.
  intros [Fx [Px Bx]] H Hc. destruct (ext_sqrt x Fx Px) as [N E].
  assert (B : 0 <= ext (Bsqrt mode_NE x) <= bpow radix2 c).
  { rewrite E. split; [apply rnd_nonneg, sqrt_pos|]. apply rnd_le_pow; [lia|]. rewrite <- (sqrt_square (bpow radix2 c)) by apply bpow_ge_0. apply sqrt_le_1_alt.
    rewrite <- bpow_plus. apply Rle_trans with (1 := Bx). apply bpow_le, H. }
  split; [apply (fin_le _ c); [exact N|lia|exact B]|exact B].
Qed.
Lemma ng_01 p : in01 p -> ng p 0. Proof. intro I. destruct (in01_inv p I) as [F B]. split; [exact F|]. simpl. lra. Qed.

(** ** The rounded root of the rounded square is not larger *)
Lemma rnd_step x y : fin x -> bpow radix2 (-900) <= ext x <= bpow radix2 900 -> 0 <= y <= ext x * (1 + bpow radix2 (-54)) -> rnd y <= ext x.
Proof.
  intros Fx Bx By. pose proof (bpow_gt_0 radix2 (-900)) as P9. assert (FX : generic_format radix2 fexp64 (ext x)) by (rewrite ext_fin by exact Fx; apply generic_format_B2R).
  rewrite rnd_rnd0_small.
  2:{ rewrite Rabs_pos_eq by lra. apply Rle_trans with (1 := proj2 By). assert (bpow radix2 (-54) <= 1) by (apply (bpow_le radix2 (-54) 0); lia).
      apply Rle_trans with (bpow radix2 900 * 2); [nra|]. rewrite Rmult_comm, <- (bpow_1 900). apply bpow_le. lia. }
  unfold rnd0. apply round_N_le_midp; [apply _|exact FX|].
  rewrite succ_eq_pos by lra. apply Rle_lt_trans with (1 := proj2 By).
  assert (U : ulp radix2 fexp64 (ext x) = bpow radix2 (mag radix2 (ext x) - 53)).
  { rewrite ulp_neq_0 by lra. unfold cexp. rewrite fexp64_FLT. unfold FLT_exp. f_equal. rewrite Z.max_l; [reflexivity|].
    assert (-900 < mag radix2 (ext x))%Z by (apply mag_gt_bpow; rewrite Rabs_pos_eq by lra; lra). lia. }
  rewrite U. assert (X : ext x < bpow radix2 (mag radix2 (ext x))) by (rewrite <- (Rabs_pos_eq (ext x)) at 1 by lra; apply bpow_mag_gt).
  replace (mag radix2 (ext x) - 53)%Z with (mag radix2 (ext x) + -54 + 1)%Z by lia. rewrite bpow_1, bpow_plus. pose proof (bpow_gt_0 radix2 (-54)). nra.
Qed.
Lemma sqrt_sq u : fin u -> bpow radix2 (-400) <= ext u <= bpow radix2 400 ->
  let q := Bmult mode_NE u u in fin q /\ bpow radix2 (-800) <= ext q <= bpow radix2 800 /\ rnd (sqrt (ext q)) <= ext u.
Proof.
  intros Fu Bu q. destruct (ext_mult u u Fu Fu) as [N E]. fold q in N, E. pose proof (bpow_gt_0 radix2 (-400)) as P4.
  assert (Q0 : bpow radix2 (-800) <= ext u * ext u <= bpow radix2 800).
  { split; [change (-800)%Z with (-400 + -400)%Z|change 800%Z with (400 + 400)%Z]; rewrite bpow_plus; nra. }
  assert (Q : bpow radix2 (-800) <= ext q <= bpow radix2 800). { rewrite E. split; [apply rnd_ge_pow; [lia|lra]|apply rnd_le_pow; [lia|lra]]. }
  pose proof (bpow_gt_0 radix2 (-800)).
  split; [apply (fin_le _ 800); [exact N|lia|lra]|]. split; [exact Q|].
  apply rnd_step; [exact Fu|split; [apply Rle_trans with (2 := proj1 Bu); apply bpow_le; lia|apply Rle_trans with (1 := proj2 Bu); apply bpow_le; lia]|].
  split; [apply sqrt_pos|]. assert (R : ext q <= ext u * ext u * (1 + bpow radix2 (-53))).
  { rewrite E. pose proof (rnd_rel (ext u * ext u)) as R. rewrite Rabs_pos_eq in R by lra.
    assert (X : Rabs (rnd (ext u * ext u) - ext u * ext u) <= bpow radix2 (-53) * (ext u * ext u)).
    { apply R. split; [apply Rle_trans with (2 := proj1 Q0); apply bpow_le; lia|apply Rle_trans with (1 := proj2 Q0); apply bpow_le; lia]. }
    apply Rabs_le_inv in X. lra. }
  assert (T : bpow radix2 (-53) = 2 * bpow radix2 (-54)) by apply (bpow_1 (-54)). pose proof (bpow_gt_0 radix2 (-54)).
  rewrite <- (sqrt_square (ext u * (1 + bpow radix2 (-54)))) by nra. apply sqrt_le_1_alt. nra.
Qed.

(** ** Pieces of the update *)
Lemma unc_ok u x tol : fin u -> bpow radix2 (-400) <= ext u <= bpow radix2 400 -> fin x -> ext x <= 1 -> fin tol -> bpow radix2 (-200) <= ext tol <= 1 ->
  let v := Bsqrt mode_NE (Bmult mode_NE (Bmult mode_NE u u) (b64_max x tol)) in fin v /\ 0 < ext v <= ext u.
Proof.
  intros Fu Bu Fx Bx Ft Bt v. destruct (sqrt_sq u Fu Bu) as [Fq [Bq Sq]]. set (q := Bmult mode_NE u u) in *.
  destruct (max_range x tol (fin_nn _ Fx) (fin_nn _ Ft)) as [Nm Em]. set (m := b64_max x tol) in *.
  pose proof (bpow_gt_0 radix2 (-200)) as P2. pose proof (bpow_gt_0 radix2 (-800)) as P8.
  assert (Bm : bpow radix2 (-200) <= ext m <= 1). { rewrite Em. split; [apply Rle_trans with (ext tol); [lra|apply Rmax_r]|apply Rmax_lub; lra]. }
  assert (Fm : fin m) by (apply (fin_le _ 0); [exact Nm|lia|simpl; lra]).
  destruct (ext_mult q m Fq Fm) as [Np Ep]. set (p := Bmult mode_NE q m) in *.
  assert (Bp : bpow radix2 (-1000) <= ext p <= ext q).
  { rewrite Ep. split; [apply rnd_ge_pow; [lia|]; change (-1000)%Z with (-800 + -200)%Z; rewrite bpow_plus; nra|].
    rewrite <- (rnd_ext q Fq) at 2. apply rnd_le. nra. }
  pose proof (bpow_gt_0 radix2 (-1000)) as P10. assert (Fp : fin p) by (apply (fin_le _ 800); [exact Np|lia|lra]).
  destruct (ext_sqrt p Fp ltac:(lra)) as [Nv Ev]. fold v in Nv, Ev.
  assert (Vu : ext v <= ext u). { rewrite Ev. apply Rle_trans with (2 := Sq). apply rnd_le, sqrt_le_1_alt. lra. }
  assert (Vl : bpow radix2 (-500) <= ext v).
  { rewrite Ev. apply rnd_ge_pow; [lia|]. rewrite <- (sqrt_square (bpow radix2 (-500))) by apply bpow_ge_0. apply sqrt_le_1_alt. rewrite <- bpow_plus. exact (proj1 Bp). }
  pose proof (bpow_gt_0 radix2 (-500)). split; [|lra]. apply (fin_le _ 400); [exact Nv|lia|lra].
Qed.
Lemma p_ok L r1 r2 c b : exp_normal L -> fin r1 -> fin r2 -> fin c -> 0 < ext b -> 138 / 100 * ext b <= ext c ->
  Rabs (ext r1) <= 800 * ext b -> Rabs (ext r2) <= 800 * ext b ->
  let p := wl_p_value (A := B64A L) r1 r2 c in in01 (fst p) /\ in01 (snd p).
Proof.
  intros EN F1 F2 Fc Pb Hc R1 R2 p. destruct (exp_arg _ c b F1 Fc Pb Hc R1) as [A1 B1]. destruct (exp_arg _ c b F2 Fc Pb Hc R2) as [A2 B2].
  destruct (EN _ A1 B1) as [X1 Y1]. destruct (EN _ A2 B2) as [X2 Y2].
  assert (Q : in01 (fst p)) by (apply p_in01; assumption). split; [exact Q|]. apply one_minus_in01. exact Q.
Qed.
Lemma score_ok o p : fin o -> 0 <= ext o <= 1 -> in01 p -> let d := Bminus mode_NE o p in
  fin d /\ Rabs (ext d) <= 1 /\ ext d = rnd (ext o - ext p) /\ (ext o = 1 -> 0 <= ext d) /\ (ext o = 0 -> ext d <= 0).
Proof.
  intros Fo Bo Ip d. destruct (in01_inv p Ip) as [Fp Bp]. destruct (ext_minus o p Fo Fp) as [N E]. fold d in N, E.
  assert (B : Rabs (ext d) <= 1). { rewrite E. apply (rnd_abs_pow _ 0); [lia|]. simpl. apply Rabs_le. lra. }
  split; [apply (fin_abs_le _ 0); [exact N|lia|exact B]|]. split; [exact B|]. split; [exact E|]. rewrite E. split; intro H.
  - apply rnd_nonneg. lra.
  - apply rnd_0_le. lra.
Qed.
(** fma of a non-negative factor, a signed number and the rating *)
Lemma upd_ok k d r : ng k 1000 -> fin d -> Rabs (ext d) <= 1 -> fin r -> Rabs (ext r) <= bpow radix2 1000 ->
  let n := Bfma mode_NE k d r in fin n /\ ext n = rnd (ext k * ext d + ext r) /\ (0 <= ext d -> ext r <= ext n) /\ (ext d <= 0 -> ext n <= ext r).
Proof.
  intros Hk Fd Bd Fr Br n. destruct (fma_pow k d r 1000 0 1000 (proj1 Hk) Fd Fr ltac:(lia) ltac:(lia) ltac:(lia) ltac:(lia) (ng_abs _ _ Hk) Bd Br) as [Fn _].
  destruct (ext_fma k d r (proj1 Hk) Fd Fr) as [_ E]. split; [exact Fn|]. split; [exact E|]. destruct Hk as [_ [Pk _]]. fold n in E. rewrite E. split; intro H; rewrite <- (rnd_ext r Fr).
  - rewrite (rnd_ext r Fr) at 2. apply rnd_le. nra.
  - rewrite (rnd_ext r Fr) at 1. apply rnd_le. nra.
Qed.
(** the value c of two sides *)
Lemma c_gen b uu : fin b -> bpow radix2 (-500) <= ext b <= bpow radix2 500 -> ng uu 1001 ->
  let c := Bsqrt mode_NE (Bfma mode_NE (b64_of_Z 2) (Bmult mode_NE b b) uu) in fin c /\ 138 / 100 * ext b <= ext c <= bpow radix2 501.
Proof.
  intros Fb Hb [Fuu UU] c. pose proof (bpow_gt_0 radix2 (-500)) as P500.
  destruct (ext_mult b b Fb Fb) as [Nb2 Eb2]. set (b2 := Bmult mode_NE b b) in *.
  assert (B2 : 0 <= ext b2 <= bpow radix2 1000).
  { rewrite Eb2. split; [apply rnd_nonneg; nra|]. apply rnd_le_pow; [lia|]. apply (sq_le_pow _ 500). lra. }
  assert (Fb2 : fin b2) by (apply (fin_le _ 1000); [auto|lia|lra]).
  assert (B2l : 99 / 100 * (ext b * ext b) <= ext b2).
  { rewrite Eb2. apply rnd_99. split.
    - apply Rle_trans with (bpow radix2 (-500) * bpow radix2 (-500)); [rewrite <- bpow_plus; apply bpow_le; lia|]. nra.
    - apply Rle_trans with (bpow radix2 1000); [apply (sq_le_pow _ 500); lra|apply bpow_le; lia]. }
  assert (E1001 : bpow radix2 1001 = 2 * bpow radix2 1000) by (change 1001%Z with (1 + 1000)%Z; rewrite bpow_plus; reflexivity).
  assert (E1002 : bpow radix2 1002 = 4 * bpow radix2 1000) by (change 1002%Z with (2 + 1000)%Z; rewrite bpow_plus; reflexivity).
  destruct (ext_ofZ 2 ltac:(vm_compute; discriminate)) as [F2' E2'].
  destruct (ext_fma (b64_of_Z 2) b2 uu F2' Fb2 Fuu) as [Ns Es]. set (s := Bfma mode_NE (b64_of_Z 2) b2 uu) in *.
  rewrite E2' in Es.
  assert (Lz : 198 / 100 * (ext b * ext b) <= 2 * ext b2 + ext uu) by lra.
  assert (Bb : bpow radix2 (-1000) <= ext b * ext b).
  { apply Rle_trans with (bpow radix2 (-500) * bpow radix2 (-500)); [rewrite <- bpow_plus; apply bpow_le; lia|]. nra. }
  assert (Sl : 99 / 100 * (198 / 100 * (ext b * ext b)) <= ext s).
  { rewrite Es. apply Rle_trans with (99 / 100 * (2 * ext b2 + ext uu)); [lra|]. apply rnd_99. split.
    - apply Rle_trans with (bpow radix2 (-1000)); [apply bpow_le; lia|]. lra.
    - apply Rle_trans with (bpow radix2 1002); [lra|apply bpow_le; lia]. }
  assert (Su : ext s <= bpow radix2 1002) by (rewrite Es; apply rnd_le_pow; [lia|lra]).
  assert (S0 : 0 < ext s) by (pose proof (bpow_gt_0 radix2 (-1000)); lra).
  assert (Fs : fin s) by (apply (fin_le _ 1002); [auto|lia|lra]).
  destruct (ext_sqrt s Fs ltac:(lra)) as [Nc Ec]. fold c in Nc, Ec.
  assert (Q1 : sqrt (ext s) <= bpow radix2 501).
  { apply Rle_trans with (sqrt (bpow radix2 501 * bpow radix2 501)); [apply sqrt_le_1_alt; rewrite <- bpow_plus; exact Su|].
    rewrite sqrt_square; [lra|apply bpow_ge_0]. }
  assert (Q2 : 140 / 100 * ext b <= sqrt (ext s)).
  { rewrite <- (sqrt_square (140 / 100 * ext b)) by lra. apply sqrt_le_1_alt. nra. }
  assert (Q3 : bpow radix2 (-501) <= sqrt (ext s)).
  { apply Rle_trans with (bpow radix2 (-500)); [apply bpow_le; lia|lra]. }
  assert (C1 : 138 / 100 * ext b <= ext c).
  { rewrite Ec. apply Rle_trans with (99 / 100 * sqrt (ext s)); [lra|]. apply rnd_99. split.
    - apply Rle_trans with (2 := Q3). apply bpow_le; lia.
    - apply Rle_trans with (1 := Q1). apply bpow_le; lia. }
  assert (C2 : ext c <= bpow radix2 501) by (rewrite Ec; apply rnd_le_pow; [lia|exact Q1]).
  split; [|split; assumption]. apply (fin_le _ 501); [exact Nc|lia|]. split; [lra|exact C2].
Qed.

(** ** One player against one *)
Lemma wl_half (r u c p o tol : B64) L : fin r -> Rabs (ext r) <= bpow radix2 1000 -> fin u -> bpow radix2 (-400) <= ext u <= bpow radix2 100 ->
  fin c -> bpow radix2 (-100) <= ext c -> in01 p -> fin o -> 0 <= ext o <= 1 -> fin tol -> bpow radix2 (-200) <= ext tol <= 1 ->
  let n := wl_new_rating (A := B64A L) r u c p o in let v := wl_new_uncertainty (A := B64A L) u c p tol in
  (exists k, ng k 1000 /\ k = Bdiv mode_NE (Bmult mode_NE u u) c /\ ext n = rnd (ext k * rnd (ext o - ext p) + ext r)) /\
  fin n /\ (ext o = 1 -> ext r <= ext n) /\ (ext o = 0 -> ext n <= ext r) /\ fin v /\ 0 < ext v <= ext u.
Proof.
  intros Fr Br Fu Bu Fc Bc Ip Fo Bo Ft Bt n v. pose proof (bpow_gt_0 radix2 (-400)) as P1.
  assert (Nu : ng u 100) by (split; [exact Fu|lra]).
  assert (NK : ng (Bdiv mode_NE (Bmult mode_NE u u) c) 1000) by (apply (ng_div _ _ 200 (-100)); [apply (ng_mul _ _ 100 100); auto; lia|exact Fc|exact Bc|lia|lia]).
  destruct (score_ok o p Fo Bo Ip) as [Fd [Bd [Ed [Dp Dn]]]].
  destruct (upd_ok _ _ r NK Fd Bd Fr Br) as [Fn [En [Up Dw]]].
  split; [eexists; split; [exact NK|]; split; [reflexivity|]; rewrite <- Ed; exact En|].
  split; [exact Fn|]. split; [intro H; apply Up; auto|]. split; [intro H; apply Dw; auto|].
  assert (Nq : ng (Bdiv mode_NE u c) 200) by (apply (ng_div _ _ 100 (-100)); auto; lia).
  assert (Nq3 : ng (fpowi (A := B64A L) (Bdiv mode_NE u c) 3) 600).
  { change (ng (Bmult mode_NE (Bdiv mode_NE u c) (Bmult mode_NE (Bdiv mode_NE u c) (Bdiv mode_NE u c))) 600). apply (ng_mul _ _ 200 400); [exact Nq| |lia|lia].
    apply (ng_mul _ _ 200 200); auto; lia. }
  pose proof (one_minus_in01 p Ip) as Iq.
  assert (Ne : ng (Bmult mode_NE (Bmult mode_NE (fpowi (A := B64A L) (Bdiv mode_NE u c) 3) p) (Bminus mode_NE one64 p)) 600).
  { apply (ng_mul _ _ 600 0); [apply (ng_mul _ _ 600 0); [exact Nq3|apply ng_01, Ip|lia|lia]|apply ng_01, Iq|lia|lia]. }
  set (eta := Bmult mode_NE (Bmult mode_NE _ _) _) in *.
  destruct (minus_pow one64 eta 600 fin_one64 (proj1 Ne) ltac:(lia)) as [Fx _]; [rewrite ext_one64, Rabs_R1; apply (bpow_le radix2 0); lia|exact (ng_abs _ _ Ne)|].
  destruct (ext_minus one64 eta fin_one64 (proj1 Ne)) as [_ Ex]. rewrite ext_one64 in Ex.
  apply unc_ok; auto.
  - split; [apply Rle_trans with (2 := proj1 Bu); apply bpow_le; lia|apply Rle_trans with (1 := proj2 Bu); apply bpow_le; lia].
  - change (ext (Bminus mode_NE one64 eta) <= 1). rewrite Ex. destruct Ne as [_ [Ne _]]. apply Rle_trans with (rnd 1); [apply rnd_le; lra|rewrite rnd_1; lra].
Qed.
(** scores *)
Lemma points_ok L o : let x := to_chess_points (A := B64A L) o in
  fin x /\ 0 <= ext x <= 1 /\ fin (Bminus mode_NE one64 x) /\ 0 <= ext (Bminus mode_NE one64 x) <= 1 /\ ext x = points o /\ ext (Bminus mode_NE one64 x) = 1 - points o.
Proof.
  intro x. destruct (ext_points L o) as [F E]. destruct (ext_points2 L o) as [F2 E2]. fold x in F, E, F2, E2.
  assert (0 <= points o <= 1) by (destruct o; unfold points; lra). rewrite E, E2. repeat split; auto; lra.
Qed.
Lemma p100 : bpow radix2 100 = 2 ^ 100. Proof. symmetry. apply (pow_IZR 2 100). Qed.
Lemma p100' : bpow radix2 (-100) = / 2 ^ 100. Proof. change (-100)%Z with (- (100))%Z. rewrite bpow_opp, p100. reflexivity. Qed.
Lemma p200' : bpow radix2 (-200) = / 2 ^ 200. Proof. change (-200)%Z with (- (200))%Z. rewrite bpow_opp. f_equal. symmetry. apply (pow_IZR 2 200). Qed.
(** the value c of two players *)
Lemma c_ok L b u1 u2 : fin b -> bpow radix2 (-100) <= ext b <= bpow radix2 100 -> fin u1 -> fin u2 -> 0 <= ext u1 <= bpow radix2 100 -> 0 <= ext u2 <= bpow radix2 100 ->
  let c := wl_c_players (A := B64A L) b u1 u2 in fin c /\ 138 / 100 * ext b <= ext c <= bpow radix2 501 /\ bpow radix2 (-100) <= ext c.
Proof.
  intros Fb Bb F1 F2 B1 B2 c.
  assert (N2 : ng (Bmult mode_NE u2 u2) 200) by (apply (ng_mul _ _ 100 100); try lia; split; auto).
  assert (NU : ng (Bfma mode_NE u1 u1 (Bmult mode_NE u2 u2)) 201).
  { destruct (fma_pow u1 u1 (Bmult mode_NE u2 u2) 100 100 200 F1 F1 (proj1 N2) ltac:(lia) ltac:(lia) ltac:(lia) ltac:(lia)) as [F B];
      [rewrite Rabs_pos_eq; lra|rewrite Rabs_pos_eq; lra|exact (ng_abs _ _ N2)|]. split; [exact F|].
    destruct (ext_fma u1 u1 (Bmult mode_NE u2 u2) F1 F1 (proj1 N2)) as [_ E]. split; [rewrite E; apply rnd_nonneg; destruct N2 as [_ [N2 _]]; nra|].
    apply Rle_trans with (2 := B). apply Rle_abs. }
  destruct (c_gen b (Bfma mode_NE u1 u1 (Bmult mode_NE u2 u2)) Fb) as [Fc [Lc Uc]]; [|exact (ng_up _ 201 1001 ltac:(lia) NU)|].
  { split; [apply Rle_trans with (2 := proj1 Bb); apply bpow_le; lia|apply Rle_trans with (1 := proj2 Bb); apply bpow_le; lia]. }
  split; [exact Fc|]. split; [split; assumption|]. apply Rle_trans with (1 := proj1 Bb). pose proof (bpow_gt_0 radix2 (-100)).
  apply Rle_trans with (2 := Lc). lra.
Qed.
Lemma r_small x b : 0 < b <= bpow radix2 100 -> Rabs x <= 800 * b -> Rabs x <= bpow radix2 1000.
Proof.
  intros Hb H. apply Rle_trans with (1 := H). apply Rle_trans with (bpow radix2 10 * bpow radix2 100).
  - apply Rmult_le_compat; try lra. simpl; lra.
  - rewrite <- bpow_plus. apply bpow_le. lia.
Qed.
Definition wl_hyps (L : Libm) (p1 p2 : WengLinRating B64) (cfg : WengLinConfig B64) : Prop :=
  exp_normal L /\ num_in (/ 2 ^ 100) (2 ^ 100) (wl_beta cfg) /\ num_in (/ 2 ^ 200) 1 (wl_uncertainty_tolerance cfg) /\
  num_in (/ 2 ^ 100) (2 ^ 100) (wl_uncertainty p1) /\ num_in (/ 2 ^ 100) (2 ^ 100) (wl_uncertainty p2) /\
  finite (wl_rating p1) /\ finite (wl_rating p2) /\ Rabs (B2R (wl_rating p1)) <= 800 * B2R (wl_beta cfg) /\ Rabs (B2R (wl_rating p2)) <= 800 * B2R (wl_beta cfg).
Lemma num_ext lo hi x : num_in lo hi x -> fin x /\ lo <= ext x <= hi.
Proof. intros [F B]. split; [exact F|]. rewrite (ext_fin x F). exact B. Qed.
Lemma low400 x : bpow radix2 (-100) <= x -> bpow radix2 (-400) <= x.
Proof. intro H. apply Rle_trans with (2 := H). apply bpow_le. lia. Qed.
Lemma wl_game L p1 p2 cfg o : wl_hyps L p1 p2 cfg ->
  let n := weng_lin (A := B64A L) p1 p2 o cfg in let x1 := fst n in let x2 := snd n in
  (fin (wl_rating x1) /\ fin (wl_uncertainty x1) /\ 0 < ext (wl_uncertainty x1) <= ext (wl_uncertainty p1)) /\
  (fin (wl_rating x2) /\ fin (wl_uncertainty x2) /\ 0 < ext (wl_uncertainty x2) <= ext (wl_uncertainty p2)) /\
  (o = WIN -> ext (wl_rating p1) <= ext (wl_rating x1) /\ ext (wl_rating x2) <= ext (wl_rating p2)) /\
  (o = LOSS -> ext (wl_rating x1) <= ext (wl_rating p1) /\ ext (wl_rating p2) <= ext (wl_rating x2)) /\
  (exists k1 k2 q1 q2 : B64, 0 <= ext k1 /\ 0 <= ext k2 /\
   forall o', ext (wl_rating (fst (weng_lin (A := B64A L) p1 p2 o' cfg))) = rnd (ext k1 * rnd (points o' - ext q1) + ext (wl_rating p1)) /\
              ext (wl_rating (snd (weng_lin (A := B64A L) p1 p2 o' cfg))) = rnd (ext k2 * rnd (1 - points o' - ext q2) + ext (wl_rating p2))).
Proof.
  intros [EN [Hb [Ht [H1 [H2 [F1 [F2 [R1 R2]]]]]]]] n x1 x2.
  rewrite <- p200' in Ht. rewrite <- p100', <- p100 in Hb, H1, H2.
  destruct (num_ext _ _ _ Hb) as [Fb Bb]. destruct (num_ext _ _ _ Ht) as [Ft Bt]. destruct (num_ext _ _ _ H1) as [Fu1 Bu1]. destruct (num_ext _ _ _ H2) as [Fu2 Bu2].
  rewrite <- (ext_fin _ F1), <- (ext_fin _ F2), <- (ext_fin _ Fb) in *. pose proof (bpow_gt_0 radix2 (-100)) as P1.
  set (b := wl_beta cfg) in *. set (u1 := wl_uncertainty p1) in *. set (u2 := wl_uncertainty p2) in *.
  assert (Pb : 0 < ext b) by lra. assert (Pb' : 0 < ext b <= bpow radix2 100) by (split; [exact Pb|exact (proj2 Bb)]).
  assert (Bw1 : 0 <= ext u1 <= bpow radix2 100) by lra. assert (Bw2 : 0 <= ext u2 <= bpow radix2 100) by lra.
  destruct (c_ok L b u1 u2 Fb Bb Fu1 Fu2 Bw1 Bw2) as [Fc [Bc Cl]].
  set (c := wl_c_players (A := B64A L) b u1 u2) in *.
  destruct (p_ok L _ _ c b EN F1 F2 Fc Pb (proj1 Bc) R1 R2) as [I1 I2].
  set (q1 := fst (wl_p_value (A := B64A L) (wl_rating p1) (wl_rating p2) c)) in *. set (q2 := snd (wl_p_value (A := B64A L) (wl_rating p1) (wl_rating p2) c)) in *.
  assert (HH : forall o', let n' := weng_lin (A := B64A L) p1 p2 o' cfg in
     wl_rating (fst n') = wl_new_rating (A := B64A L) (wl_rating p1) u1 c q1 (to_chess_points (A := B64A L) o') /\
     wl_rating (snd n') = wl_new_rating (A := B64A L) (wl_rating p2) u2 c q2 (Bminus mode_NE one64 (to_chess_points (A := B64A L) o')) /\
     wl_uncertainty (fst n') = wl_new_uncertainty (A := B64A L) u1 c q1 (wl_uncertainty_tolerance cfg) /\
     wl_uncertainty (snd n') = wl_new_uncertainty (A := B64A L) u2 c q2 (wl_uncertainty_tolerance cfg)) by (intro o'; repeat split; reflexivity).
  pose proof (fun o' => wl_half (wl_rating p1) u1 c q1 _ _ L F1 (r_small _ _ Pb' R1) Fu1 (conj (low400 _ (proj1 Bu1)) (proj2 Bu1)) Fc Cl I1
    (proj1 (points_ok L o')) (proj1 (proj2 (points_ok L o'))) Ft Bt) as X1.
  pose proof (fun o' => wl_half (wl_rating p2) u2 c q2 _ _ L F2 (r_small _ _ Pb' R2) Fu2 (conj (low400 _ (proj1 Bu2)) (proj2 Bu2)) Fc Cl I2
    (proj1 (proj2 (proj2 (points_ok L o')))) (proj1 (proj2 (proj2 (proj2 (points_ok L o'))))) Ft Bt) as X2. cbv zeta in X1, X2.
  destruct (HH o) as [Q1 [Q2 [Q3 Q4]]]. fold n x1 x2 in Q1, Q2, Q3, Q4.
  destruct (points_ok L o) as [_ [_ [_ [_ [Eo Eo2]]]]].
  destruct (X1 o) as [_ [G1 [G2 [G3 [G4 G5]]]]]. destruct (X2 o) as [_ [K1 [K2 [K3 [K4 K5]]]]]. rewrite Eo in G2, G3. rewrite Eo2 in K2, K3.
  rewrite Q1, Q2, Q3, Q4. split; [auto|]. split; [auto|]. split; [intros ->; unfold points in *; split; [apply G2; reflexivity|apply K3; lra]|].
  split; [intros ->; unfold points in *; split; [apply G3; reflexivity|apply K2; lra]|].
  exists (Bdiv mode_NE (Bmult mode_NE u1 u1) c), (Bdiv mode_NE (Bmult mode_NE u2 u2) c), q1, q2.
  destruct (X1 o) as [[k1 [M1 [-> _]]] _]. destruct (X2 o) as [[k2 [M2 [-> _]]] _].
  split; [exact (proj1 (proj2 M1))|]. split; [exact (proj1 (proj2 M2))|]. intro o'.
  destruct (HH o') as [W1 [W2 _]]. destruct (points_ok L o') as [_ [_ [_ [_ [Eo' Eo2']]]]].
  destruct (X1 o') as [[k1' [_ [-> T1]]] _]. destruct (X2 o') as [[k2' [_ [-> T2]]] _].
  rewrite W1, W2, T1, T2, Eo', Eo2'. split; reflexivity.
Qed.
Lemma C97_weng_lin_proof : forall (L : Libm) (p1 p2 : WengLinRating B64) (cfg : WengLinConfig B64) (o : Outcomes),
  exp_normal L -> num_in (/ 2 ^ 100) (2 ^ 100) (wl_beta cfg) -> num_in (/ 2 ^ 200) 1 (wl_uncertainty_tolerance cfg) ->
  num_in (/ 2 ^ 100) (2 ^ 100) (wl_uncertainty p1) -> num_in (/ 2 ^ 100) (2 ^ 100) (wl_uncertainty p2) ->
  finite (wl_rating p1) -> finite (wl_rating p2) ->
  Rabs (B2R (wl_rating p1)) <= 800 * B2R (wl_beta cfg) -> Rabs (B2R (wl_rating p2)) <= 800 * B2R (wl_beta cfg) ->
  let n := weng_lin (A := B64A L) p1 p2 o cfg in
  (finite (wl_rating (fst n)) /\ finite (wl_uncertainty (fst n)) /\ 0 < B2R (wl_uncertainty (fst n)) <= B2R (wl_uncertainty p1)) /\
  (finite (wl_rating (snd n)) /\ finite (wl_uncertainty (snd n)) /\ 0 < B2R (wl_uncertainty (snd n)) <= B2R (wl_uncertainty p2)).
Proof.
  intros L p1 p2 cfg o EN Hb Ht H1 H2 F1 F2 R1 R2 n.
  destruct (wl_game L p1 p2 cfg o (conj EN (conj Hb (conj Ht (conj H1 (conj H2 (conj F1 (conj F2 (conj R1 R2))))))))) as [[A1 [A2 A3]] [[B1 [B2 B3]] _]].
  fold n in A1, A2, A3, B1, B2, B3. rewrite (ext_fin _ A2), (ext_fin _ (proj1 H1)) in A3. rewrite (ext_fin _ B2), (ext_fin _ (proj1 H2)) in B3. auto.
Qed.
Lemma C98_weng_lin_proof : forall (L : Libm) (p1 p2 : WengLinRating B64) (cfg : WengLinConfig B64),
  exp_normal L -> num_in (/ 2 ^ 100) (2 ^ 100) (wl_beta cfg) -> num_in (/ 2 ^ 200) 1 (wl_uncertainty_tolerance cfg) ->
  num_in (/ 2 ^ 100) (2 ^ 100) (wl_uncertainty p1) -> num_in (/ 2 ^ 100) (2 ^ 100) (wl_uncertainty p2) ->
  finite (wl_rating p1) -> finite (wl_rating p2) ->
  Rabs (B2R (wl_rating p1)) <= 800 * B2R (wl_beta cfg) -> Rabs (B2R (wl_rating p2)) <= 800 * B2R (wl_beta cfg) ->
  let one o := wl_rating (fst (weng_lin (A := B64A L) p1 p2 o cfg)) in let two o := wl_rating (snd (weng_lin (A := B64A L) p1 p2 o cfg)) in
  le64 (wl_rating p1) (one WIN) /\ le64 (two WIN) (wl_rating p2) /\ le64 (one LOSS) (wl_rating p1) /\ le64 (wl_rating p2) (two LOSS) /\
  le64 (one DRAW) (one WIN) /\ le64 (one LOSS) (one DRAW) /\ le64 (two WIN) (two DRAW) /\ le64 (two DRAW) (two LOSS).
Proof.
  intros L p1 p2 cfg EN Hb Ht H1 H2 F1 F2 R1 R2 one two.
  pose proof (fun o => wl_game L p1 p2 cfg o (conj EN (conj Hb (conj Ht (conj H1 (conj H2 (conj F1 (conj F2 (conj R1 R2))))))))) as G. cbv zeta in G.
  assert (N1 : forall o, nn (one o)) by (intro o; apply fin_nn; destruct (G o) as [[A _] _]; exact A).
  assert (N2 : forall o, nn (two o)) by (intro o; apply fin_nn; destruct (G o) as [_ [[A _] _]]; exact A).
  pose proof (fin_nn _ F1) as M1. pose proof (fin_nn _ F2) as M2.
  destruct (G WIN) as [_ [_ [W [_ E]]]]. destruct (G LOSS) as [_ [_ [_ [Ls _]]]]. specialize (W eq_refl). specialize (Ls eq_refl). destruct W as [W1 W2]. destruct Ls as [L1 L2].
  destruct E as [k1 [k2 [q1 [q2 [K1 [K2 E]]]]]].
  assert (M : forall a b, points a <= points b -> ext (one a) <= ext (one b) /\ ext (two b) <= ext (two a)).
  { intros a b H. destruct (E a) as [Ea Ea']. destruct (E b) as [Eb Eb']. unfold one, two. rewrite Ea, Ea', Eb, Eb'. split; apply rnd_le.
    - pose proof (rnd_le (points a - ext q1) (points b - ext q1) ltac:(lra)). nra.
    - pose proof (rnd_le (1 - points b - ext q2) (1 - points a - ext q2) ltac:(lra)). nra. }
  assert (PW : points DRAW <= points WIN) by (unfold points; lra). assert (PL : points LOSS <= points DRAW) by (unfold points; lra).
  destruct (M _ _ PW) as [X1 X2]. destruct (M _ _ PL) as [X3 X4].
  repeat split; apply le64_iff; auto.
Qed.

(** ** Rating periods *)
Lemma rnd_up x B : 0 <= x <= B -> bpow radix2 (-1022) <= B <= bpow radix2 1023 -> rnd x <= 101 / 100 * B.
Proof. intros Hx HB. apply Rle_trans with (rnd B); [apply rnd_le; lra|]. apply rnd_99, HB. Qed.
Lemma pq_quarter p : 0 <= p <= 1 -> Rmax p (/ 1024) * Rmax (1 - p) (/ 1024) <= / 4.
Proof.
  intro H. unfold Rmax. destruct (Rle_dec p (/ 1024)); destruct (Rle_dec (1 - p) (/ 1024)); try lra. pose proof (Rle_0_sqr (p - / 2)) as S. unfold Rsqr in S. lra.
Qed.
Lemma bpow_small : bpow radix2 (-1022) <= bpow radix2 (-20) /\ bpow radix2 (-20) = / 1048576 /\ 1048576 <= bpow radix2 1023.
Proof. split; [apply bpow_le; lia|]. split; [reflexivity|]. change 1048576 with (bpow radix2 20). apply bpow_le. lia. Qed.
(** how far one game can move a player *)
Lemma step_bounds L (r u c p o tol b : B64) : fin b -> bpow radix2 (-100) <= ext b <= bpow radix2 100 -> fin r -> fin u -> bpow radix2 (-400) <= ext u <= 2 * ext b ->
  fin c -> 138 / 100 * ext b <= ext c -> in01 p -> fin o -> 0 <= ext o <= 1 -> fin tol -> bpow radix2 (-200) <= ext tol <= 1 ->
  Rabs (ext r) <= 796 * ext b ->
  let n := wl_new_rating (A := B64A L) r u c p o in let v := wl_new_uncertainty (A := B64A L) u c p tol in
  Rabs (ext n) <= Rabs (ext r) + 4 * ext b /\ 3 / 8 * ext u <= ext v.
Proof.
  intros Fb Bb Fr Fu Bu Fc Bc Ip Fo Bo Ft Bt Rr n v. pose proof (bpow_gt_0 radix2 (-400)) as P4. pose proof (bpow_gt_0 radix2 (-100)) as P1.
  destruct bpow_small as [S1 [S2 S3]].
  assert (B100 : bpow radix2 100 <= bpow radix2 101) by (apply bpow_le; lia).
  assert (B101 : bpow radix2 101 = 2 * bpow radix2 100) by (change 101%Z with (1 + 100)%Z; rewrite bpow_plus; reflexivity).
  assert (Nu : ng u 101) by (split; [exact Fu|lra]).
  assert (Cl : bpow radix2 (-100) <= ext c) by lra.
  assert (NQ : ng (Bmult mode_NE u u) 202) by (apply (ng_mul _ _ 101 101); auto; lia).
  assert (NK : ng (Bdiv mode_NE (Bmult mode_NE u u) c) 1000) by (apply (ng_div _ _ 202 (-100)); auto; lia).
  destruct (score_ok o p Fo Bo Ip) as [Fd [Bd [Ed _]]].
  assert (Br : Rabs (ext r) <= bpow radix2 1000) by (apply (r_small _ (ext b)); lra).
  destruct (upd_ok _ _ r NK Fd Bd Fr Br) as [Fn [En _]].
  set (K := Bdiv mode_NE (Bmult mode_NE u u) c) in *.
  (* the factor *)
  assert (Bb2 : bpow radix2 (-200) <= ext b * ext b <= bpow radix2 200).
  { replace (bpow radix2 (-200)) with (bpow radix2 (-100) * bpow radix2 (-100)) by (rewrite <- bpow_plus; reflexivity).
    replace (bpow radix2 200) with (bpow radix2 100 * bpow radix2 100) by (rewrite <- bpow_plus; reflexivity). split; apply Rmult_le_compat; lra. }
  assert (Q1 : ext (Bmult mode_NE u u) <= 404 / 100 * (ext b * ext b)).
  { destruct (ext_mult u u Fu Fu) as [_ ->]. apply Rle_trans with (101 / 100 * (4 * (ext b * ext b))); [|lra]. apply rnd_up; [nra|].
    split; [apply Rle_trans with (bpow radix2 (-200)); [apply bpow_le; lia|pose proof (bpow_gt_0 radix2 (-200)); lra]|].
    apply Rle_trans with (bpow radix2 2 * bpow radix2 200); [change (bpow radix2 2) with 4; lra|rewrite <- bpow_plus; apply bpow_le; lia]. }
  assert (K1 : 0 <= ext K <= 3 * ext b).
  { split; [exact (proj1 (proj2 NK))|]. destruct (ext_div (Bmult mode_NE u u) c (proj1 NQ) Fc ltac:(lra)) as [_ EK]. fold K in EK. rewrite EK.
    apply Rle_trans with (101 / 100 * (293 / 100 * ext b)); [|lra]. apply rnd_up.
    - split; [apply Rmult_le_pos; [apply NQ|apply Rinv_ge_0; lra]|]. apply Rmult_le_reg_r with (ext c); [lra|]. unfold Rdiv at 1. rewrite Rmult_assoc, Rinv_l, Rmult_1_r by lra. nra.
    - split; [apply Rle_trans with (bpow radix2 (-100)); [apply bpow_le; lia|lra]|].
      apply Rle_trans with (bpow radix2 2 * bpow radix2 100); [change (bpow radix2 2) with 4; lra|rewrite <- bpow_plus; apply bpow_le; lia]. }
  split.
  - assert (Ex : Rabs (ext K * ext (Bminus mode_NE o p) + ext r) <= Rabs (ext r) + 3 * ext b).
    { apply Rle_trans with (1 := Rabs_triang _ _). rewrite Rabs_mult, (Rabs_pos_eq (ext K)) by lra. pose proof (Rabs_pos (ext (Bminus mode_NE o p))). nra. }
    change (Rabs (ext n) <= Rabs (ext r) + 4 * ext b). replace (ext n) with (rnd (ext K * ext (Bminus mode_NE o p) + ext r)) by (symmetry; exact En).
    set (x := ext K * ext (Bminus mode_NE o p) + ext r) in *.
    set (m := mag radix2 (ext b)). destruct m as [e He]. specialize (He ltac:(lra)). rewrite Rabs_pos_eq in He by lra.
    assert (E1 : (-100 <= e)%Z). { destruct (Z_le_gt_dec (-100) e); [assumption|]. exfalso. pose proof (bpow_le radix2 e (-101) ltac:(lia)). pose proof (bpow_le radix2 (-101) (-100) ltac:(lia)). lra. }
    assert (E2 : (e <= 101)%Z). { destruct (Z_le_gt_dec e 101); [assumption|]. exfalso. pose proof (bpow_le radix2 101 (e - 1) ltac:(lia)). lra. }
    assert (Hx : Rabs x <= bpow radix2 (e + 10)). { rewrite bpow_plus. change (bpow radix2 10) with 1024. lra. }
    pose proof (rnd_abs (e + 10) x ltac:(lia) Hx) as Er. pose proof (bpow_le radix2 (e + 10 - 54) (e - 1) ltac:(lia)) as Eb.
    replace (rnd x) with ((rnd x - x) + x) by ring. apply Rle_trans with (1 := Rabs_triang _ _). lra.
  - (* the shrink *)
    destruct (in01_inv p Ip) as [Fp Bp]. pose proof (one_minus_in01 p Ip) as Iq. destruct (in01_inv _ Iq) as [Fq Bq].
    assert (Nq : ng (Bdiv mode_NE u c) 250) by (apply (ng_div _ _ 101 (-100)); auto; lia).
    set (q := Bdiv mode_NE u c) in *.
    assert (q1 : 0 <= ext q <= 14645 / 10000).
    { split; [exact (proj1 (proj2 Nq))|]. destruct (ext_div u c Fu Fc ltac:(lra)) as [_ Eq]. fold q in Eq. rewrite Eq.
      apply Rle_trans with (101 / 100 * (145 / 100)); [|lra]. apply rnd_up; [|lra]. split; [apply Rmult_le_pos; [lra|apply Rinv_ge_0; lra]|].
      apply Rmult_le_reg_r with (ext c); [lra|]. unfold Rdiv at 1. rewrite Rmult_assoc, Rinv_l, Rmult_1_r by lra. lra. }
    assert (Nqq : ng (Bmult mode_NE q q) 500) by (apply (ng_mul _ _ 250 250); auto; lia).
    assert (q2 : 0 <= ext (Bmult mode_NE q q) <= 21663 / 10000).
    { split; [exact (proj1 (proj2 Nqq))|]. destruct (ext_mult q q (proj1 Nq) (proj1 Nq)) as [_ ->].
      apply Rle_trans with (101 / 100 * (14645 / 10000 * (14645 / 10000))); [|lra]. apply rnd_up; [split; nra|lra]. }
    assert (Nq3 : ng (Bmult mode_NE q (Bmult mode_NE q q)) 750) by (apply (ng_mul _ _ 250 500); auto; lia).
    set (q3 := Bmult mode_NE q (Bmult mode_NE q q)) in *.
    assert (q3b : 0 <= ext q3 <= 32044 / 10000).
    { split; [exact (proj1 (proj2 Nq3))|]. destruct (ext_mult q _ (proj1 Nq) (proj1 Nqq)) as [_ E3]. fold q3 in E3. rewrite E3.
      apply Rle_trans with (101 / 100 * (14645 / 10000 * (21663 / 10000))); [|lra]. apply rnd_up; [split; nra|lra]. }
    pose proof (pq_quarter (ext p) Bp) as PQ. set (P := Rmax (ext p) (/ 1024)) in *. set (Q := Rmax (1 - ext p) (/ 1024)) in *.
    assert (HP : ext p <= P /\ / 1024 <= P <= 1) by (unfold P; split; [apply Rmax_l|split; [apply Rmax_r|apply Rmax_lub; lra]]).
    assert (HQ : 1 - ext p <= Q /\ / 1024 <= Q <= 1) by (unfold Q; split; [apply Rmax_l|split; [apply Rmax_r|apply Rmax_lub; lra]]).
    assert (Ne1 : ng (Bmult mode_NE q3 p) 750) by (apply (ng_mul _ _ 750 0); [exact Nq3|apply ng_01, Ip|lia|lia]).
    assert (e1 : 0 <= ext (Bmult mode_NE q3 p) <= 32365 / 10000 * P).
    { split; [exact (proj1 (proj2 Ne1))|]. destruct (ext_mult q3 p (proj1 Nq3) Fp) as [_ ->].
      apply Rle_trans with (101 / 100 * (32044 / 10000 * P)); [|lra]. apply rnd_up; [split; nra|lra]. }
    assert (om : 0 <= ext (Bminus mode_NE one64 p) <= 101 / 100 * Q).
    { split; [lra|]. destruct (ext_minus one64 p fin_one64 Fp) as [_ ->]. rewrite ext_one64. apply rnd_up; lra. }
    assert (Ne : ng (Bmult mode_NE (Bmult mode_NE q3 p) (Bminus mode_NE one64 p)) 750) by (apply (ng_mul _ _ 750 0); [exact Ne1|apply ng_01, Iq|lia|lia]).
    set (eta := Bmult mode_NE (Bmult mode_NE q3 p) (Bminus mode_NE one64 p)) in *.
    assert (et : 0 <= ext eta <= 826 / 1000).
    { split; [exact (proj1 (proj2 Ne))|]. destruct (ext_mult (Bmult mode_NE q3 p) (Bminus mode_NE one64 p) (proj1 Ne1) Fq) as [_ Ee]. fold eta in Ee. rewrite Ee.
      apply Rle_trans with (101 / 100 * (8173 / 10000)); [|lra]. apply rnd_up; [|lra]. split; [nra|].
      apply Rle_trans with (32365 / 10000 * P * (101 / 100 * Q)); [apply Rmult_le_compat; lra|].
      replace (32365 / 10000 * P * (101 / 100 * Q)) with (32365 / 10000 * (101 / 100) * (P * Q)) by ring. lra. }
    destruct (ext_minus one64 eta fin_one64 (proj1 Ne)) as [Nx Ex]. rewrite ext_one64 in Ex.
    set (x := Bminus mode_NE one64 eta) in *.
    assert (Bx : 172 / 1000 <= ext x <= 1).
    { rewrite Ex. split; [|apply Rle_trans with (rnd 1); [apply rnd_le; lra|rewrite rnd_1; lra]].
      apply Rle_trans with (99 / 100 * (1 - ext eta)); [lra|]. apply rnd_99. lra. }
    assert (Fx : fin x) by (apply (fin_le _ 0); [exact Nx|lia|simpl; lra]).
    destruct (max_range x tol (fin_nn _ Fx) (fin_nn _ Ft)) as [Nm Em]. set (mm := b64_max x tol) in *.
    assert (Bm : 172 / 1000 <= ext mm <= 1). { rewrite Em. split; [apply Rle_trans with (ext x); [lra|apply Rmax_l]|apply Rmax_lub; lra]. }
    assert (Fm : fin mm) by (apply (fin_le _ 0); [exact Nm|lia|simpl; lra]).
    assert (Bu2 : bpow radix2 (-800) <= ext u * ext u <= bpow radix2 202).
    { replace (bpow radix2 (-800)) with (bpow radix2 (-400) * bpow radix2 (-400)) by (rewrite <- bpow_plus; reflexivity).
      replace (bpow radix2 202) with (bpow radix2 101 * bpow radix2 101) by (rewrite <- bpow_plus; reflexivity). split; apply Rmult_le_compat; lra. }
    destruct (ext_mult u u Fu Fu) as [_ Eq2]. set (uu := Bmult mode_NE u u) in *.
    assert (Luu : 99 / 100 * (ext u * ext u) <= ext uu).
    { rewrite Eq2. apply rnd_99. split; [apply Rle_trans with (2 := proj1 Bu2)|apply Rle_trans with (1 := proj2 Bu2)]; apply bpow_le; lia. }
    assert (P8 : bpow radix2 (-803) = / 8 * bpow radix2 (-800)) by (change (-803)%Z with (-3 + -800)%Z; rewrite bpow_plus; reflexivity).
    pose proof (bpow_gt_0 radix2 (-800)) as P8'.
    destruct (ext_mult uu mm (proj1 NQ) Fm) as [Nw Ew]. set (w := Bmult mode_NE uu mm) in *.
    destruct NQ as [Fuu [Puu Buu]].
    assert (Lw : 99 / 100 * (17 / 100 * (ext u * ext u)) <= ext w).
    { rewrite Ew. apply Rle_trans with (99 / 100 * (ext uu * ext mm)); [apply Rmult_le_compat_l; [lra|]; nra|]. apply rnd_99. split.
      - apply Rle_trans with (bpow radix2 (-803)); [apply bpow_le; lia|]. rewrite P8. nra.
      - apply Rle_trans with (bpow radix2 202); [nra|apply bpow_le; lia]. }
    assert (Uw : ext w <= bpow radix2 202). { rewrite Ew. apply rnd_le_pow; [lia|]. nra. }
    assert (Fw : fin w) by (apply (fin_le _ 202); [exact Nw|lia|nra]).
    destruct (ext_sqrt w Fw ltac:(nra)) as [_ Ev]. change (3 / 8 * ext u <= ext (Bsqrt mode_NE w)). rewrite Ev.
    assert (Sw : 4 / 10 * ext u <= sqrt (ext w)). { rewrite <- (sqrt_square (4 / 10 * ext u)) by lra. apply sqrt_le_1_alt. nra. }
    apply Rle_trans with (99 / 100 * sqrt (ext w)); [lra|]. apply rnd_99. split.
    + apply Rle_trans with (bpow radix2 (-2) * bpow radix2 (-400)); [rewrite <- bpow_plus; apply bpow_le; lia|]. change (bpow radix2 (-2)) with (/ 4). lra.
    + apply Rle_trans with (bpow radix2 101); [|apply bpow_le; lia]. rewrite <- (sqrt_square (bpow radix2 101)) by apply bpow_ge_0. apply sqrt_le_1_alt. rewrite <- bpow_plus. exact Uw.
Qed.
Lemma pow38 j : (j <= 200)%nat -> bpow radix2 (-400) <= bpow radix2 (-100) * (3 / 8) ^ j.
Proof.
  intro H. assert (G : bpow radix2 (-300) <= (3 / 8) ^ j).
  { apply Rle_trans with ((3 / 8) ^ 200).
    - replace (bpow radix2 (-300)) with ((/ 8) ^ 100).
      + change 200%nat with (2 * 100)%nat. rewrite pow_mult. apply pow_incr. lra.
      + change (-300)%Z with (- (300))%Z. rewrite bpow_opp. rewrite pow_inv. f_equal. replace 8 with (2 ^ 3) by lra. rewrite <- pow_mult. exact (pow_IZR 2 300).
    - replace 200%nat with (j + (200 - j))%nat by lia. rewrite pow_add. rewrite <- (Rmult_1_r ((3 / 8) ^ j)) at 2.
      apply Rmult_le_compat_l; [apply pow_le; lra|]. rewrite <- (pow1 (200 - j)). apply pow_incr. lra. }
  change (-400)%Z with (-100 + -300)%Z. rewrite bpow_plus. apply Rmult_le_compat_l; [apply bpow_ge_0|exact G].
Qed.
Lemma wl_period_ok L cfg (rs : list (WengLinRating B64 * Outcomes)) : let b := wl_beta cfg in let tol := wl_uncertainty_tolerance cfg in
  exp_normal L -> fin b -> bpow radix2 (-100) <= ext b <= bpow radix2 100 -> fin tol -> bpow radix2 (-200) <= ext tol <= 1 ->
  Forall (fun x => fin (wl_rating (fst x)) /\ Rabs (ext (wl_rating (fst x))) <= 800 * ext b /\ fin (wl_uncertainty (fst x)) /\ 0 <= ext (wl_uncertainty (fst x)) <= bpow radix2 100) rs ->
  forall (r u : B64) j, fin r -> fin u -> bpow radix2 (-100) * (3 / 8) ^ j <= ext u <= 2 * ext b -> ext u <= bpow radix2 100 ->
  (j + length rs <= 200)%nat -> Rabs (ext r) + 4 * INR (length rs) * ext b <= 800 * ext b ->
  let st := fold_left (wl_period_step (A := B64A L) cfg) rs (r, u) in
  fin (fst st) /\ fin (snd st) /\ 0 < ext (snd st) <= ext u /\
  (Forall (fun x => snd x = WIN) rs -> ext r <= ext (fst st)) /\ (Forall (fun x => snd x = LOSS) rs -> ext (fst st) <= ext r).
Proof.
  intros b tol EN Fb Bb Ft Bt H. induction H as [|[q o] rs [Fq [Bq [Fuq Buq]]] H IH]; intros r u j Fr Fu Bu Bu' Hj Hr st.
  - pose proof (bpow_gt_0 radix2 (-100)). assert (0 < (3 / 8) ^ j) by (apply pow_lt; lra). simpl in st. unfold st. cbn [fst snd]. repeat split; auto; try lra. nra.
  - cbn [length] in Hj, Hr. rewrite S_INR in Hr. cbn [fst] in Fq, Bq, Fuq, Buq. pose proof (bpow_gt_0 radix2 (-100)) as P1. pose proof (pos_INR (length rs)) as PN.
    assert (Pb : 0 < ext b) by lra.
    assert (Pu : bpow radix2 (-400) <= ext u) by (apply Rle_trans with (2 := proj1 Bu); apply pow38; lia). pose proof (bpow_gt_0 radix2 (-400)) as P4.
    assert (Rr : Rabs (ext r) <= 796 * ext b) by nra. assert (Rr' : Rabs (ext r) <= 800 * ext b) by lra.
    destruct (c_ok L b u (wl_uncertainty q) Fb Bb Fu Fuq ltac:(lra) Buq) as [Fc [Bc Cl]].
    set (c := wl_c_players (A := B64A L) b u (wl_uncertainty q)) in *.
    destruct (p_ok L r (wl_rating q) c b EN Fr Fq Fc Pb (proj1 Bc) Rr' Bq) as [I1 _].
    set (p := fst (wl_p_value (A := B64A L) r (wl_rating q) c)) in *.
    destruct (points_ok L o) as [Fo [Bo [_ [_ [Eo _]]]]].
    assert (Rb : Rabs (ext r) <= bpow radix2 1000) by (apply (r_small _ (ext b)); lra).
    destruct (wl_half r u c p (to_chess_points (A := B64A L) o) tol L Fr Rb Fu (conj Pu Bu') Fc Cl I1 Fo Bo Ft Bt) as [_ [Fn [Up [Dn [Fv Bv]]]]].
    destruct (step_bounds L r u c p (to_chess_points (A := B64A L) o) tol b Fb Bb Fr Fu (conj Pu (proj2 Bu)) Fc (proj1 Bc) I1 Fo Bo Ft Bt Rr) as [Sr Su].
    set (n := wl_new_rating (A := B64A L) r u c p (to_chess_points (A := B64A L) o)) in *. set (v := wl_new_uncertainty (A := B64A L) u c p tol) in *.
    assert (Est : st = fold_left (wl_period_step (A := B64A L) cfg) rs (n, v)) by reflexivity.
    destruct (IH n v (S j) Fn Fv) as [G1 [G2 [G3 [G4 G5]]]].
    + split; [|lra]. cbn [pow]. lra.
    + lra.
    + lia.
    + lra.
    + rewrite <- Est in G1, G2, G3, G4, G5. split; [exact G1|]. split; [exact G2|]. split; [lra|]. split; intro A; inversion A as [|? ? A1 A2]; subst; cbn [snd] in A1.
      * apply Rle_trans with (ext n); [apply Up; rewrite Eo, A1; reflexivity|apply G4, A2].
      * apply Rle_trans with (ext n); [apply G5, A2|apply Dn; rewrite Eo, A1; reflexivity].
Qed.
Lemma wl_period_top L p cfg (rs : list (WengLinRating B64 * Outcomes)) : 
  exp_normal L -> num_in (/ 2 ^ 100) (2 ^ 100) (wl_beta cfg) -> num_in (/ 2 ^ 200) 1 (wl_uncertainty_tolerance cfg) ->
  num_in (/ 2 ^ 100) (2 ^ 100) (wl_uncertainty p) -> B2R (wl_uncertainty p) <= 2 * B2R (wl_beta cfg) -> finite (wl_rating p) ->
  Forall (fun x => finite (wl_rating (fst x)) /\ Rabs (B2R (wl_rating (fst x))) <= 800 * B2R (wl_beta cfg) /\ num_in 0 (2 ^ 100) (wl_uncertainty (fst x))) rs ->
  Rabs (B2R (wl_rating p)) + 4 * INR (length rs) * B2R (wl_beta cfg) <= 800 * B2R (wl_beta cfg) ->
  let n := weng_lin_rating_period (A := B64A L) p rs cfg in
  fin (wl_rating n) /\ fin (wl_uncertainty n) /\ 0 < ext (wl_uncertainty n) <= ext (wl_uncertainty p) /\
  (Forall (fun x => snd x = WIN) rs -> ext (wl_rating p) <= ext (wl_rating n)) /\ (Forall (fun x => snd x = LOSS) rs -> ext (wl_rating n) <= ext (wl_rating p)).
Proof.
  intros EN Hb Ht Hu U2 Fr Hrs Hr n. rewrite <- p200' in Ht. rewrite <- p100', <- p100 in Hb, Hu.
  destruct (num_ext _ _ _ Hb) as [Fb Bb]. destruct (num_ext _ _ _ Ht) as [Ft Bt]. destruct (num_ext _ _ _ Hu) as [Fu Bu].
  rewrite <- (ext_fin _ Fb), <- (ext_fin _ Fr) in Hr. rewrite <- (ext_fin _ Fb), <- (ext_fin _ Fu) in U2. pose proof (bpow_gt_0 radix2 (-100)) as P1.
  assert (Hn : (length rs <= 200)%nat). { apply INR_le. replace (INR 200) with 200 by (rewrite INR_IZR_INZ; reflexivity). pose proof (Rabs_pos (ext (wl_rating p))). nra. }
  destruct (wl_period_ok L cfg rs EN Fb Bb Ft Bt) with (r := wl_rating p) (u := wl_uncertainty p) (j := 0%nat) as [G1 [G2 [G3 [G4 G5]]]]; auto.
  - eapply Forall_impl; [|exact Hrs]. intros x [X1 [X2 X3]]. destruct (num_ext _ _ _ X3) as [X4 X5]. rewrite <- (ext_fin _ X1), <- (ext_fin _ Fb) in X2. rewrite p100. auto.
  - cbn [pow]. lra.
  - lra.
  - unfold n, weng_lin_rating_period. destruct (fold_left _ rs _) as [a b]. cbn [fst snd wl_rating wl_uncertainty] in *. auto.
Qed.
Lemma C97_weng_lin_period_proof : forall (L : Libm) (p : WengLinRating B64) (rs : list (WengLinRating B64 * Outcomes)) (cfg : WengLinConfig B64),
  exp_normal L -> num_in (/ 2 ^ 100) (2 ^ 100) (wl_beta cfg) -> num_in (/ 2 ^ 200) 1 (wl_uncertainty_tolerance cfg) ->
  num_in (/ 2 ^ 100) (2 ^ 100) (wl_uncertainty p) -> B2R (wl_uncertainty p) <= 2 * B2R (wl_beta cfg) -> finite (wl_rating p) ->
  Forall (fun x => finite (wl_rating (fst x)) /\ Rabs (B2R (wl_rating (fst x))) <= 800 * B2R (wl_beta cfg) /\ num_in 0 (2 ^ 100) (wl_uncertainty (fst x))) rs ->
  Rabs (B2R (wl_rating p)) + 4 * INR (length rs) * B2R (wl_beta cfg) <= 800 * B2R (wl_beta cfg) ->
  let n := weng_lin_rating_period (A := B64A L) p rs cfg in
  finite (wl_rating n) /\ finite (wl_uncertainty n) /\ 0 < B2R (wl_uncertainty n) <= B2R (wl_uncertainty p).
Proof.
  intros L p rs cfg EN Hb Ht Hu U2 Fr Hrs Hr n. destruct (wl_period_top L p cfg rs EN Hb Ht Hu U2 Fr Hrs Hr) as [G1 [G2 [G3 _]]]. fold n in G1, G2, G3.
  rewrite (ext_fin _ G2), (ext_fin _ (proj1 Hu)) in G3. auto.
Qed.
Lemma C98_weng_lin_period_proof : forall (L : Libm) (p : WengLinRating B64) (rs : list (WengLinRating B64 * Outcomes)) (cfg : WengLinConfig B64),
  exp_normal L -> num_in (/ 2 ^ 100) (2 ^ 100) (wl_beta cfg) -> num_in (/ 2 ^ 200) 1 (wl_uncertainty_tolerance cfg) ->
  num_in (/ 2 ^ 100) (2 ^ 100) (wl_uncertainty p) -> B2R (wl_uncertainty p) <= 2 * B2R (wl_beta cfg) -> finite (wl_rating p) ->
  Forall (fun x => finite (wl_rating (fst x)) /\ Rabs (B2R (wl_rating (fst x))) <= 800 * B2R (wl_beta cfg) /\ num_in 0 (2 ^ 100) (wl_uncertainty (fst x))) rs ->
  Rabs (B2R (wl_rating p)) + 4 * INR (length rs) * B2R (wl_beta cfg) <= 800 * B2R (wl_beta cfg) ->
  let n := weng_lin_rating_period (A := B64A L) p rs cfg in
  (Forall (fun x => snd x = WIN) rs -> le64 (wl_rating p) (wl_rating n)) /\ (Forall (fun x => snd x = LOSS) rs -> le64 (wl_rating n) (wl_rating p)).
Proof.
  intros L p rs cfg EN Hb Ht Hu U2 Fr Hrs Hr n. destruct (wl_period_top L p cfg rs EN Hb Ht Hu U2 Fr Hrs Hr) as [G1 [G2 [_ [G4 G5]]]].
  pose proof (fin_nn _ G1) as N1. pose proof (fin_nn _ Fr) as N2. fold n in G4, G5, N1. split; intro A; apply le64_iff; auto.
Qed.

(** ** Sums *)
Lemma rnd_Zpow z e : (Z.abs z <= 2 ^ 53)%Z -> (-1000 <= e <= 900)%Z -> rnd (IZR z * bpow radix2 e) = IZR z * bpow radix2 e.
Proof.
  intros H He. assert (B : Rabs (IZR z * bpow radix2 e) <= bpow radix2 (53 + e)).
  { rewrite Rabs_mult, (Rabs_pos_eq (bpow radix2 e)) by apply bpow_ge_0. rewrite bpow_plus. apply Rmult_le_compat_r; [apply bpow_ge_0|].
    rewrite <- abs_IZR. change (bpow radix2 53) with (IZR (2 ^ 53)). now apply IZR_le. }
  apply rnd_id.
  - destruct (Z.eq_dec (Z.abs z) (2 ^ 53)) as [E|E].
    + assert (G : generic_format radix2 fexp64 (bpow radix2 (53 + e))) by (apply generic_format_bpow; rewrite fexp64_FLT; unfold FLT_exp; lia).
      rewrite bpow_plus in G. change (bpow radix2 53) with (IZR (2 ^ 53)) in G.
      destruct (Z.abs_spec z) as [[_ Q]|[_ Q]]; rewrite Q in E.
      * rewrite E. exact G.
      * replace z with (- 2 ^ 53)%Z by lia. rewrite opp_IZR, <- Ropp_mult_distr_l. apply generic_format_opp, G.
    + rewrite fexp64_FLT. apply generic_format_FLT. exists (Float radix2 z e); simpl; try reflexivity; lia.
  - apply Rle_trans with (1 := B). unfold M64. apply bpow_le. lia.
Qed.
Lemma fsum_scaled (L : Libm) e l : (-1000 <= e <= 900)%Z -> Forall (fun x => fin x /\ Rabs (ext x) <= bpow radix2 e) l -> forall acc n,
  fin acc -> (0 <= n)%Z -> (n + Z.of_nat (length l) <= 2 ^ 53)%Z -> Rabs (ext acc) <= IZR n * bpow radix2 e ->
  let s := fold_left (fadd (Arith := B64A L)) l acc in
  fin s /\ Rabs (ext s) <= IZR (n + Z.of_nat (length l)) * bpow radix2 e /\
  (Forall (fun x => 0 <= ext x) l -> ext acc <= ext s /\ (0 <= ext acc -> Forall (fun x => ext x <= ext s) l)) /\
  (Forall (fun x => ext x <= 0) l -> ext s <= ext acc).
Proof.
  intros He. induction 1 as [|x l [Fx Bx] _ IH]; intros acc n Fa Hn Hl Ha.
  - simpl. rewrite Z.add_0_r. repeat split; auto; intros; lra.
  - cbn [length fold_left] in *. change (fadd (Arith := B64A L) acc x) with (Bplus mode_NE acc x). pose proof (bpow_gt_0 radix2 e) as Pe.
    destruct (ext_plus acc x Fa Fx) as [N E].
    assert (B : Rabs (ext (Bplus mode_NE acc x)) <= IZR (n + 1) * bpow radix2 e).
    { rewrite E. apply Rabs_le_inv in Ha, Bx. apply Rabs_le.
      rewrite <- (rnd_Zpow (n + 1) e) by (rewrite ?Z.abs_eq; lia). replace (- rnd (IZR (n + 1) * bpow radix2 e)) with (rnd (IZR (- (n + 1)) * bpow radix2 e)).
      2: { rewrite !rnd_Zpow by (rewrite ?Z.abs_opp, ?Z.abs_eq; lia). rewrite opp_IZR. ring. }
      rewrite opp_IZR, plus_IZR. split; apply rnd_le; lra. }
    assert (F : fin (Bplus mode_NE acc x)).
    { apply (fin_abs_le _ 953); [exact N|lia|]. apply Rle_trans with (1 := B). apply Rle_trans with (bpow radix2 53 * bpow radix2 900); [|rewrite <- bpow_plus; apply bpow_le; lia].
      apply Rmult_le_compat; [apply IZR_le; lia|lra| |apply bpow_le; lia]. change (bpow radix2 53) with (IZR (2 ^ 53)). apply IZR_le. lia. }
    destruct (IH (Bplus mode_NE acc x) (n + 1)%Z F ltac:(lia) ltac:(lia) B) as [G1 [G2 [G3 G4]]].
    split; [exact G1|]. split; [replace (n + Z.of_nat (S (length l)))%Z with (n + 1 + Z.of_nat (length l))%Z by lia; exact G2|].
    split; intro A; inversion A as [|? ? A1 A2]; subst.
    + assert (M1 : ext acc <= ext (Bplus mode_NE acc x)) by (rewrite E, <- (rnd_ext acc Fa) at 1; apply rnd_le; rewrite ?(rnd_ext acc Fa); lra).
      destruct (G3 A2) as [G5 G6]. split; [lra|]. intro Pa. constructor; [|apply G6; lra].
      apply Rle_trans with (2 := G5). rewrite E, <- (rnd_ext x Fx) at 1. apply rnd_le. lra.
    + assert (M1 : ext (Bplus mode_NE acc x) <= ext acc) by (rewrite E, <- (rnd_ext acc Fa); apply rnd_le; rewrite ?(rnd_ext acc Fa); lra).
      specialize (G4 A2). lra.
Qed.

(** ** Teams *)
Definition team_fit (b : B64) (team : list (WengLinRating B64)) : Prop := (Z.of_nat (length team) <= 2 ^ 53)%Z /\
  Forall (fun p => finite (wl_rating p) /\ INR (length team) * Rabs (B2R (wl_rating p)) <= 400 * B2R b /\ num_in (/ 2 ^ 100) (2 ^ 100) (wl_uncertainty p)) team.
Lemma team_rating_ok L b team : fin b -> bpow radix2 (-100) <= ext b <= bpow radix2 100 -> team_fit b team ->
  let s := wl_team_rating (A := B64A L) team in fin s /\ Rabs (ext s) <= 800 * ext b.
Proof.
  intros Fb Bb [Hn HT] s. pose proof (bpow_gt_0 radix2 (-100)) as P1.
  destruct team as [|p0 team]; [unfold s, wl_team_rating; simpl; split; [reflexivity|rewrite Rabs_R0; lra]|].
  set (t := p0 :: team) in *. assert (Pn : 1 <= INR (length t)) by (unfold t; cbn [length]; rewrite S_INR; pose proof (pos_INR (length team)); lra).
  assert (Un : INR (length t) <= bpow radix2 53) by (rewrite INR_IZR_INZ; change (bpow radix2 53) with (IZR (2 ^ 53)); apply IZR_le; exact Hn).
  set (X := 400 * ext b / INR (length t)). assert (PX : 0 < X) by (apply Rmult_lt_0_compat; [lra|apply Rinv_0_lt_compat; lra]).
  assert (EX : INR (length t) * X = 400 * ext b) by (unfold X; field; lra).
  assert (LX : bpow radix2 (-153) <= X).
  { apply Rmult_le_reg_l with (INR (length t)); [lra|]. rewrite EX. apply Rle_trans with (bpow radix2 53 * bpow radix2 (-153)); [apply Rmult_le_compat_r; [apply bpow_ge_0|exact Un]|].
    rewrite <- bpow_plus. simpl (53 + -153)%Z. lra. }
  assert (UX : X <= bpow radix2 109). { apply Rle_trans with (400 * ext b); [rewrite <- EX; nra|]. apply Rle_trans with (bpow radix2 9 * bpow radix2 100); [change (bpow radix2 9) with 512; lra|rewrite <- bpow_plus; apply bpow_le; lia]. }
  destruct (mag radix2 X) as [e He]. specialize (He ltac:(lra)). rewrite Rabs_pos_eq in He by lra.
  assert (E1 : (-153 <= e)%Z). { destruct (Z_le_gt_dec (-153) e); [assumption|]. exfalso. pose proof (bpow_le radix2 e (-153) ltac:(lia)). lra. }
  assert (E2 : (e <= 110)%Z). { destruct (Z_le_gt_dec e 110); [assumption|]. exfalso. pose proof (bpow_lt radix2 109 (e - 1) ltac:(lia)). lra. }
  assert (E3 : bpow radix2 e = 2 * bpow radix2 (e - 1)) by (replace e with (1 + (e - 1))%Z at 1 by lia; rewrite bpow_plus; reflexivity).
  destruct (fsum_scaled L e (map wl_rating t)) with (acc := B754_zero true : B64) (n := 0%Z) as [G1 [G2 _]].
  - lia.
  - apply Forall_map. eapply Forall_impl; [|exact HT]. intros p [F [B _]]. split; [exact F|]. rewrite <- (ext_fin _ F), <- (ext_fin _ Fb), <- EX in B.
    apply Rle_trans with X; [|lra]. apply Rmult_le_reg_l with (INR (length t)); lra.
  - reflexivity.
  - lia.
  - rewrite map_length. exact Hn.
  - simpl. rewrite Rabs_R0. lra.
  - split; [exact G1|]. apply Rle_trans with (1 := G2). rewrite map_length, Z.add_0_l, <- INR_IZR_INZ.
    apply Rle_trans with (INR (length t) * (2 * X)); [apply Rmult_le_compat_l; lra|]. lra.
Qed.
Lemma sq200 u : num_in (/ 2 ^ 100) (2 ^ 100) u -> let q := Bmult mode_NE u u in ng q 200 /\ bpow radix2 (-200) <= ext q.
Proof.
  intros H q. rewrite <- p100', <- p100 in H. destruct (num_ext _ _ _ H) as [F B]. pose proof (bpow_gt_0 radix2 (-100)).
  assert (N : ng u 100) by (split; [exact F|lra]). split; [apply (ng_mul _ _ 100 100); auto; lia|].
  destruct (ext_mult u u F F) as [_ E]. fold q in E. rewrite E. apply rnd_ge_pow; [lia|]. change (-200)%Z with (-100 + -100)%Z. rewrite bpow_plus. apply Rmult_le_compat; lra.
Qed.
Lemma team_unc_ok L b team : team_fit b team -> team <> [] ->
  let U := wl_team_uncertainty_sq (A := B64A L) team in ng U 253 /\ bpow radix2 (-200) <= ext U /\
  Forall (fun p => ext (Bmult mode_NE (wl_uncertainty p) (wl_uncertainty p)) <= ext U) team.
Proof.
  intros [Hn HT] NE U. pose proof (bpow_gt_0 radix2 (-200)) as P2.
  set (f := fun p : WengLinRating B64 => Bmult mode_NE (wl_uncertainty p) (wl_uncertainty p)).
  assert (HF : Forall (fun p => ng (f p) 200 /\ bpow radix2 (-200) <= ext (f p)) team).
  { eapply Forall_impl; [|exact HT]. intros p [_ [_ B]]. exact (sq200 _ B). }
  destruct (fsum_scaled L 200 (map f team)) with (acc := B754_zero true : B64) (n := 0%Z) as [G1 [G2 [G3 _]]].
  - lia.
  - apply Forall_map. eapply Forall_impl; [|exact HF]. intros p [F _]. split; [exact (proj1 F)|exact (ng_abs _ _ F)].
  - reflexivity.
  - lia.
  - rewrite map_length. exact Hn.
  - simpl. rewrite Rabs_R0. lra.
  - change (fold_left (fadd (Arith := B64A L)) (map f team) (B754_zero true)) with U in *.
    destruct G3 as [G4 G5]. { apply Forall_map. eapply Forall_impl; [|exact HF]. intros p [F _]. exact (proj1 (proj2 F)). }
    simpl in G4. specialize (G5 ltac:(simpl; lra)). rewrite Forall_map in G5.
    split; [split; [exact G1|split; [exact G4|]]|].
    + apply Rle_trans with (1 := Rle_abs _). apply Rle_trans with (1 := G2). rewrite map_length, Z.add_0_l. change 253%Z with (53 + 200)%Z. rewrite bpow_plus.
      apply Rmult_le_compat_r; [apply bpow_ge_0|]. change (bpow radix2 53) with (IZR (2 ^ 53)). apply IZR_le. exact Hn.
    + split; [|exact G5]. destruct team as [|p0 team]; [contradiction|]. inversion G5 as [|? ? X _]. inversion HF as [|? ? [_ Y] _]. lra.
Qed.
(** one opponent's share of omega and of large delta *)
Lemma share_ok L (U c p o : B64) : ng U 253 -> fin c -> bpow radix2 (-100) <= ext c <= bpow radix2 501 -> in01 p -> fin o -> 0 <= ext o <= 1 ->
  let sd := wl_small_delta (A := B64A L) U c p o in let et := wl_eta (A := B64A L) U c p (wl_gamma (A := B64A L) U c) in
  fin sd /\ Rabs (ext sd) <= bpow radix2 400 /\ (ext o = 1 -> 0 <= ext sd) /\ (ext o = 0 -> ext sd <= 0) /\ ng et 800.
Proof.
  intros NU Fc Bc Ip Fo Bo sd et. pose proof (bpow_gt_0 radix2 (-100)) as P1.
  assert (Nk : ng (Bdiv mode_NE U c) 400) by (apply (ng_div _ _ 253 (-100)); auto; try lia; apply Bc).
  destruct (score_ok o p Fo Bo Ip) as [Fd [Bd [_ [Dp Dn]]]].
  destruct (ext_mult _ _ (proj1 Nk) Fd) as [_ E].
  destruct (mult_pow (Bdiv mode_NE U c) (Bminus mode_NE o p) 400 0 (proj1 Nk) Fd ltac:(lia) ltac:(lia) ltac:(lia) (ng_abs _ _ Nk) Bd) as [Fs Bs].
  change (Bmult mode_NE (Bdiv mode_NE U c) (Bminus mode_NE o p)) with sd in *.
  split; [exact Fs|]. split; [exact Bs|]. destruct Nk as [Fk [Pk Bk]]. 
  split; [intro H; rewrite E; apply rnd_nonneg; specialize (Dp H); nra|]. split; [intro H; rewrite E; apply rnd_0_le; specialize (Dn H); nra|].
  assert (Ng : ng (Bdiv mode_NE (Bsqrt mode_NE U) c) 230) by (apply (ng_div _ _ 130 (-100)); auto; try lia; [apply (ng_sqrt _ 253); auto; lia|apply Bc]).
  assert (Ngu : ng (Bmult mode_NE (Bdiv mode_NE (Bsqrt mode_NE U) c) U) 500) by (apply (ng_mul _ _ 230 253); auto; lia).
  assert (Hc2 : fin (Bmult mode_NE c c) /\ bpow radix2 (-200) <= ext (Bmult mode_NE c c)).
  { assert (Nc : ng c 501) by (split; [exact Fc|lra]). split; [apply (ng_mul _ _ 501 501 1002); auto; lia|]. destruct (ext_mult c c Fc Fc) as [_ ->].
    apply rnd_ge_pow; [lia|]. change (-200)%Z with (-100 + -100)%Z. rewrite bpow_plus. apply Rmult_le_compat; lra. }
  assert (N1 : ng (Bdiv mode_NE (Bmult mode_NE (Bdiv mode_NE (Bsqrt mode_NE U) c) U) (Bmult mode_NE c c)) 700) by (apply (ng_div _ _ 500 (-200)); auto; try lia; apply Hc2).
  change (ng (Bmult mode_NE (Bmult mode_NE (Bdiv mode_NE (Bmult mode_NE (Bdiv mode_NE (Bsqrt mode_NE U) c) U) (Bmult mode_NE c c)) p) (Bminus mode_NE one64 p)) 800).
  apply (ng_mul _ _ 800 0); [|apply ng_01, one_minus_in01, Ip|lia|lia]. apply (ng_mul _ _ 700 0); [exact N1|apply ng_01, Ip|lia|lia].
Qed.
(** the update of one member *)
Lemma member_ok L (U om ld r u tol : B64) : let q := Bmult mode_NE u u in
  ng U 253 -> bpow radix2 (-200) <= ext U -> ext q <= ext U -> fin om -> Rabs (ext om) <= bpow radix2 500 -> ng ld 900 ->
  fin r -> Rabs (ext r) <= bpow radix2 500 -> num_in (/ 2 ^ 100) (2 ^ 100) u -> fin tol -> bpow radix2 (-200) <= ext tol <= 1 ->
  let n := wl_new_rating_teams (A := B64A L) r q U om in let v := wl_new_uncertainty_teams (A := B64A L) q U tol ld in
  fin n /\ fin v /\ 0 < ext v <= ext u /\ (0 <= ext om -> ext r <= ext n) /\ (ext om <= 0 -> ext n <= ext r).
Proof.
  intros q NU LU Hq Fo Bo Nl Fr Br Hu Ft Bt n v. pose proof (bpow_gt_0 radix2 (-200)) as P2.
  destruct (sq200 u Hu) as [Nq Lq]. fold q in Nq, Lq. rewrite <- p100', <- p100 in Hu. destruct (num_ext _ _ _ Hu) as [Fu Bu].
  destruct (ext_div q U (proj1 Nq) (proj1 NU) ltac:(lra)) as [Nk Ek]. set (k := Bdiv mode_NE q U) in *.
  assert (Bk : 0 <= ext k <= bpow radix2 0).
  { rewrite Ek. split; [apply rnd_nonneg; apply Rmult_le_pos; [lra|apply Rinv_ge_0; lra]|]. apply rnd_le_pow; [lia|]. simpl (bpow radix2 0).
    apply Rmult_le_reg_r with (ext U); [lra|]. unfold Rdiv. rewrite Rmult_assoc, Rinv_l, Rmult_1_r by lra. lra. }
  assert (Fk : fin k) by (apply (fin_le _ 0); [exact Nk|lia|exact Bk]).
  assert (Ak : Rabs (ext k) <= bpow radix2 0) by (rewrite Rabs_pos_eq; lra).
  destruct (fma_pow k om r 0 500 500 Fk Fo Fr ltac:(lia) ltac:(lia) ltac:(lia) ltac:(lia) Ak Bo Br) as [Fn _].
  destruct (ext_fma k om r Fk Fo Fr) as [_ En]. change (Bfma mode_NE k om r) with n in *.
  destruct (ext_opp ld (fin_nn _ (proj1 Nl))) as [Nol Eol].
  assert (Fol : fin (Bopp ld)) by (apply (fin_abs_le _ 900); [exact Nol|lia|]; rewrite Eol, Rabs_Ropp; exact (ng_abs _ _ Nl)).
  destruct (fma_pow k (Bopp ld) one64 0 900 900 Fk Fol fin_one64 ltac:(lia) ltac:(lia) ltac:(lia) ltac:(lia) Ak) as [Fx _].
  { rewrite Eol, Rabs_Ropp. exact (ng_abs _ _ Nl). }
  { rewrite ext_one64, Rabs_R1. apply (bpow_le radix2 0). lia. }
  destruct (ext_fma k (Bopp ld) one64 Fk Fol fin_one64) as [_ Ex]. rewrite Eol, ext_one64 in Ex. set (x := Bfma mode_NE k (Bopp ld) one64) in *.
  assert (X1 : ext x <= 1). { rewrite Ex. apply Rle_trans with (rnd 1); [apply rnd_le|rewrite rnd_1; lra]. destruct Nl as [_ [Nl _]]. nra. }
  destruct (unc_ok u x tol Fu) as [Fv Bv]; auto.
  { split; [apply low400, Bu|apply Rle_trans with (1 := proj2 Bu); apply bpow_le; lia]. }
  split; [exact Fn|]. split; [exact Fv|]. split; [exact Bv|]. rewrite En. split; intro H; [rewrite <- (rnd_ext r Fr) at 1|rewrite <- (rnd_ext r Fr)]; apply rnd_le; rewrite ?(rnd_ext r Fr); nra.
Qed.
Definition member_res (p n : WengLinRating B64) : Prop := finite (wl_rating n) /\ finite (wl_uncertainty n) /\ 0 < B2R (wl_uncertainty n) <= B2R (wl_uncertainty p).
Lemma Forall2_map_same {X} (P : X -> X -> Prop) f l : Forall (fun x => P x (f x)) l -> Forall2 P l (map f l).
Proof. induction 1; simpl; constructor; auto. Qed.
Lemma update_ok L b cfg team om ld : fin b -> bpow radix2 (-100) <= ext b <= bpow radix2 100 -> team_fit b team -> team <> [] ->
  fin om -> Rabs (ext om) <= bpow radix2 500 -> ng ld 900 -> num_in (/ 2 ^ 200) 1 (wl_uncertainty_tolerance cfg) ->
  let U := wl_team_uncertainty_sq (A := B64A L) team in let nt := wl_update_team (A := B64A L) cfg U om ld team in
  Forall2 member_res team nt /\
  (0 <= ext om -> Forall2 (fun p n => le64 (wl_rating p) (wl_rating n)) team nt) /\ (ext om <= 0 -> Forall2 (fun p n => le64 (wl_rating n) (wl_rating p)) team nt).
Proof.
  intros Fb Bb HT NE Fo Bo Nl Ht U nt. destruct (team_unc_ok L b team HT NE) as [NU [LU HU]]. fold U in NU, LU, HU.
  rewrite <- p200' in Ht. destruct (num_ext _ _ _ Ht) as [Ft Bt]. pose proof (bpow_gt_0 radix2 (-100)) as P1.
  set (f := fun p : WengLinRating B64 => mkWL (wl_new_rating_teams (A := B64A L) (wl_rating p) (Bmult mode_NE (wl_uncertainty p) (wl_uncertainty p)) U om)
    (wl_new_uncertainty_teams (A := B64A L) (Bmult mode_NE (wl_uncertainty p) (wl_uncertainty p)) U (wl_uncertainty_tolerance cfg) ld)).
  assert (H : Forall (fun p => member_res p (f p) /\ (0 <= ext om -> le64 (wl_rating p) (wl_rating (f p))) /\ (ext om <= 0 -> le64 (wl_rating (f p)) (wl_rating p))) team).
  { destruct HT as [Hn HT]. rewrite Forall_forall in *. intros p Hp. destruct (HT p Hp) as [Fr [Br Hu]]. specialize (HU p Hp). rewrite <- (ext_fin _ Fr), <- (ext_fin _ Fb) in Br.
    assert (N1 : 1 <= INR (length team)) by (destruct team as [|? t']; [contradiction|]; cbn [length]; rewrite S_INR; pose proof (pos_INR (length t')); lra).
    assert (Br' : Rabs (ext (wl_rating p)) <= bpow radix2 500).
    { pose proof (Rabs_pos (ext (wl_rating p))). apply Rle_trans with (400 * ext b); [nra|]. apply Rle_trans with (bpow radix2 9 * bpow radix2 100); [change (bpow radix2 9) with 512; lra|rewrite <- bpow_plus; apply bpow_le; lia]. }
    destruct (member_ok L U om ld (wl_rating p) (wl_uncertainty p) (wl_uncertainty_tolerance cfg) NU LU HU Fo Bo Nl Fr Br' Hu Ft Bt) as [G1 [G2 [G3 [G4 G5]]]].
    pose proof (fin_nn _ G1) as N2. pose proof (fin_nn _ Fr) as N3.
    rewrite (ext_fin _ G2), (ext_fin _ (proj1 Hu)) in G3. split; [exact (conj G1 (conj G2 G3))|]. split; intro A; apply le64_iff; auto. }
  assert (En : nt = map f team) by reflexivity. rewrite En.
  split; [|split; intro A]; apply Forall2_map_same; (eapply Forall_impl; [|exact H]); intros p [H1 [H2 H3]]; auto.
Qed.
Lemma c_teams_ok L b U1 U2 : fin b -> bpow radix2 (-100) <= ext b <= bpow radix2 100 -> ng U1 253 -> ng U2 253 ->
  let c := wl_c_teams (A := B64A L) b U1 U2 in fin c /\ 138 / 100 * ext b <= ext c /\ bpow radix2 (-100) <= ext c <= bpow radix2 501.
Proof.
  intros Fb Bb N1 N2 c. destruct (ng_plus U1 U2 253 254 N1 N2 ltac:(lia) ltac:(lia)) as [NU _].
  destruct (c_gen b (Bplus mode_NE U1 U2) Fb) as [Fc [Lc Uc]]; [|exact (ng_up _ 254 1001 ltac:(lia) NU)|].
  { split; [apply Rle_trans with (2 := proj1 Bb); apply bpow_le; lia|apply Rle_trans with (1 := proj2 Bb); apply bpow_le; lia]. }
  pose proof (bpow_gt_0 radix2 (-100)). split; [exact Fc|]. split; [exact Lc|]. split; [|exact Uc]. apply Rle_trans with (2 := Lc). lra.
Qed.
Lemma same_team_res (t : list (WengLinRating B64)) b : team_fit b t -> Forall2 member_res t t /\ Forall2 (fun p n => le64 (wl_rating p) (wl_rating n)) t t.
Proof.
  intros [_ H]. assert (E : map (fun p => p) t = t) by apply map_id. rewrite <- E at 2 4. split; apply Forall2_map_same; (eapply Forall_impl; [|exact H]); intros p [Fr [_ [Fu Bu]]].
  - split; [exact Fr|]. split; [exact Fu|]. assert (0 < / 2 ^ 100) by (apply Rinv_0_lt_compat, pow_lt; lra). lra.
  - apply le64_iff; try apply fin_nn, Fr. lra.
Qed.
Lemma wl_two_teams_ok L cfg t1 t2 o : exp_normal L -> num_in (/ 2 ^ 100) (2 ^ 100) (wl_beta cfg) -> num_in (/ 2 ^ 200) 1 (wl_uncertainty_tolerance cfg) ->
  team_fit (wl_beta cfg) t1 -> team_fit (wl_beta cfg) t2 ->
  let n := weng_lin_two_teams (A := B64A L) t1 t2 o cfg in
  Forall2 member_res t1 (fst n) /\ Forall2 member_res t2 (snd n) /\
  (o = WIN -> Forall2 (fun p n => le64 (wl_rating p) (wl_rating n)) t1 (fst n) /\ Forall2 (fun p n => le64 (wl_rating n) (wl_rating p)) t2 (snd n)) /\
  (o = LOSS -> Forall2 (fun p n => le64 (wl_rating n) (wl_rating p)) t1 (fst n) /\ Forall2 (fun p n => le64 (wl_rating p) (wl_rating n)) t2 (snd n)).
Proof.
  intros EN Hb Ht T1 T2 n.
  assert (SW : forall (t : list (WengLinRating B64)), Forall2 (fun p n => le64 (wl_rating p) (wl_rating n)) t t -> Forall2 (fun p n => le64 (wl_rating n) (wl_rating p)) t t).
  { intros t H. induction t as [|p t IH]; constructor; inversion H; auto. }
  assert (EMP : n = (t1, t2) -> Forall2 member_res t1 (fst n) /\ Forall2 member_res t2 (snd n) /\
    (o = WIN -> Forall2 (fun p n => le64 (wl_rating p) (wl_rating n)) t1 (fst n) /\ Forall2 (fun p n => le64 (wl_rating n) (wl_rating p)) t2 (snd n)) /\
    (o = LOSS -> Forall2 (fun p n => le64 (wl_rating n) (wl_rating p)) t1 (fst n) /\ Forall2 (fun p n => le64 (wl_rating p) (wl_rating n)) t2 (snd n))).
  { intros ->. cbn [fst snd]. destruct (same_team_res t1 _ T1) as [A1 A2]. destruct (same_team_res t2 _ T2) as [A3 A4]. auto 10. }
  destruct t1 as [|a1 t1']; [apply EMP; reflexivity|]. destruct t2 as [|a2 t2']; [apply EMP; reflexivity|]. clear EMP.
  set (t1 := a1 :: t1') in *. set (t2 := a2 :: t2') in *. assert (NE1 : t1 <> []) by discriminate. assert (NE2 : t2 <> []) by discriminate.
  rewrite <- p100', <- p100 in Hb. destruct (num_ext _ _ _ Hb) as [Fb Bb]. pose proof (bpow_gt_0 radix2 (-100)) as P1. assert (Pb : 0 < ext (wl_beta cfg)) by lra.
  destruct (team_unc_ok L _ t1 T1 NE1) as [NU1 _]. destruct (team_unc_ok L _ t2 T2 NE2) as [NU2 _].
  destruct (team_rating_ok L _ t1 Fb Bb T1) as [FR1 BR1]. destruct (team_rating_ok L _ t2 Fb Bb T2) as [FR2 BR2].
  set (U1 := wl_team_uncertainty_sq (A := B64A L) t1) in *. set (U2 := wl_team_uncertainty_sq (A := B64A L) t2) in *.
  destruct (c_teams_ok L _ U1 U2 Fb Bb NU1 NU2) as [Fc [Lc Bc]]. set (c := wl_c_teams (A := B64A L) (wl_beta cfg) U1 U2) in *.
  destruct (p_ok L _ _ c _ EN FR1 FR2 Fc Pb Lc BR1 BR2) as [I1 I2].
  set (p1 := fst (wl_p_value (A := B64A L) (wl_team_rating (A := B64A L) t1) (wl_team_rating (A := B64A L) t2) c)) in *.
  set (p2 := snd (wl_p_value (A := B64A L) (wl_team_rating (A := B64A L) t1) (wl_team_rating (A := B64A L) t2) c)) in *.
  destruct (points_ok L o) as [Fo [Bo [Fo2 [Bo2 [Eo Eo2]]]]].
  destruct (share_ok L U1 c p1 _ NU1 Fc Bc I1 Fo Bo) as [Fs1 [Bs1 [Up1 [Dn1 Ne1]]]].
  destruct (share_ok L U2 c p2 _ NU2 Fc Bc I2 Fo2 Bo2) as [Fs2 [Bs2 [Up2 [Dn2 Ne2]]]].
  assert (P45 : bpow radix2 400 <= bpow radix2 500) by (apply bpow_le; lia).
  destruct (update_ok L _ cfg t1 _ _ Fb Bb T1 NE1 Fs1 (Rle_trans _ _ _ Bs1 P45) (ng_up _ 800 900 ltac:(lia) Ne1) Ht) as [G1 [G2 G3]].
  destruct (update_ok L _ cfg t2 _ _ Fb Bb T2 NE2 Fs2 (Rle_trans _ _ _ Bs2 P45) (ng_up _ 800 900 ltac:(lia) Ne2) Ht) as [K1 [K2 K3]].
  rewrite Eo in Up1, Dn1. rewrite Eo2 in Up2, Dn2.
  split; [exact G1|]. split; [exact K1|]. split; intros ->; unfold points in *.
  - split; [apply G2, Up1; reflexivity|apply K3, Dn2; lra].
  - split; [apply G3, Dn1; reflexivity|apply K2, Up2; lra].
Qed.

(** ** Any number of teams *)
Lemma fold_pair {X F} (add : F -> F -> F) (skip : X -> bool) (f g : X -> F) l a b :
  fold_left (fun (acc : F * F) x => if skip x then acc else (add (fst acc) (f x), add (snd acc) (g x))) l (a, b) =
  (fold_left add (map f (filter (fun x => negb (skip x)) l)) a, fold_left add (map g (filter (fun x => negb (skip x)) l)) b).
Proof. revert a b. induction l as [|x l IH]; intros a b; simpl; [reflexivity|]. destruct (skip x); simpl; apply IH. Qed.
Lemma fold_left_same {X Y} (f g : X -> Y -> X) l a : (forall x y, f x y = g x y) -> fold_left f l a = fold_left g l a.
Proof. intro H. revert a. induction l as [|y l IH]; intro a; simpl; [reflexivity|]. rewrite H. apply IH. Qed.
Lemma filter_len {X} (f : X -> bool) l : (length (filter f l) <= length l)%nat.
Proof. induction l as [|x l IH]; simpl; [lia|]. destruct (f x); simpl; lia. Qed.
Lemma score_rank L r2 r1 : let s := wl_rank_score (A := B64A L) r2 r1 in fin s /\ 0 <= ext s <= 1 /\
  ((mto_rank r1 < mto_rank r2)%N -> ext s = 1) /\ ((mto_rank r2 < mto_rank r1)%N -> ext s = 0).
Proof.
  destruct (ext_points L WIN) as [F1 E1]. destruct (ext_points L LOSS) as [F0 E0]. destruct (ext_points L DRAW) as [Fh Eh].
  unfold points in *. unfold wl_rank_score, mto_cmp. unfold mto_rank.
  destruct (N.compare_spec (mto_rank_field r2) (mto_rank_field r1)) as [H|H|H]; cbv zeta.
  - change (flit (Arith := B64A L) 5 10) with (to_chess_points (A := B64A L) DRAW). split; [exact Fh|]. rewrite Eh. split; [lra|]. split; intro; lia.
  - change (fofZ (Arith := B64A L) 0) with (to_chess_points (A := B64A L) LOSS). split; [exact F0|]. rewrite E0. split; [lra|]. split; intro; [lia|reflexivity].
  - change (fofZ (Arith := B64A L) 1) with (to_chess_points (A := B64A L) WIN). split; [exact F1|]. rewrite E1. split; [lra|]. split; intro; [reflexivity|lia].
Qed.
Lemma inner_ok L cfg i R U rk (infos : list (nat * (B64 * B64 * MultiTeamOutcome))) : let b := wl_beta cfg in
  exp_normal L -> fin b -> bpow radix2 (-100) <= ext b <= bpow radix2 100 -> fin R -> Rabs (ext R) <= 800 * ext b -> ng U 253 ->
  (Z.of_nat (length infos) <= 2 ^ 53)%Z ->
  Forall (fun x => fin (fst (fst (snd x))) /\ Rabs (ext (fst (fst (snd x)))) <= 800 * ext b /\ ng (snd (fst (snd x))) 253) infos ->
  let r := wl_inner (A := B64A L) cfg i R U rk infos in
  fin (fst r) /\ Rabs (ext (fst r)) <= bpow radix2 500 /\ ng (snd r) 900 /\
  (Forall (fun x => fst x = i \/ (mto_rank rk < mto_rank (snd (snd x)))%N) infos -> 0 <= ext (fst r)) /\
  (Forall (fun x => fst x = i \/ (mto_rank (snd (snd x)) < mto_rank rk)%N) infos -> ext (fst r) <= 0).
Proof.
  intros b EN Fb Bb FR BR NU Hn HI r. pose proof (bpow_gt_0 radix2 (-100)) as P1. assert (Pb : 0 < ext b) by lra.
  set (skip := fun x : nat * (B64 * B64 * MultiTeamOutcome) => Nat.eqb i (fst x)).
  set (cc := fun x : nat * (B64 * B64 * MultiTeamOutcome) => wl_c_teams (A := B64A L) b U (snd (fst (snd x)))).
  set (pp := fun x : nat * (B64 * B64 * MultiTeamOutcome) => fst (wl_p_value (A := B64A L) R (fst (fst (snd x))) (cc x))).
  set (f := fun x : nat * (B64 * B64 * MultiTeamOutcome) => wl_small_delta (A := B64A L) U (cc x) (pp x) (wl_rank_score (A := B64A L) (snd (snd x)) rk)).
  set (g := fun x : nat * (B64 * B64 * MultiTeamOutcome) => wl_eta (A := B64A L) U (cc x) (pp x) (wl_gamma (A := B64A L) U (cc x))).
  set (l := filter (fun x => negb (skip x)) infos).
  assert (Er : r = (fold_left (fadd (Arith := B64A L)) (map f l) zero64, fold_left (fadd (Arith := B64A L)) (map g l) zero64)).
  { unfold r, wl_inner, l. rewrite <- (fold_pair (fadd (Arith := B64A L)) skip f g). apply fold_left_same. intros [om ld] [q [[Rq Uq] rq]]. reflexivity. }
  assert (Hl : (length l <= length infos)%nat) by (apply filter_len).
  assert (HL : Forall (fun x => fin (f x) /\ Rabs (ext (f x)) <= bpow radix2 400 /\ ng (g x) 800 /\
      ((mto_rank rk < mto_rank (snd (snd x)))%N -> 0 <= ext (f x)) /\ ((mto_rank (snd (snd x)) < mto_rank rk)%N -> ext (f x) <= 0)) l).
  { apply Forall_forall. intros x Hx. unfold l in Hx. apply filter_In in Hx. destruct Hx as [Hx _]. rewrite Forall_forall in HI. destruct (HI x Hx) as [Fq [Bq Nq]].
    destruct (c_teams_ok L b U _ Fb Bb NU Nq) as [Fc [Lc Bc]]. fold (cc x) in Fc, Lc, Bc.
    destruct (p_ok L R _ (cc x) b EN FR Fq Fc Pb Lc BR Bq) as [I1 _]. fold (pp x) in I1.
    destruct (score_rank L (snd (snd x)) rk) as [Fs [Bs [S1 S0]]].
    destruct (share_ok L U (cc x) (pp x) _ NU Fc Bc I1 Fs Bs) as [A1 [A2 [A3 [A4 A5]]]].
    fold (f x) in A1, A2, A3, A4. fold (g x) in A5. split; [exact A1|]. split; [exact A2|]. split; [exact A5|]. split; intro W; [apply A3, S1, W|apply A4, S0, W]. }
  assert (Z0 : ext zero64 = 0) by reflexivity.
  destruct (fsum_scaled L 400 (map f l)) with (acc := zero64) (n := 0%Z) as [G1 [G2 [G3 G4]]]; [lia| |reflexivity|lia|rewrite map_length; lia|rewrite Z0, Rabs_R0; lra|].
  { apply Forall_map. eapply Forall_impl; [|exact HL]. intros x X. split; apply X. }
  destruct (fsum_scaled L 800 (map g l)) with (acc := zero64) (n := 0%Z) as [K1 [K2 [K3 _]]]; [lia| |reflexivity|lia|rewrite map_length; lia|rewrite Z0, Rabs_R0; lra|].
  { apply Forall_map. eapply Forall_impl; [|exact HL]. intros x [_ [_ [X _]]]. split; [exact (proj1 X)|exact (ng_abs _ _ X)]. }
  assert (SZ : forall e k, (e + 53 <= k)%Z -> IZR (0 + Z.of_nat (length l)) * bpow radix2 e <= bpow radix2 k).
  { intros e k H. apply Rle_trans with (bpow radix2 53 * bpow radix2 e); [|rewrite <- bpow_plus; apply bpow_le; lia]. apply Rmult_le_compat_r; [apply bpow_ge_0|].
    change (bpow radix2 53) with (IZR (2 ^ 53)). apply IZR_le. lia. }
  rewrite map_length in G2, K2. rewrite Er. cbn [fst snd].
  split; [exact G1|]. split; [apply Rle_trans with (1 := G2); apply SZ; lia|]. split.
  { destruct K3 as [K3 _]. { apply Forall_map. eapply Forall_impl; [|exact HL]. intros x [_ [_ [[_ [X _]] _]]]. exact X. }
    rewrite Z0 in K3. split; [exact K1|]. split; [exact K3|]. apply Rle_trans with (1 := Rle_abs _). apply Rle_trans with (1 := K2). apply SZ. lia. }
  rewrite Z0 in G3, G4.
  assert (SK : forall (P : nat * (B64 * B64 * MultiTeamOutcome) -> Prop) x, Forall (fun x => fst x = i \/ P x) infos -> In x l -> P x).
  { intros P x A Hx. unfold l in Hx. apply filter_In in Hx. destruct Hx as [Hx Hs]. rewrite Forall_forall in A. destruct (A x Hx) as [E|E]; [|exact E].
    unfold skip in Hs. rewrite E, Nat.eqb_refl in Hs. discriminate. }
  rewrite Forall_forall in HL. split; intro A.
  - apply G3. apply Forall_map. apply Forall_forall. intros x Hx. apply (HL x Hx). exact (SK _ x A Hx).
  - apply G4. apply Forall_map. apply Forall_forall. intros x Hx. apply (HL x Hx). exact (SK _ x A Hx).
Qed.
Lemma enum_nth {X} (l : list X) : forall k i, nth_error (combine (seq k (length l)) l) i = match nth_error l i with Some x => Some ((k + i)%nat, x) | None => None end.
Proof.
  induction l as [|x l IH]; intros k i; simpl; [destruct i; reflexivity|]. destruct i as [|i]; simpl; [rewrite Nat.add_0_r; reflexivity|].
  rewrite IH. destruct (nth_error l i); [|reflexivity]. do 2 f_equal. lia.
Qed.
Lemma Forall2_nth {X Y} (P : X -> Y -> Prop) : forall l m, length l = length m -> (forall i x y, nth_error l i = Some x -> nth_error m i = Some y -> P x y) -> Forall2 P l m.
Proof.
  induction l as [|x l IH]; destruct m as [|y m]; simpl; intros E H; try discriminate; constructor.
  - apply (H 0%nat); reflexivity.
  - apply IH; [lia|]. intros i a b A B. exact (H (S i) a b A B).
Qed.
Lemma wl_multi_ok L cfg (ts : list (list (WengLinRating B64) * MultiTeamOutcome)) : 
  exp_normal L -> num_in (/ 2 ^ 100) (2 ^ 100) (wl_beta cfg) -> num_in (/ 2 ^ 200) 1 (wl_uncertainty_tolerance cfg) ->
  (Z.of_nat (length ts) <= 2 ^ 53)%Z -> Forall (fun t => team_fit (wl_beta cfg) (fst t)) ts ->
  let n := weng_lin_multi_team (A := B64A L) ts cfg in length ts = length n /\
  forall i t rk nt, nth_error ts i = Some (t, rk) -> nth_error n i = Some nt ->
  Forall2 member_res t nt /\
  ((forall j t' rk', j <> i -> nth_error ts j = Some (t', rk') -> (mto_rank rk < mto_rank rk')%N) -> Forall2 (fun p n => le64 (wl_rating p) (wl_rating n)) t nt) /\
  ((forall j t' rk', j <> i -> nth_error ts j = Some (t', rk') -> (mto_rank rk' < mto_rank rk)%N) -> Forall2 (fun p n => le64 (wl_rating n) (wl_rating p)) t nt).
Proof.
  intros EN Hb Ht Hn HT n. rewrite <- p100', <- p100 in Hb. destruct (num_ext _ _ _ Hb) as [Fb Bb].
  assert (SW : forall (t : list (WengLinRating B64)), Forall2 (fun p n => le64 (wl_rating p) (wl_rating n)) t t -> Forall2 (fun p n => le64 (wl_rating n) (wl_rating p)) t t).
  { intros t H. induction t as [|p t IH]; constructor; inversion H; auto. }
  destruct ts as [|t0 ts']; [split; [reflexivity|]; intros [|i] ? ? ? H; discriminate|]. set (ts := t0 :: ts') in *.
  unfold n, weng_lin_multi_team. change (is_empty ts) with false. cbv iota.
  destruct (existsb (fun t => is_empty (fst t)) ts) eqn:EX.
  - split; [rewrite map_length; reflexivity|]. intros i t rk nt H1 H2. rewrite nth_error_map, H1 in H2. cbn in H2. injection H2 as <-.
    apply nth_error_In in H1. rewrite Forall_forall in HT. specialize (HT _ H1). cbn [fst] in HT. destruct (same_team_res t _ HT) as [A1 A2]. auto.
  - assert (NE : forall t, In t ts -> fst t <> []).
    { intros t Hin E. assert (existsb (fun t => is_empty (fst t)) ts = true) by (apply existsb_exists; exists t; split; [exact Hin|rewrite E; reflexivity]). congruence. }
    split; [rewrite map_length; unfold enumerate; rewrite combine_length, seq_length; lia|].
    intros i t rk nt H1 H2. set (infos := enumerate (map (wl_info (A := B64A L)) ts)) in *.
    rewrite nth_error_map in H2. unfold enumerate in H2. rewrite enum_nth, H1 in H2. cbn [option_map Nat.add] in H2.
    pose proof (nth_error_In _ _ H1) as I1. rewrite Forall_forall in HT. pose proof (HT _ I1) as Tt. cbn [fst] in Tt.
    assert (NEt : t <> []) by exact (NE _ I1).
    destruct (team_rating_ok L _ t Fb Bb Tt) as [FR BR]. destruct (team_unc_ok L _ t Tt NEt) as [NU _].
    assert (Li : length infos = length ts) by (unfold infos, enumerate; rewrite combine_length, seq_length, !map_length; lia).
    destruct (inner_ok L cfg i _ _ rk infos EN Fb Bb FR BR NU) as [G1 [G2 [G3 [G4 G5]]]].
    + rewrite Li. exact Hn.
    + apply Forall_forall. intros [j x] Hx. cbn [fst snd]. unfold infos, enumerate in Hx. apply in_combine_r in Hx. apply in_map_iff in Hx. destruct Hx as [[t' rk'] [<- Hin]].
      pose proof (HT _ Hin) as Tt'. pose proof (NE _ Hin) as NEt'. cbn [fst] in Tt', NEt'. cbn [wl_info fst snd].
      destruct (team_rating_ok L _ t' Fb Bb Tt') as [FR' BR']. destruct (team_unc_ok L _ t' Tt' NEt') as [NU' _]. auto.
    + cbn [wl_info fst snd] in H2. destruct (wl_inner cfg i _ _ rk infos) as [om ld]. cbn [fst snd] in G1, G2, G3, G4, G5. injection H2 as <-.
      destruct (update_ok L _ cfg t om ld Fb Bb Tt NEt G1 G2 G3 Ht) as [K1 [K2 K3]].
      assert (TR : forall (P : N -> Prop), (forall j t' rk', j <> i -> nth_error ts j = Some (t', rk') -> P (mto_rank rk')) ->
         Forall (fun x : nat * (B64 * B64 * MultiTeamOutcome) => fst x = i \/ P (mto_rank (snd (snd x)))) infos).
      { intros P H. apply Forall_forall. intros [j x] Hx. cbn [fst snd]. apply In_nth_error in Hx. destruct Hx as [m Hm]. unfold infos, enumerate in Hm.
        rewrite enum_nth in Hm. rewrite nth_error_map in Hm. destruct (nth_error ts m) as [[t' rk']|] eqn:Em; [|discriminate]. cbn in Hm. injection Hm as <- <-.
        destruct (Nat.eq_dec m i) as [E|E]; [left; exact E|right]. cbn [snd]. exact (H m t' rk' E Em). }
      split; [exact K1|]. split; intro A.
      * apply K2, G4. exact (TR (fun r => (mto_rank rk < r)%N) A).
      * apply K3, G5. exact (TR (fun r => (r < mto_rank rk)%N) A).
Qed.
Lemma C97_weng_lin_teams_proof : forall (L : Libm) (cfg : WengLinConfig B64) (t1 t2 : list (WengLinRating B64)) (o : Outcomes),
  exp_normal L -> num_in (/ 2 ^ 100) (2 ^ 100) (wl_beta cfg) -> num_in (/ 2 ^ 200) 1 (wl_uncertainty_tolerance cfg) ->
  let fit t := (Z.of_nat (length t) <= 2 ^ 53)%Z /\ Forall (fun p => finite (wl_rating p) /\ INR (length t) * Rabs (B2R (wl_rating p)) <= 400 * B2R (wl_beta cfg) /\
                                num_in (/ 2 ^ 100) (2 ^ 100) (wl_uncertainty p)) t in
  fit t1 -> fit t2 ->
  let ok p p' := finite (wl_rating p') /\ finite (wl_uncertainty p') /\ 0 < B2R (wl_uncertainty p') <= B2R (wl_uncertainty p) in
  let n := weng_lin_two_teams (A := B64A L) t1 t2 o cfg in
  Forall2 ok t1 (fst n) /\ Forall2 ok t2 (snd n).
Proof.
  intros L cfg t1 t2 o EN Hb Ht fit T1 T2 ok n. destruct (wl_two_teams_ok L cfg t1 t2 o EN Hb Ht T1 T2) as [A [B _]]. exact (conj A B).
Qed.
Lemma C98_weng_lin_teams_proof : forall (L : Libm) (cfg : WengLinConfig B64) (t1 t2 : list (WengLinRating B64)),
  exp_normal L -> num_in (/ 2 ^ 100) (2 ^ 100) (wl_beta cfg) -> num_in (/ 2 ^ 200) 1 (wl_uncertainty_tolerance cfg) ->
  let fit t := (Z.of_nat (length t) <= 2 ^ 53)%Z /\ Forall (fun p => finite (wl_rating p) /\ INR (length t) * Rabs (B2R (wl_rating p)) <= 400 * B2R (wl_beta cfg) /\
                                num_in (/ 2 ^ 100) (2 ^ 100) (wl_uncertainty p)) t in
  fit t1 -> fit t2 ->
  let rises p p' := le64 (wl_rating p) (wl_rating p') in let falls p p' := le64 (wl_rating p') (wl_rating p) in
  let n o := weng_lin_two_teams (A := B64A L) t1 t2 o cfg in
  Forall2 rises t1 (fst (n WIN)) /\ Forall2 falls t2 (snd (n WIN)) /\ Forall2 falls t1 (fst (n LOSS)) /\ Forall2 rises t2 (snd (n LOSS)).
Proof.
  intros L cfg t1 t2 EN Hb Ht fit T1 T2 rises falls n. destruct (wl_two_teams_ok L cfg t1 t2 WIN EN Hb Ht T1 T2) as [_ [_ [A _]]]. destruct (wl_two_teams_ok L cfg t1 t2 LOSS EN Hb Ht T1 T2) as [_ [_ [_ B]]].
  destruct (A eq_refl) as [A1 A2]. destruct (B eq_refl) as [B1 B2]. exact (conj A1 (conj A2 (conj B1 B2))).
Qed.
Lemma C97_weng_lin_multi_proof : forall (L : Libm) (cfg : WengLinConfig B64) (ts : list (list (WengLinRating B64) * MultiTeamOutcome)),
  exp_normal L -> num_in (/ 2 ^ 100) (2 ^ 100) (wl_beta cfg) -> num_in (/ 2 ^ 200) 1 (wl_uncertainty_tolerance cfg) ->
  let fit t := (Z.of_nat (length t) <= 2 ^ 53)%Z /\ Forall (fun p => finite (wl_rating p) /\ INR (length t) * Rabs (B2R (wl_rating p)) <= 400 * B2R (wl_beta cfg) /\
                                num_in (/ 2 ^ 100) (2 ^ 100) (wl_uncertainty p)) t in
  (Z.of_nat (length ts) <= 2 ^ 53)%Z -> Forall (fun t => fit (fst t)) ts ->
  let ok p p' := finite (wl_rating p') /\ finite (wl_uncertainty p') /\ 0 < B2R (wl_uncertainty p') <= B2R (wl_uncertainty p) in
  Forall2 (fun t n => Forall2 ok (fst t) n) ts (weng_lin_multi_team (A := B64A L) ts cfg).
Proof.
  intros L cfg ts EN Hb Ht fit Hn HT ok. destruct (wl_multi_ok L cfg ts EN Hb Ht Hn HT) as [E H].
  apply Forall2_nth; [exact E|]. intros i [t rk] nt H1 H2. exact (proj1 (H i t rk nt H1 H2)).
Qed.
Lemma C98_weng_lin_multi_proof : forall (L : Libm) (cfg : WengLinConfig B64) (ts : list (list (WengLinRating B64) * MultiTeamOutcome)),
  exp_normal L -> num_in (/ 2 ^ 100) (2 ^ 100) (wl_beta cfg) -> num_in (/ 2 ^ 200) 1 (wl_uncertainty_tolerance cfg) ->
  let fit t := (Z.of_nat (length t) <= 2 ^ 53)%Z /\ Forall (fun p => finite (wl_rating p) /\ INR (length t) * Rabs (B2R (wl_rating p)) <= 400 * B2R (wl_beta cfg) /\
                                num_in (/ 2 ^ 100) (2 ^ 100) (wl_uncertainty p)) t in
  (Z.of_nat (length ts) <= 2 ^ 53)%Z -> Forall (fun t => fit (fst t)) ts ->
  let rises p p' := le64 (wl_rating p) (wl_rating p') in let falls p p' := le64 (wl_rating p') (wl_rating p) in
  forall i t rk, nth_error ts i = Some (t, rk) -> exists nt, nth_error (weng_lin_multi_team (A := B64A L) ts cfg) i = Some nt /\
  ((forall j t' rk', j <> i -> nth_error ts j = Some (t', rk') -> (mto_rank rk < mto_rank rk')%N) -> Forall2 rises t nt) /\
  ((forall j t' rk', j <> i -> nth_error ts j = Some (t', rk') -> (mto_rank rk' < mto_rank rk)%N) -> Forall2 falls t nt).
Proof.
  intros L cfg ts EN Hb Ht fit Hn HT rises falls i t rk Hi. destruct (wl_multi_ok L cfg ts EN Hb Ht Hn HT) as [E H].
  destruct (nth_error (weng_lin_multi_team (A := B64A L) ts cfg) i) as [nt|] eqn:En.
  - exists nt. split; [reflexivity|]. exact (proj2 (H i t rk nt Hi En)).
  - exfalso. apply nth_error_None in En. assert (i < length ts)%nat by (apply nth_error_Some; congruence). lia.
Qed.

(** ** Expected scores of teams *)
Lemma C66_wl_teams_proof : forall (L : Libm) (cfg : WengLinConfig B64) (t1 t2 : list (WengLinRating B64)),
  exp_normal L -> num_in (/ 2 ^ 100) (2 ^ 100) (wl_beta cfg) ->
  let fit t := (Z.of_nat (length t) <= 2 ^ 53)%Z /\ Forall (fun p => finite (wl_rating p) /\ INR (length t) * Rabs (B2R (wl_rating p)) <= 400 * B2R (wl_beta cfg) /\
                                num_in (/ 2 ^ 100) (2 ^ 100) (wl_uncertainty p)) t in
  fit t1 -> fit t2 -> let e := wl_expected_score_two_teams (A := B64A L) t1 t2 cfg in in01 (fst e) /\ in01 (snd e).
Proof.
  intros L cfg t1 t2 EN Hb fit T1 T2 e. rewrite <- p100', <- p100 in Hb. destruct (num_ext _ _ _ Hb) as [Fb Bb]. pose proof (bpow_gt_0 radix2 (-100)) as P1.
  assert (NU : forall t, fit t -> ng (wl_team_uncertainty_sq (A := B64A L) t) 253).
  { intros t H. destruct t as [|a t]; [split; [reflexivity|]; split; [change (0 <= 0); lra|change (0 <= bpow radix2 253); apply bpow_ge_0]|]. destruct (team_unc_ok L (wl_beta cfg) (a :: t) H) as [N _]; [discriminate|exact N]. }
  destruct (team_rating_ok L _ t1 Fb Bb T1) as [FR1 BR1]. destruct (team_rating_ok L _ t2 Fb Bb T2) as [FR2 BR2].
  destruct (c_teams_ok L _ _ _ Fb Bb (NU t1 T1) (NU t2 T2)) as [Fc [Lc Bc]].
  assert (Pb : 0 < ext (wl_beta cfg)) by lra. exact (p_ok L _ _ _ _ EN FR1 FR2 Fc Pb Lc BR1 BR2).
Qed.
Lemma sum_exps (L : Libm) l : Forall (fun x => fin x /\ 0 < ext x) l -> forall acc, sp acc ->
  let s := fold_left (fadd (Arith := B64A L)) l acc in sp s /\ ext acc <= ext s /\ Forall (fun x => ext x <= ext s) l.
Proof.
  induction 1 as [|x l [Fx Px] _ IH]; intros acc Sa; cbn [fold_left]; [repeat split; try apply Sa; [lra|constructor]|].
  change (fadd (Arith := B64A L) acc x) with (Bplus mode_NE acc x). destruct (sp_plus acc x Sa (sp_of x (fin_nn _ Fx) Px)) as [Ss Es].
  destruct (IH _ Ss) as [G1 [G2 G3]]. split; [exact G1|]. pose proof (sp_ge0 _ Sa) as Pa.
  assert (X1 : ext x <= ext (Bplus mode_NE acc x)) by (rewrite Es, <- (rnd_ext x Fx) at 1; apply rnd_le; lra).
  assert (X2 : ext acc <= ext (Bplus mode_NE acc x)).
  { rewrite Es. destruct (is_finite acc) eqn:Fa; [rewrite <- (rnd_ext acc Fa) at 1; apply rnd_le; lra|].
    rewrite (sp_inf acc Sa) by (unfold fin; rewrite Fa; discriminate). rewrite rnd_ge_M; [simpl; lra|]. simpl. lra. }
  split; [lra|]. constructor; [lra|exact G3].
Qed.
Lemma share01 x s : fin x -> 0 < ext x -> sp s -> ext x <= ext s -> in01 (Bdiv mode_NE x s).
Proof.
  intros Fx Px Ss H. destruct (sp_div x s (sp_of x (fin_nn _ Fx) Px) Fx Px Ss) as [[Nd Sd] [Ud _]]. apply in01_of; [exact Nd|]. split; [apply sp_ge0; split; assumption|].
  apply Rle_trans with (1 := Ud (ext x) ltac:(lra)). unfold Rdiv. rewrite Rinv_r by lra. rewrite rnd_1. lra.
Qed.
Lemma C66_wl_multi_proof : forall (L : Libm) (cfg : WengLinConfig B64) (ts : list (list (WengLinRating B64))),
  exp_normal L -> num_in (/ 2 ^ 100) (2 ^ 100) (wl_beta cfg) ->
  let fit t := (Z.of_nat (length t) <= 2 ^ 53)%Z /\ Forall (fun p => finite (wl_rating p) /\ INR (length t) * Rabs (B2R (wl_rating p)) <= 400 * B2R (wl_beta cfg) /\
                                num_in (/ 2 ^ 100) (2 ^ 100) (wl_uncertainty p)) t in
  (Z.of_nat (length ts) <= 2 ^ 53)%Z -> Forall fit ts -> Forall in01 (wl_expected_score_multi_team (A := B64A L) ts cfg).
Proof.
  intros L cfg ts EN Hb fit Hn HT. rewrite <- p100', <- p100 in Hb. destruct (num_ext _ _ _ Hb) as [Fb Bb]. pose proof (bpow_gt_0 radix2 (-100)) as P1.
  assert (NU : forall t, fit t -> ng (wl_team_uncertainty_sq (A := B64A L) t) 253).
  { intros t H. destruct t as [|a t]; [split; [reflexivity|]; split; [change (0 <= 0); lra|change (0 <= bpow radix2 253); apply bpow_ge_0]|]. destruct (team_unc_ok L (wl_beta cfg) (a :: t) H) as [N _]; [discriminate|exact N]. }
  set (us := map (wl_team_uncertainty_sq (A := B64A L)) ts).
  destruct (fsum_scaled L 253 us) with (acc := B754_zero true : B64) (n := 0%Z) as [G1 [G2 [G3 _]]]; [lia| |reflexivity|lia|unfold us; rewrite map_length; exact Hn|simpl; rewrite Rabs_R0; lra|].
  { apply Forall_map. eapply Forall_impl; [|exact HT]. intros t H. split; [exact (proj1 (NU t H))|exact (ng_abs _ _ (NU t H))]. }
  destruct G3 as [G3 _]. { apply Forall_map. eapply Forall_impl; [|exact HT]. intros t H. exact (proj1 (proj2 (NU t H))). }
  change (fold_left (fadd (Arith := B64A L)) us (B754_zero true)) with (fsum (A := B64A L) us) in *.
  assert (NS : ng (fsum (A := B64A L) us) 1001).
  { split; [exact G1|]. split; [exact G3|]. apply Rle_trans with (1 := Rle_abs _). apply Rle_trans with (1 := G2). unfold us. rewrite map_length, Z.add_0_l.
    apply Rle_trans with (bpow radix2 53 * bpow radix2 253); [|rewrite <- bpow_plus; apply bpow_le; lia]. apply Rmult_le_compat_r; [apply bpow_ge_0|].
    change (bpow radix2 53) with (IZR (2 ^ 53)). apply IZR_le. exact Hn. }
  destruct (c_gen (wl_beta cfg) (fsum (A := B64A L) us) Fb) as [Fc [Lc _]]; [|exact NS|].
  { split; [apply Rle_trans with (2 := proj1 Bb); apply bpow_le; lia|apply Rle_trans with (1 := proj2 Bb); apply bpow_le; lia]. }
  set (c := Bsqrt mode_NE (Bfma mode_NE (b64_of_Z 2) (Bmult mode_NE (wl_beta cfg) (wl_beta cfg)) (fsum (A := B64A L) us))) in *.
  set (ex := fun r : B64 => l_exp L (Bdiv mode_NE r c)). set (exps := map ex (map (wl_team_rating (A := B64A L)) ts)).
  assert (HE : Forall (fun x => fin x /\ 0 < ext x) exps).
  { unfold exps. apply Forall_map, Forall_map. eapply Forall_impl; [|exact HT]. intros t H. destruct (team_rating_ok L _ t Fb Bb H) as [FR BR].
    assert (Pb : 0 < ext (wl_beta cfg)) by lra. destruct (exp_arg _ c _ FR Fc Pb Lc BR) as [A1 A2]. destruct (EN _ A1 A2) as [X1 X2]. fold (ex (wl_team_rating (A := B64A L) t)) in X1, X2.
    apply le_Bleb in X1, X2. rewrite (proj2 (ext_pow2 (-1020) ltac:(lia))) in X1. rewrite (proj2 (ext_pow2 1020 ltac:(lia))) in X2.
    destruct X1 as [_ [N1 X1]], X2 as [_ [_ X2]]. pose proof (bpow_gt_0 radix2 (-1020)). split; [apply (fin_le _ 1020); [exact N1|lia|lra]|lra]. }
  destruct (sum_exps L exps HE zero64) as [S1 [_ S3]]; [split; reflexivity|].
  change (Forall in01 (map (fun e => Bdiv mode_NE e (fold_left (fadd (Arith := B64A L)) exps zero64)) exps)).
  apply Forall_map. rewrite Forall_forall in *. intros x Hx. destruct (HE x Hx) as [Fx Px]. exact (share01 x _ Fx Px S1 (S3 x Hx)).
Qed.

(** ** A case *)
Lemma num_Z z : (1 <= z <= 2 ^ 53)%Z -> num_in (/ 2 ^ 100) (2 ^ 100) (b64_of_Z z).
Proof.
  intro H. destruct (ext_ofZ z ltac:(rewrite Z.abs_eq; lia)) as [F E]. rewrite (ext_fin _ F) in E. split; [exact F|]. rewrite E.
  assert (H1 : 1 <= IZR z) by (apply IZR_le; lia). rewrite <- p100', <- p100. split.
  - apply Rle_trans with (2 := H1). apply (bpow_le radix2 (-100) 0). lia.
  - apply Rle_trans with (bpow radix2 53); [change (bpow radix2 53) with (IZR (2 ^ 53)); apply IZR_le; lia|apply bpow_le; lia].
Qed.
Lemma wl_case_lemma : exp_normal libm_rounded /\
  num_in (/ 2 ^ 100) (2 ^ 100) (b64_of_Z 4) /\ num_in (/ 2 ^ 100) (2 ^ 100) (b64_of_Z 8) /\ num_in (/ 2 ^ 200) 1 (b64 1 (-20)) /\
  (Rabs (B2R (b64_of_Z 25)) <= 800 * B2R (b64_of_Z 4) /\ Rabs (B2R (b64_of_Z (-3000))) <= 800 * B2R (b64_of_Z 4)) /\
  (B2R (b64_of_Z 8) <= 2 * B2R (b64_of_Z 4) /\ Rabs (B2R (b64_of_Z 25)) + 4 * INR 10 * B2R (b64_of_Z 4) <= 800 * B2R (b64_of_Z 4)) /\
  (INR 3 * Rabs (B2R (b64_of_Z 40)) <= 400 * B2R (b64_of_Z 4) /\ INR 3 * Rabs (B2R (b64_of_Z (-20))) <= 400 * B2R (b64_of_Z 4)).
Proof.
  split; [exact libm_exp_normal|]. split; [apply num_Z; lia|]. split; [apply num_Z; lia|]. split.
  - assert (F : fin (b64 1 (-20))) by reflexivity. split; [exact F|]. rewrite <- (ext_fin _ F), (proj2 (ext_pow2 (-20) ltac:(lia))), <- p200'. split; [apply bpow_le; lia|].
    apply (bpow_le radix2 (-20) 0). lia.
  - rewrite !B2R_ofZ by (vm_compute; discriminate). rewrite !INR_IZR_INZ. simpl (Z.of_nat _). unfold Rabs. repeat destruct Rcase_abs; lra.
Qed.
