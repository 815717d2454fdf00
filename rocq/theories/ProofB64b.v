(** Proofs of the IEEE-754 binary64 properties, second part: the correctly
    rounded libm, Weng-Lin overflow, Elo accuracy. *)
From Coq Require Import ZArith NArith List Bool Reals Lra Lia Psatz.
From Flocq Require Import Core.Core IEEE754.BinarySingleNaN Relative.
From Verif Require Import Arith B64 MathB64 SpecB64 ModelLib ModelElo ModelFifa ModelWengLin Spec ProofB64.
Import ListNotations.
Local Open Scope R_scope.

(** ** [b64_of_R] rounds *)
Lemma rnd_rnd0 r : rnd (rnd0 r) = rnd r.
Proof.
  unfold rnd. f_equal. f_equal. unfold rnd0 at 1. apply round_generic; [typeclasses eauto|].
  unfold rnd0. apply generic_format_round; typeclasses eauto.
Qed.
Lemma ext_of_R r : nn (b64_of_R r) /\ ext (b64_of_R r) = rnd r.
Proof.
  unfold b64_of_R. destruct (ext_b64 (ZnearestE (scaled_mantissa radix2 fexp64 r)) (cexp radix2 fexp64 r)) as [N E].
  split; [exact N|]. rewrite E. change (rnd (rnd0 r) = rnd r). apply rnd_rnd0.
Qed.
Lemma ext_pow2 e : (-1022 <= e <= 1023)%Z -> fin (b64 1 e) /\ ext (b64 1 e) = bpow radix2 e.
Proof.
  intro H. destruct (ext_b64 1 e) as [N E].
  replace (F2R (Float radix2 1 e)) with (bpow radix2 e) in E by (unfold F2R; simpl Fnum; simpl Fexp; ring).
  rewrite rnd_pow2 in E by lia. split; [|exact E]. apply fin_iff; [exact N|]. rewrite E.
  rewrite Rabs_pos_eq by apply bpow_ge_0. apply bpow_lt. lia.
Qed.
Lemma real_fun_fin f a b x : fin x -> nn (real_fun f a b x) /\ ext (real_fun f a b x) = rnd (f (ext x)).
Proof.
  intro F. rewrite (ext_fin x F). destruct x as [s|s| |s m e h]; try discriminate; apply ext_of_R.
Qed.

Lemma libm_pow_nonneg : pow10_nonneg libm_rounded.
Proof.
  intros y N. destruct (is_finite y) eqn:F.
  - destruct (real_fun_fin (Rpower (B2R (b64_of_Z 10))) (B754_infinity false) zero64 y F) as [N1 E1].
    apply le64_iff; [reflexivity|exact N1|]. change (ext (l_pow libm_rounded (b64_of_Z 10) y)) with
     (ext (real_fun (Rpower (B2R (b64_of_Z 10))) (B754_infinity false) zero64 y)). rewrite E1, ext_zero64, <- rnd_0.
    apply rnd_le. left. apply exp_pos.
  - destruct y as [|[|]| |]; try discriminate; reflexivity.
Qed.
Lemma exp_1_bounds : 9 / 4 <= exp 1 <= 3.
Proof.
  split; [|apply exp_le_3].
  assert (H : exp 1 = exp (/ 2) * exp (/ 2)) by (rewrite <- exp_plus; f_equal; lra).
  pose proof (exp_ineq1 (/ 2) ltac:(lra)). nra.
Qed.
Lemma exp_nat n : exp (INR n) = exp 1 ^ n.
Proof.
  induction n as [|n IH]; [simpl; apply exp_0|]. rewrite S_INR, exp_plus, IH. simpl. ring.
Qed.
Lemma exp_le a b : a <= b -> exp a <= exp b.
Proof. intros [H|<-]; [left; now apply exp_increasing|lra]. Qed.
Lemma exp_1000 : M64 <= exp 1000.
Proof.
  replace 1000 with (INR (125 * 8)) by (rewrite INR_IZR_INZ; reflexivity).
  rewrite exp_nat, pow_mult. unfold M64.
  replace (bpow radix2 1024) with (bpow radix2 128 ^ 8).
  2:{ rewrite <- (bpow_powerRZ radix2 128) || idtac. change (bpow radix2 1024) with (bpow radix2 (128+128+128+128+128+128+128+128)).
      rewrite !bpow_plus. ring. }
  apply pow_incr. split; [apply bpow_ge_0|].
  apply Rle_trans with ((9 / 4) ^ 125); [|apply pow_incr; pose proof exp_1_bounds; lra].
  replace (9 / 4) with (9 * / 4) by lra. rewrite Rpow_mult_distr, pow_inv.
  apply Rmult_le_reg_r with (4 ^ 125); [apply pow_lt; lra|].
  rewrite Rmult_assoc, Rinv_l by (apply pow_nonzero; lra). rewrite Rmult_1_r.
  change (bpow radix2 128) with (IZR (2 ^ 128)). rewrite <- !pow_IZR || (rewrite (pow_IZR 4 125), (pow_IZR 9 125)).
  rewrite <- mult_IZR. apply IZR_le. vm_compute. discriminate.
Qed.
Lemma exp_600 : exp 600 <= bpow radix2 1020.
Proof.
  replace 600 with (INR (10 * 60)) by (rewrite INR_IZR_INZ; reflexivity).
  rewrite exp_nat, pow_mult.
  replace (bpow radix2 1020) with (bpow radix2 17 ^ 60).
  2:{ clear. assert (H : forall n, bpow radix2 17 ^ n = bpow radix2 (17 * Z.of_nat n)).
      { induction n as [|n IH]; [reflexivity|]. rewrite <- tech_pow_Rmult, IH, <- bpow_plus. f_equal. lia. }
      rewrite H. reflexivity. }
  apply pow_incr. split; [apply pow_le; pose proof exp_1_bounds; lra|].
  apply Rle_trans with (3 ^ 10); [apply pow_incr; pose proof exp_1_bounds; lra|].
  rewrite (pow_IZR 3 10). change (bpow radix2 17) with (IZR (2 ^ 17)). apply IZR_le. vm_compute. discriminate.
Qed.
Lemma libm_exp_overflows : exp_overflows libm_rounded.
Proof.
  intros y H. apply le_Bleb in H. destruct H as [_ [N H]].
  rewrite (proj2 (ext_ofZ 1000 ltac:(vm_compute; discriminate))) in H.
  destruct (is_finite y) eqn:F.
  - destruct (real_fun_fin exp (B754_infinity false) zero64 y F) as [N1 E1].
    change (l_exp libm_rounded y) with (real_fun exp (B754_infinity false) zero64 y).
    set (z := real_fun exp (B754_infinity false) zero64 y) in *.
    assert (Q : ext z = M64).
    { rewrite E1. apply Rle_antisym; [apply rnd_bounds|].
      replace M64 with (rnd M64) at 1 by (apply (rnd_pow2 1024); lia). apply rnd_le.
      apply Rle_trans with (exp 1000); [apply exp_1000|]. now apply exp_le. }
    destruct (is_finite z) eqn:Fz.
    + exfalso. pose proof (ext_abs_fin z Fz) as A. rewrite Q in A. apply Rabs_def2 in A. lra.
    + destruct z as [|[|]| |]; try discriminate; simpl in Q; [pose proof M64_pos; lra|reflexivity].
  - destruct y as [|[|]| |]; try discriminate; [simpl in H; pose proof M64_pos; lra|reflexivity].
Qed.
Lemma libm_exp_normal : exp_normal libm_rounded.
Proof.
  intros y H1 H2. apply le_Bleb in H1, H2. destruct H1 as [_ [N H1]], H2 as [_ [_ H2]].
  rewrite (proj2 (ext_ofZ (-600) ltac:(vm_compute; discriminate))) in H1.
  rewrite (proj2 (ext_ofZ 600 ltac:(vm_compute; discriminate))) in H2.
  assert (F : fin y).
  { apply fin_iff; [exact N|]. apply Rle_lt_trans with 600; [apply Rabs_le; lra|].
    unfold M64. apply Rlt_trans with (bpow radix2 10); [|apply bpow_lt; lia]. simpl. lra. }
  destruct (real_fun_fin exp (B754_infinity false) zero64 y F) as [N1 E1].
  change (l_exp libm_rounded y) with (real_fun exp (B754_infinity false) zero64 y).
  split; apply le64_iff; auto; try reflexivity; rewrite E1.
  - rewrite (proj2 (ext_pow2 (-1020) ltac:(lia))). rewrite <- (rnd_pow2 (-1020)) by lia. apply rnd_le.
    change (-1020)%Z with (- (1020))%Z. rewrite (bpow_opp radix2 1020). rewrite <- (Ropp_involutive (ext y)), (exp_Ropp (- ext y)).
    apply Rinv_le_contravar; [apply exp_pos|]. apply Rle_trans with (exp 600); [apply exp_le; lra|apply exp_600].
  - rewrite (proj2 (ext_pow2 1020 ltac:(lia))). rewrite <- (rnd_pow2 1020) by lia. apply rnd_le. apply Rle_trans with (exp 600); [apply exp_le; lra|apply exp_600].
Qed.

(** ** Weng-Lin expected score *)
Lemma C47_refuted_proof : forall L : Libm, exp_overflows L ->
  exists p1 p2 : WengLinRating B64,
    finite (wl_rating p1) /\ finite (wl_uncertainty p1) /\ finite (wl_rating p2) /\ finite (wl_uncertainty p2) /\
    wl_uncertainty p1 = wl_uncertainty (wl_new (A := B64A L)) /\ wl_uncertainty p2 = wl_uncertainty (wl_new (A := B64A L)) /\
    let e := wl_expected_score (A := B64A L) p1 p2 (wl_config_new (A := B64A L)) in
    is_nan (fst e) = true /\ is_nan (snd e) = true.
Proof.
  intros L OV. set (u := wl_uncertainty (wl_new (A := B64A L))).
  exists (mkWL (b64_of_Z 20000) u), (mkWL (b64_of_Z 20000) u).
  repeat match goal with |- _ /\ _ => split end; try reflexivity. intro e.
  set (y := Bdiv mode_NE (b64_of_Z 20000) (wl_c_players (A := B64A L) (wl_beta (wl_config_new (A := B64A L))) u u)).
  assert (E : l_exp L y = B754_infinity false) by (apply OV; vm_compute; reflexivity).
  assert (Q : fst e = B754_nan).
  { change (fst e) with (Bdiv mode_NE (l_exp L y) (Bplus mode_NE (l_exp L y) (l_exp L y))). rewrite E. reflexivity. }
  assert (Q2 : snd e = Bminus mode_NE one64 (fst e)) by reflexivity.
  rewrite Q2, Q. split; reflexivity.
Qed.

(** ** Rounding errors *)
Lemma rnd_rnd0_small x : Rabs x <= bpow radix2 1023 -> rnd x = rnd0 x.
Proof.
  intro H. apply Rabs_le_inv in H. unfold rnd.
  assert (G : generic_format radix2 fexp64 (bpow radix2 1023))
    by (apply generic_format_bpow; rewrite fexp64_FLT; unfold FLT_exp; lia).
  assert (A : - bpow radix2 1023 <= rnd0 x <= bpow radix2 1023).
  { split; unfold rnd0.
    - apply round_ge_generic; try typeclasses eauto; [apply generic_format_opp; exact G|lra].
    - apply round_le_generic; try typeclasses eauto; [exact G|lra]. }
  assert (bpow radix2 1023 < M64) by (apply bpow_lt; lia).
  unfold Rmax, Rmin. repeat destruct Rle_dec; lra.
Qed.
Lemma rnd_rel x : bpow radix2 (-1022) <= Rabs x <= bpow radix2 1023 -> Rabs (rnd x - x) <= bpow radix2 (-53) * Rabs x.
Proof.
  intro H. rewrite rnd_rnd0_small by lra.
  pose proof (relative_error_N_FLT radix2 (-1074) 53 eq_refl (fun x => negb (Z.even x)) x) as E.
  replace (/ 2 * bpow radix2 (- (53) + 1)) with (bpow radix2 (-53)) in E.
  2:{ change (-53)%Z with (-1 + (- (53) + 1))%Z. rewrite bpow_plus. reflexivity. }
  apply E. apply H.
Qed.
Lemma rnd_abs e x : (-1000 <= e <= 1023)%Z -> Rabs x <= bpow radix2 e -> Rabs (rnd x - x) <= bpow radix2 (e - 54).
Proof.
  intros He H. rewrite rnd_rnd0_small by (apply Rle_trans with (1 := H); apply bpow_le; lia).
  destruct (Req_dec (Rabs x) (bpow radix2 e)) as [E|E].
  - assert (G : generic_format radix2 fexp64 x).
    { assert (B : generic_format radix2 fexp64 (bpow radix2 e))
        by (apply generic_format_bpow; rewrite fexp64_FLT; unfold FLT_exp; lia).
      apply generic_format_abs_inv. rewrite E. exact B. }
    unfold rnd0. rewrite round_generic by (auto; typeclasses eauto). rewrite Rminus_diag_eq by reflexivity.
    rewrite Rabs_R0. apply bpow_ge_0.
  - eapply Rle_trans; [unfold rnd0; apply error_le_half_ulp; typeclasses eauto|].
    apply Rle_trans with (/ 2 * bpow radix2 (e - 53)).
    + apply Rmult_le_compat_l; [lra|].
      destruct (Req_dec x 0) as [->|N].
      * change fexp64 with (FLT_exp (-1074) 53). rewrite ulp_FLT_0 by exact prec53. apply bpow_le. lia.
      * rewrite ulp_neq_0 by exact N. apply bpow_le. unfold cexp. rewrite fexp64_FLT. unfold FLT_exp.
        assert (mag radix2 x <= e)%Z by (apply mag_le_bpow; [exact N|lra]). lia.
    + replace (e - 54)%Z with (-1 + (e - 53))%Z by lia. rewrite bpow_plus. simpl (bpow radix2 (-1)). lra.
Qed.
Lemma rnd_99 x : bpow radix2 (-1022) <= x <= bpow radix2 1023 -> 99 / 100 * x <= rnd x <= 101 / 100 * x.
Proof.
  intro H. pose proof (bpow_gt_0 radix2 (-1022)). assert (A : Rabs x = x) by (apply Rabs_pos_eq; lra).
  pose proof (rnd_rel x ltac:(rewrite A; exact H)) as E. rewrite A in E. apply Rabs_le_inv in E.
  assert (bpow radix2 (-53) <= / 100).
  { apply Rle_trans with (bpow radix2 (-7)); [apply bpow_le; lia|]. simpl. lra. }
  nra.
Qed.

(** ** Weng-Lin expected score away from overflow *)
Lemma bpow_1020_lt : bpow radix2 1021 < M64. Proof. apply bpow_lt. lia. Qed.
Lemma fin_le x e : nn x -> (e <= 1023)%Z -> 0 <= ext x <= bpow radix2 e -> fin x.
Proof.
  intros N He H. apply fin_iff; [exact N|]. rewrite Rabs_pos_eq by lra.
  apply Rle_lt_trans with (bpow radix2 e); [lra|]. apply bpow_lt. lia.
Qed.
Lemma rnd_nonneg x : 0 <= x -> 0 <= rnd x.
Proof. intro. rewrite <- rnd_0. now apply rnd_le. Qed.
Lemma rnd_le_pow x e : (-1022 <= e <= 1024)%Z -> x <= bpow radix2 e -> rnd x <= bpow radix2 e.
Proof. intros He H. rewrite <- (rnd_pow2 e He). now apply rnd_le. Qed.
Lemma rnd_ge_pow x e : (-1022 <= e <= 1024)%Z -> bpow radix2 e <= x -> bpow radix2 e <= rnd x.
Proof. intros He H. rewrite <- (rnd_pow2 e He). now apply rnd_le. Qed.
Lemma sq_le_pow x e : 0 <= x <= bpow radix2 e -> x * x <= bpow radix2 (e + e).
Proof. intro H. rewrite bpow_plus. pose proof (bpow_gt_0 radix2 e). nra. Qed.

(** the value c of two players *)
Lemma c_players L b u1 u2 : fin b -> fin u1 -> fin u2 ->
  bpow radix2 (-500) <= ext b <= bpow radix2 500 -> 0 <= ext u1 <= bpow radix2 500 -> 0 <= ext u2 <= bpow radix2 500 ->
  let c := wl_c_players (A := B64A L) b u1 u2 in
  fin c /\ 138 / 100 * ext b <= ext c.
Proof.
  intros Fb F1 F2 Hb H1 H2 c.
  destruct (ext_mult b b Fb Fb) as [Nb2 Eb2]. destruct (ext_mult u2 u2 F2 F2) as [Nu2 Eu2].
  set (b2 := Bmult mode_NE b b) in *. set (u22 := Bmult mode_NE u2 u2) in *.
  pose proof (bpow_gt_0 radix2 (-500)) as P500.
  assert (B2 : 0 <= ext b2 <= bpow radix2 1000).
  { rewrite Eb2. split; [apply rnd_nonneg; nra|]. apply rnd_le_pow; [lia|]. apply (sq_le_pow _ 500). lra. }
  assert (U2 : 0 <= ext u22 <= bpow radix2 1000).
  { rewrite Eu2. split; [apply rnd_nonneg; nra|]. apply rnd_le_pow; [lia|]. apply (sq_le_pow _ 500). lra. }
  assert (Fb2 : fin b2) by (apply (fin_le _ 1000); [auto|lia|lra]).
  assert (Fu2 : fin u22) by (apply (fin_le _ 1000); [auto|lia|lra]).
  assert (B2l : 99 / 100 * (ext b * ext b) <= ext b2).
  { rewrite Eb2. apply rnd_99. split.
    - apply Rle_trans with (bpow radix2 (-500) * bpow radix2 (-500)); [rewrite <- bpow_plus; apply bpow_le; lia|]. nra.
    - apply Rle_trans with (bpow radix2 1000); [apply (sq_le_pow _ 500); lra|apply bpow_le; lia]. }
  destruct (ext_fma u1 u1 u22 F1 F1 Fu2) as [Nu Eu]. set (uu := Bfma mode_NE u1 u1 u22) in *.
  assert (E1001 : bpow radix2 1001 = 2 * bpow radix2 1000) by (change 1001%Z with (1 + 1000)%Z; rewrite bpow_plus; reflexivity).
  assert (E1002 : bpow radix2 1002 = 4 * bpow radix2 1000) by (change 1002%Z with (2 + 1000)%Z; rewrite bpow_plus; reflexivity).
  assert (UU : 0 <= ext uu <= bpow radix2 1001).
  { rewrite Eu. split; [apply rnd_nonneg; nra|]. apply rnd_le_pow; [lia|].
    pose proof (sq_le_pow (ext u1) 500 H1) as S. change (500 + 500)%Z with 1000%Z in S. lra. }
  assert (Fuu : fin uu) by (apply (fin_le _ 1001); [auto|lia|lra]).
  assert (F2' : fin (b64_of_Z 2)) by reflexivity.
  assert (E2' : ext (b64_of_Z 2) = 2) by (apply (ext_ofZ 2); vm_compute; discriminate).
  destruct (ext_fma (b64_of_Z 2) b2 uu F2' Fb2 Fuu) as [Ns Es]. set (s := Bfma mode_NE (b64_of_Z 2) b2 uu) in *.
  rewrite E2' in Es.
  assert (Lz : 198 / 100 * (ext b * ext b) <= 2 * ext b2 + ext uu) by lra.
  assert (Bb : bpow radix2 (-1000) <= ext b * ext b).
  { apply Rle_trans with (bpow radix2 (-500) * bpow radix2 (-500)); [rewrite <- bpow_plus; apply bpow_le; lia|]. nra. }
  assert (Sl : 99 / 100 * (198 / 100 * (ext b * ext b)) <= ext s).
  { rewrite Es. apply Rle_trans with (99 / 100 * (2 * ext b2 + ext uu)); [lra|]. apply rnd_99. split.
    - apply Rle_trans with (bpow radix2 (-1000)); [apply bpow_le; lia|]. lra.
    - apply Rle_trans with (bpow radix2 1002); [lra|apply bpow_le; lia]. }
  assert (Su : ext s <= bpow radix2 1002) by (rewrite Es; apply rnd_le_pow; [lia|lra]).
  assert (S0 : 0 < ext s) by (pose proof (bpow_gt_0 radix2 (-1000)); lra).
  assert (Fs : fin s) by (apply (fin_le _ 1002); [auto|lia|lra]).
  destruct (ext_sqrt s Fs ltac:(lra)) as [Nc Ec].
  change (Bsqrt mode_NE s) with c in Nc, Ec.
  assert (Q1 : sqrt (ext s) <= bpow radix2 501).
  { apply Rle_trans with (sqrt (bpow radix2 501 * bpow radix2 501)); [apply sqrt_le_1_alt; rewrite <- bpow_plus; exact Su|].
    rewrite sqrt_square; [lra|apply bpow_ge_0]. }
  assert (Q2 : 140 / 100 * ext b <= sqrt (ext s)).
  { rewrite <- (sqrt_square (140 / 100 * ext b)) by lra. apply sqrt_le_1_alt. nra. }
  assert (Q3 : bpow radix2 (-501) <= sqrt (ext s)).
  { apply Rle_trans with (bpow radix2 (-500)); [apply bpow_le; lia|lra]. }
  split.
  - apply (fin_le _ 501); [exact Nc|lia|]. rewrite Ec. split; [apply rnd_nonneg; lra|]. apply rnd_le_pow; [lia|exact Q1].
  - rewrite Ec. apply Rle_trans with (99 / 100 * sqrt (ext s)); [lra|]. apply rnd_99. split.
    + apply Rle_trans with (2 := Q3). apply bpow_le; lia.
    + apply Rle_trans with (1 := Q1). apply bpow_le; lia.
Qed.
Lemma exp_arg r c b : fin r -> fin c -> 0 < ext b -> 138 / 100 * ext b <= ext c -> Rabs (ext r) <= 800 * ext b ->
  le64 (b64_of_Z (-600)) (Bdiv mode_NE r c) /\ le64 (Bdiv mode_NE r c) (b64_of_Z 600).
Proof.
  intros Fr Fc Pb Hc Hr. destruct (ext_div r c Fr Fc ltac:(lra)) as [N E].
  apply Rabs_le_inv in Hr.
  assert (A : -600 <= ext r / ext c <= 600).
  { split; apply Rmult_le_reg_r with (ext c); try lra; unfold Rdiv; rewrite Rmult_assoc, Rinv_l, Rmult_1_r by lra; lra. }
  split; apply le64_iff; auto; try reflexivity; rewrite E.
  - rewrite (proj2 (ext_ofZ (-600) ltac:(vm_compute; discriminate))).
    rewrite <- (rnd_Z (-600)) by (vm_compute; discriminate). apply rnd_le. lra.
  - rewrite (proj2 (ext_ofZ 600 ltac:(vm_compute; discriminate))).
    rewrite <- (rnd_Z 600) by (vm_compute; discriminate). apply rnd_le. lra.
Qed.
Lemma p_in01 (e1 e2 : B64) : le64 (b64 1 (-1020)) e1 -> le64 e1 (b64 1 1020) -> le64 (b64 1 (-1020)) e2 -> le64 e2 (b64 1 1020) ->
  in01 (Bdiv mode_NE e1 (Bplus mode_NE e1 e2)).
Proof.
  intros A1 B1 A2 B2. apply le_Bleb in A1, B1, A2, B2.
  rewrite (proj2 (ext_pow2 (-1020) ltac:(lia))) in A1, A2. rewrite (proj2 (ext_pow2 1020 ltac:(lia))) in B1, B2.
  destruct A1 as [_ [N1 A1]], A2 as [_ [N2 A2]], B1 as [_ [_ B1]], B2 as [_ [_ B2]].
  pose proof (bpow_gt_0 radix2 (-1020)).
  assert (F1 : fin e1) by (apply (fin_le _ 1020); [auto|lia|lra]).
  assert (F2 : fin e2) by (apply (fin_le _ 1020); [auto|lia|lra]).
  destruct (ext_plus e1 e2 F1 F2) as [Ns Es]. set (s := Bplus mode_NE e1 e2) in *.
  assert (E : bpow radix2 1021 = 2 * bpow radix2 1020) by (change 1021%Z with (1 + 1020)%Z; rewrite bpow_plus; reflexivity).
  assert (S1 : ext e1 <= ext s) by (rewrite Es; rewrite <- (rnd_ext e1 F1) at 1; apply rnd_le; lra).
  assert (S2 : ext s <= bpow radix2 1021) by (rewrite Es; apply rnd_le_pow; [lia|lra]).
  assert (Fs : fin s) by (apply (fin_le _ 1021); [auto|lia|lra]).
  destruct (ext_div e1 s F1 Fs ltac:(lra)) as [N3 E3]. apply in01_of; [exact N3|]. rewrite E3. split.
  - apply rnd_nonneg. apply Rmult_le_pos; [lra|]. apply Rinv_ge_0. lra.
  - rewrite <- rnd_1. apply rnd_le. apply Rmult_le_reg_r with (ext s); [lra|].
    unfold Rdiv. rewrite Rmult_assoc, Rinv_l by lra. lra.
Qed.
Lemma C47_partial_proof : forall (L : Libm) (p1 p2 : WengLinRating B64) (cfg : WengLinConfig B64),
  exp_normal L ->
  finite (wl_rating p1) -> finite (wl_rating p2) -> finite (wl_uncertainty p1) -> finite (wl_uncertainty p2) -> finite (wl_beta cfg) ->
  let b := B2R (wl_beta cfg) in
  / 2 ^ 500 <= b <= 2 ^ 500 ->
  0 <= B2R (wl_uncertainty p1) <= 2 ^ 500 -> 0 <= B2R (wl_uncertainty p2) <= 2 ^ 500 ->
  Rabs (B2R (wl_rating p1)) <= 800 * b -> Rabs (B2R (wl_rating p2)) <= 800 * b ->
  let e := wl_expected_score (A := B64A L) p1 p2 cfg in in01 (fst e) /\ in01 (snd e).
Proof.
  intros L p1 p2 cfg EN Fr1 Fr2 Fu1 Fu2 Fb b Hb H1 H2 R1 R2 e. unfold b in *. clear b.
  assert (P : bpow radix2 500 = 2 ^ 500) by (symmetry; apply (pow_IZR 2 500)).
  assert (P' : bpow radix2 (-500) = / 2 ^ 500) by (change (-500)%Z with (- (500))%Z; rewrite bpow_opp, P; reflexivity).
  rewrite <- P in *. rewrite <- P' in *.
  rewrite <- (ext_fin _ Fr1), <- (ext_fin _ Fr2), <- (ext_fin _ Fb), <- (ext_fin _ Fu1), <- (ext_fin _ Fu2) in *.
  destruct (c_players L _ _ _ Fb Fu1 Fu2 Hb H1 H2) as [Fc Hc].
  set (c := wl_c_players (A := B64A L) (wl_beta cfg) (wl_uncertainty p1) (wl_uncertainty p2)) in *.
  pose proof (bpow_gt_0 radix2 (-500)).
  clear P P'. assert (Pb : 0 < ext (wl_beta cfg)) by lra.
  destruct (exp_arg _ c _ Fr1 Fc Pb Hc R1) as [A1 B1]. destruct (exp_arg _ c _ Fr2 Fc Pb Hc R2) as [A2 B2].
  destruct (EN _ A1 B1) as [X1 Y1]. destruct (EN _ A2 B2) as [X2 Y2].
  assert (Q : in01 (fst e)) by (apply p_in01; assumption).
  split; [exact Q|]. apply one_minus_in01. exact Q.
Qed.
