(** Facts about non-negative f64 values that may be infinite, with the sign of zero. *)
From Coq Require Import ZArith Bool Reals Lra Lia Psatz List.
From Flocq Require Import Core.Core IEEE754.BinarySingleNaN.
From Verif Require Import B64 MathB64 SpecB64 ProofB64 ProofB64b.
Import ListNotations.
Local Open Scope R_scope.

(** Not NaN and the sign bit clear: +0, a positive number or +inf. *)
Definition sp (x : B64) : Prop := nn x /\ Bsign x = false.

Lemma sp_ge0 x : sp x -> 0 <= ext x.
Proof.
  intros [N S]. destruct (is_finite x) eqn:F.
  - rewrite (ext_fin x F). pose proof (sign_B2R x F) as H. rewrite S in H. exact H.
  - destruct x as [|[|]| |]; try discriminate. simpl. pose proof M64_pos; lra.
Qed.
Lemma sp_of x : nn x -> 0 < ext x -> sp x.
Proof.
  intros N H. split; [exact N|]. destruct (is_finite x) eqn:F.
  - rewrite (ext_fin x F) in H. pose proof (sign_B2R x F) as G. destruct (Bsign x); [lra|reflexivity].
  - destruct x as [|[|]| |]; try discriminate; [|reflexivity]. simpl in H. pose proof M64_pos; lra.
Qed.
Lemma sp_inf (x : B64) : sp x -> ~ fin x -> x = B754_infinity false.
Proof. intros [N S] F. destruct x as [|[|]| |]; try discriminate; try reflexivity; exfalso; apply F; reflexivity. Qed.
Lemma sp_ofZ z : (0 <= z <= 2 ^ 53)%Z -> sp (b64_of_Z z).
Proof.
  intro H. destruct (Z.eq_dec z 0) as [->|N]; [split; reflexivity|].
  destruct (ext_ofZ z ltac:(lia)) as [F E]. apply sp_of; [apply fin_nn; exact F|]. rewrite E. apply IZR_lt. lia.
Qed.
Lemma rnd_nonneg' x : 0 <= x -> 0 <= rnd x. Proof. apply rnd_nonneg. Qed.
Lemma rnd_le_M x : rnd x <= M64. Proof. apply rnd_bounds. Qed.
Lemma rnd_M : rnd M64 = M64. Proof. apply (rnd_pow2 1024). lia. Qed.
Lemma rnd_ge_M x : M64 <= x -> rnd x = M64.
Proof. intro H. apply Rle_antisym; [apply rnd_le_M|]. rewrite <- rnd_M at 1. apply rnd_le, H. Qed.

Lemma sp_plus x y : sp x -> sp y -> sp (Bplus mode_NE x y) /\ ext (Bplus mode_NE x y) = rnd (ext x + ext y).
Proof.
  intros Sx Sy. pose proof (sp_ge0 x Sx) as Px. pose proof (sp_ge0 y Sy) as Py.
  destruct (is_finite x) eqn:Fx; [destruct (is_finite y) eqn:Fy|].
  - destruct (ext_plus x y Fx Fy) as [N E]. split; [|exact E]. split; [exact N|].
    pose proof (Bplus_correct 53 1024 _ _ mode_NE x y Fx Fy) as H. destruct Sx as [_ Sx], Sy as [_ Sy].
    destruct Rlt_bool.
    + destruct H as [_ [_ ->]]. rewrite (ext_fin x Fx) in Px. rewrite (ext_fin y Fy) in Py.
      case Rcompare_spec; intro; try reflexivity; [lra|]. rewrite Sx. reflexivity.
    + destruct H as [H _]. rewrite Sx in H. unfold binary_overflow in H. simpl in H.
      destruct (Bplus mode_NE x y) as [|s| |]; try discriminate. simpl in H. injection H as ->. reflexivity.
  - rewrite (sp_inf y Sy ltac:(unfold fin; congruence)) in *.
    replace (Bplus mode_NE x (B754_infinity false)) with (B754_infinity false : B64) by (destruct x as [[|]| | |[|]]; try discriminate; reflexivity).
    split; [split; reflexivity|]. simpl. rewrite rnd_ge_M; [reflexivity|]. simpl in Py. lra.
  - rewrite (sp_inf x Sx ltac:(unfold fin; congruence)) in *.
    replace (Bplus mode_NE (B754_infinity false) y) with (B754_infinity false : B64)
      by (destruct Sy as [Ny Sy]; destruct y as [[|]|[|]| |[|]]; try discriminate; reflexivity).
    split; [split; reflexivity|]. simpl. rewrite rnd_ge_M; [reflexivity|]. lra.
Qed.
Lemma xorb_sign_overflow (z : B64) s : B2SF z = binary_overflow 53 1024 mode_NE s -> Bsign z = s.
Proof. unfold binary_overflow. simpl. destruct z; simpl; try discriminate. now injection 1 as ->. Qed.
Lemma mult_sign (x y : B64) : nn (Bmult mode_NE x y) -> Bsign (Bmult mode_NE x y) = xorb (Bsign x) (Bsign y).
Proof.
  intro N. pose proof (Bmult_correct 53 1024 _ _ mode_NE x y) as H. destruct Rlt_bool.
  - apply H, N.
  - now apply xorb_sign_overflow.
Qed.
Lemma sp_mult x y : sp x -> sp y -> fin x -> fin y ->
  sp (Bmult mode_NE x y) /\ ext (Bmult mode_NE x y) = rnd (ext x * ext y).
Proof.
  intros [_ Sx] [_ Sy] Fx Fy. destruct (ext_mult x y Fx Fy) as [N E]. split; [|exact E].
  split; [exact N|]. rewrite mult_sign by exact N. now rewrite Sx, Sy.
Qed.
(** a finite positive factor *)
Lemma sp_mult_c c x : sp c -> fin c -> 0 < ext c -> sp x -> sp (Bmult mode_NE c x).
Proof.
  intros Sc Fc Pc Sx. destruct (is_finite x) eqn:Fx; [now apply sp_mult|].
  rewrite (sp_inf x Sx ltac:(unfold fin; congruence)). destruct c as [| | |[|]]; try discriminate; simpl in Pc; [lra| |split; reflexivity].
  destruct Sc; discriminate.
Qed.
Lemma sp_sq x : nn x -> sp (Bmult mode_NE x x).
Proof.
  intro N. destruct (is_finite x) eqn:Fx.
  - destruct (ext_mult x x Fx Fx) as [M _]. split; [exact M|]. rewrite mult_sign by exact M. apply xorb_nilpotent.
  - destruct x as [|[|]| |]; try discriminate; split; reflexivity.
Qed.
Lemma div_sign (x y : B64) : ext y <> 0 -> fin y -> nn (Bdiv mode_NE x y) -> Bsign (Bdiv mode_NE x y) = xorb (Bsign x) (Bsign y).
Proof.
  intros Ny Fy N. rewrite (ext_fin y Fy) in Ny. pose proof (Bdiv_correct 53 1024 _ _ mode_NE x y Ny) as H. destruct Rlt_bool.
  - apply H, N.
  - now apply xorb_sign_overflow.
Qed.
Lemma sp_div_c c x : sp c -> fin c -> 0 < ext c -> sp x -> sp (Bdiv mode_NE x c).
Proof.
  intros Sc Fc Pc Sx. destruct (is_finite x) eqn:Fx.
  - destruct (ext_div x c Fx Fc ltac:(lra)) as [N _]. split; [exact N|]. rewrite div_sign by (try exact N; try exact Fc; lra).
    now rewrite (proj2 Sx), (proj2 Sc).
  - rewrite (sp_inf x Sx ltac:(unfold fin; congruence)). destruct c as [| | |[|]]; try discriminate; simpl in Pc; try lra; try (split; reflexivity).
    destruct Sc; discriminate.
Qed.
Lemma rnd_0_le x : x <= 0 -> rnd x <= 0.
Proof. intro H. rewrite <- rnd_0. apply rnd_le, H. Qed.
(** a positive finite number divided by something non-negative, possibly +0 or +inf *)
Lemma sp_div k x : sp k -> fin k -> 0 < ext k -> sp x -> sp (Bdiv mode_NE k x) /\
  (forall lo, 0 < lo <= ext x -> ext (Bdiv mode_NE k x) <= rnd (ext k / lo)) /\
  (forall hi, 0 < hi < M64 -> ext x <= hi -> rnd (ext k / hi) <= ext (Bdiv mode_NE k x)).
Proof.
  intros Sk Fk Pk Sx. pose proof (sp_ge0 x Sx) as Px. destruct (is_finite x) eqn:Fx.
  - destruct (Req_dec (ext x) 0) as [Z|NZ].
    + replace (Bdiv mode_NE k x) with (B754_infinity false : B64).
      * split; [split; reflexivity|]. split; [intros lo [L1 L2]; lra|]. intros hi _ _. simpl. apply rnd_le_M.
      * destruct Sx as [_ Sx], Sk as [_ Sk].
        destruct x as [s| | |s m e h]; try discriminate.
        -- simpl in Sx. subst s. destruct k as [| | |[|]]; try discriminate; simpl in Pk; try lra; reflexivity.
        -- exfalso. simpl in Sx. subst s. simpl in Z.
           assert (0 < F2R (Float radix2 (Z.pos m) e)) by (apply F2R_gt_0; simpl; lia). simpl in H. lra.
    + destruct (ext_div k x Fk Fx NZ) as [N E]. split.
      * split; [exact N|]. rewrite div_sign by assumption. now rewrite (proj2 Sx), (proj2 Sk).
      * assert (0 < ext x) by lra. split.
        -- intros lo [L1 L2]. rewrite E. apply rnd_le. unfold Rdiv. apply Rmult_le_compat_l; [lra|]. apply Rinv_le_contravar; lra.
        -- intros hi L1 L2. rewrite E. apply rnd_le. unfold Rdiv. apply Rmult_le_compat_l; [lra|]. apply Rinv_le_contravar; lra.
  - rewrite (sp_inf x Sx ltac:(unfold fin; congruence)) in *.
    replace (Bdiv mode_NE k (B754_infinity false)) with (B754_zero false : B64)
      by (destruct k as [| | |[|]]; try discriminate; simpl in Pk; try lra; try reflexivity; destruct Sk; discriminate).
    split; [split; reflexivity|]. simpl. split.
    + intros lo [L1 L2]. apply rnd_nonneg. unfold Rdiv. apply Rmult_le_pos; [lra|]. left. apply Rinv_0_lt_compat; lra.
    + intros hi L1 L2. lra.
Qed.
Lemma sp_sqrt x : sp x -> sp (Bsqrt mode_NE x) /\
  (forall lo, 0 <= lo <= ext x -> rnd (sqrt lo) <= ext (Bsqrt mode_NE x)) /\
  (forall hi, ext x <= hi < M64 -> ext (Bsqrt mode_NE x) <= rnd (sqrt hi)).
Proof.
  intro Sx. pose proof (sp_ge0 x Sx) as Px. destruct (is_finite x) eqn:Fx.
  - destruct (ext_sqrt x Fx Px) as [N E]. split.
    + split; [exact N|]. destruct (Bsqrt_correct 53 1024 _ _ mode_NE x) as [_ [_ H]]. rewrite (H N). apply Sx.
    + split.
      * intros lo H. rewrite E. apply rnd_le, sqrt_le_1; lra.
      * intros hi H. rewrite E. apply rnd_le, sqrt_le_1; lra.
  - rewrite (sp_inf x Sx ltac:(unfold fin; congruence)) in *. split; [split; reflexivity|]. split.
    + intros lo H. apply rnd_le_M.
    + intros hi H. simpl in H. lra.
Qed.
Lemma one_sp : sp one64. Proof. split; reflexivity. Qed.
Lemma fin_abs_le x e : nn x -> (e <= 1023)%Z -> Rabs (ext x) <= bpow radix2 e -> fin x.
Proof. intros N H B. apply fin_iff; [exact N|]. apply Rle_lt_trans with (1 := B). apply bpow_lt. lia. Qed.
(** 1/(sqrt of something at least 1) lies in [0,1] and has the sign bit clear *)
Lemma recip_sp x : sp x -> 1 <= ext x -> sp (Bdiv mode_NE one64 x) /\ in01 (Bdiv mode_NE one64 x).
Proof.
  intros S H. split; [|apply recip_in01; [apply S|exact H]].
  apply (sp_div one64 x one_sp fin_one64); [rewrite ext_one64; lra|exact S].
Qed.
Lemma one_minus_sp x : in01 x -> sp (Bminus mode_NE one64 x).
Proof.
  intro I. destruct (in01_inv x I) as [F B]. destruct (ext_minus one64 x fin_one64 F) as [N E]. split; [exact N|].
  pose proof (Bminus_correct 53 1024 _ _ mode_NE one64 x fin_one64 F) as H. destruct Rlt_bool.
  - destruct H as [_ [_ ->]]. rewrite <- (ext_fin x F), <- (ext_fin one64 fin_one64), ext_one64.
    case Rcompare_spec; intro; try reflexivity. lra.
  - destruct H as [H _]. apply xorb_sign_overflow in H. rewrite H. reflexivity.
Qed.
