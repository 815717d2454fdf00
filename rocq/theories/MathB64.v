(** IEEE-754 binary64 facts: non-NaN floats as real numbers with the two
    infinities at +-2^1024, every basic operation as one monotone rounding. *)
From Coq Require Import ZArith NArith List Bool Reals Lra Lia Psatz.
From Flocq Require Import Core.Core IEEE754.BinarySingleNaN.
From Verif Require Import Arith B64.
Local Open Scope R_scope.

Notation fexp64 := (SpecFloat.fexp 53 1024).
Definition M64 : R := bpow radix2 1024.
Definition ext (x : B64) : R :=
  match x with
  | B754_zero _ => 0
  | B754_infinity s => if s then - M64 else M64
  | B754_nan => 0
  | B754_finite _ _ _ _ => B2R x
  end.
Definition rnd0 (r : R) : R := round radix2 fexp64 ZnearestE r.
Definition rnd (r : R) : R := Rmax (- M64) (Rmin M64 (rnd0 r)).
Definition nn (x : B64) : Prop := is_nan x = false.
Definition fin (x : B64) : Prop := is_finite x = true.

Lemma M64_pos : 0 < M64. Proof. apply bpow_gt_0. Qed.
Lemma fexp64_FLT : fexp64 = FLT_exp (-1074) 53. Proof. reflexivity. Qed.
#[global] Instance valid64 : Valid_exp fexp64.
Proof. change (Valid_exp (FLT_exp (-1074) 53)). apply FLT_exp_valid. exact prec53. Qed.
Lemma fin_nn x : fin x -> nn x. Proof. unfold fin, nn. destruct x; simpl; congruence. Qed.
Lemma ext_fin x : fin x -> ext x = B2R x. Proof. unfold fin. destruct x; simpl; congruence. Qed.
Lemma ext_abs_fin x : fin x -> Rabs (ext x) < M64.
Proof. intro H. rewrite ext_fin by exact H. apply abs_B2R_lt_emax. Qed.
Lemma ext_bounds x : - M64 <= ext x <= M64.
Proof.
  pose proof M64_pos. destruct x as [s|[|]| |s m e h]; simpl; try lra.
  pose proof (abs_B2R_lt_emax 53 1024 (B754_finite s m e h)) as A.
  fold M64 in A. apply Rabs_def2 in A. simpl in A. simpl. lra.
Qed.
Lemma fin_iff x : nn x -> fin x <-> Rabs (ext x) < M64.
Proof.
  intro N. split; [apply ext_abs_fin|]. unfold fin, nn in *. pose proof M64_pos.
  destruct x as [s|[|]| |s m e h]; simpl in *; try congruence; try tauto;
  intro A; apply Rabs_def2 in A; lra.
Qed.

Lemma rnd0_le a b : a <= b -> rnd0 a <= rnd0 b.
Proof. intro. unfold rnd0. apply round_le; auto; typeclasses eauto. Qed.
Lemma rnd_le a b : a <= b -> rnd a <= rnd b.
Proof.
  intro H. apply rnd0_le in H. unfold rnd. pose proof M64_pos.
  unfold Rmax, Rmin. repeat destruct Rle_dec; lra.
Qed.
Lemma rnd_bounds a : - M64 <= rnd a <= M64.
Proof. unfold rnd. pose proof M64_pos. unfold Rmax, Rmin. repeat destruct Rle_dec; lra. Qed.
Lemma rnd_id a : generic_format radix2 fexp64 a -> Rabs a <= M64 -> rnd a = a.
Proof.
  intros G A. unfold rnd, rnd0. rewrite round_generic by (auto; typeclasses eauto).
  assert (- M64 <= a <= M64) by (apply Rabs_le_inv in A || (unfold Rabs in A; destruct Rcase_abs in A; lra); lra).
  unfold Rmax, Rmin. repeat destruct Rle_dec; lra.
Qed.
Lemma rnd_0 : rnd 0 = 0.
Proof. apply rnd_id; [apply generic_format_0 | rewrite Rabs_R0; pose proof M64_pos; lra]. Qed.
Lemma rnd_ext x : fin x -> rnd (ext x) = ext x.
Proof.
  intro H. apply rnd_id; [rewrite ext_fin by exact H; apply generic_format_B2R|].
  left. apply ext_abs_fin; auto.
Qed.
Lemma rnd_pow2 e : (-1022 <= e <= 1024)%Z -> rnd (bpow radix2 e) = bpow radix2 e.
Proof.
  intro H. apply rnd_id.
  - apply generic_format_bpow. rewrite fexp64_FLT. unfold FLT_exp. lia.
  - rewrite Rabs_pos_eq by apply bpow_ge_0. apply bpow_le. lia.
Qed.
Lemma rnd_1 : rnd 1 = 1.
Proof. apply (rnd_pow2 0). lia. Qed.
Lemma rnd_Z z : (Z.abs z <= 2 ^ 53)%Z -> rnd (IZR z) = IZR z.
Proof.
  intro H. apply rnd_id.
  - destruct (Z.eq_dec (Z.abs z) (2 ^ 53)) as [E|E].
    + assert (G : generic_format radix2 fexp64 (bpow radix2 53))
        by (apply generic_format_bpow; rewrite fexp64_FLT; unfold FLT_exp; lia).
      change (bpow radix2 53) with (IZR (2 ^ 53)) in G.
      destruct (Z.abs_spec z) as [[_ Q]|[_ Q]]; rewrite Q in E.
      * rewrite E. exact G.
      * replace z with (- 2 ^ 53)%Z by lia. rewrite opp_IZR. apply generic_format_opp, G.
    + replace (IZR z) with (F2R (Float radix2 z 0)) by (unfold F2R; simpl; ring).
      rewrite fexp64_FLT. apply generic_format_FLT. exists (Float radix2 z 0); simpl; try reflexivity; lia.
  - rewrite <- abs_IZR. unfold M64. apply Rle_trans with (bpow radix2 53); [|apply bpow_le; lia].
    change (bpow radix2 53) with (IZR (2 ^ 53)). apply IZR_le. exact H.
Qed.

(** From Flocq's [if no overflow then .. else infinity] statements. *)
Lemma ext_of_correct (z : B64) (res : R) (s : bool) :
  (if Rlt_bool (Rabs (rnd0 res)) M64 then B2R z = rnd0 res /\ fin z
   else B2SF z = binary_overflow 53 1024 mode_NE s /\ (if s then res <= 0 else 0 <= res)) ->
  nn z /\ ext z = rnd res.
Proof.
  pose proof M64_pos as MP. case Rlt_bool_spec; intros C H.
  - destruct H as [H1 H2]. split; [apply fin_nn; auto|]. rewrite ext_fin by auto. rewrite H1.
    apply Rabs_def2 in C. unfold rnd, Rmax, Rmin. repeat destruct Rle_dec; lra.
  - destruct H as [H1 H2]. unfold binary_overflow in H1. simpl in H1.
    destruct z as [|s'| |]; simpl in H1; try discriminate. injection H1 as ->.
    split; [reflexivity|]. simpl.
    assert (Z : rnd0 0 = 0) by (apply round_0; typeclasses eauto).
    destruct s; apply rnd0_le in H2; rewrite Z in H2; unfold Rabs in C; destruct Rcase_abs in C;
    unfold rnd, Rmax, Rmin; repeat destruct Rle_dec; lra.
Qed.
Lemma sign_B2R (x : B64) : fin x -> if Bsign x then B2R x <= 0 else 0 <= B2R x.
Proof.
  unfold fin. destruct x as [s|s| |s m e h]; simpl; try discriminate; intros _; [destruct s; lra|].
  destruct s; [apply F2R_le_0 | apply F2R_ge_0]; simpl; lia.
Qed.

Lemma ext_plus x y : fin x -> fin y -> nn (Bplus mode_NE x y) /\ ext (Bplus mode_NE x y) = rnd (ext x + ext y).
Proof.
  intros Fx Fy. rewrite (ext_fin x Fx), (ext_fin y Fy). apply ext_of_correct with (s := Bsign x).
  pose proof (Bplus_correct 53 1024 _ _ mode_NE x y Fx Fy) as H. fold M64 in H.
  change (round radix2 fexp64 (round_mode mode_NE) (B2R x + B2R y)) with (rnd0 (B2R x + B2R y)) in H.
  destruct Rlt_bool; [tauto|]. destruct H as [H1 H2]. split; [exact H1|].
  pose proof (sign_B2R x Fx). pose proof (sign_B2R y Fy). rewrite <- H2 in H0. destruct (Bsign x); lra.
Qed.
Lemma ext_minus x y : fin x -> fin y -> nn (Bminus mode_NE x y) /\ ext (Bminus mode_NE x y) = rnd (ext x - ext y).
Proof.
  intros Fx Fy. rewrite (ext_fin x Fx), (ext_fin y Fy). apply ext_of_correct with (s := Bsign x).
  pose proof (Bminus_correct 53 1024 _ _ mode_NE x y Fx Fy) as H. fold M64 in H.
  change (round radix2 fexp64 (round_mode mode_NE) (B2R x - B2R y)) with (rnd0 (B2R x - B2R y)) in H.
  destruct Rlt_bool; [tauto|]. destruct H as [H1 H2]. split; [exact H1|].
  pose proof (sign_B2R x Fx). pose proof (sign_B2R y Fy). destruct (Bsign x), (Bsign y); try discriminate; lra.
Qed.
Lemma ext_mult x y : fin x -> fin y -> nn (Bmult mode_NE x y) /\ ext (Bmult mode_NE x y) = rnd (ext x * ext y).
Proof.
  intros Fx Fy. rewrite (ext_fin x Fx), (ext_fin y Fy). apply ext_of_correct with (s := xorb (Bsign x) (Bsign y)).
  pose proof (Bmult_correct 53 1024 _ _ mode_NE x y) as H. fold M64 in H.
  change (round radix2 fexp64 (round_mode mode_NE) (B2R x * B2R y)) with (rnd0 (B2R x * B2R y)) in H.
  destruct Rlt_bool.
  - destruct H as [H1 [H2 _]]. split; [exact H1|]. unfold fin in *. now rewrite H2, Fx, Fy.
  - split; [exact H|]. pose proof (sign_B2R x Fx). pose proof (sign_B2R y Fy).
    destruct (Bsign x), (Bsign y); simpl; nra.
Qed.
Lemma ext_fma x y z : fin x -> fin y -> fin z ->
  nn (Bfma mode_NE x y z) /\ ext (Bfma mode_NE x y z) = rnd (ext x * ext y + ext z).
Proof.
  intros Fx Fy Fz. rewrite (ext_fin x Fx), (ext_fin y Fy), (ext_fin z Fz).
  apply ext_of_correct with (s := Rlt_bool (B2R x * B2R y + B2R z) 0).
  pose proof (Bfma_correct 53 1024 _ _ mode_NE x y z Fx Fy Fz) as H. cbv zeta in H. fold M64 in H.
  change (round radix2 fexp64 (round_mode mode_NE) (B2R x * B2R y + B2R z)) with (rnd0 (B2R x * B2R y + B2R z)) in H.
  destruct (Rlt_bool (Rabs _)); [tauto|]. split; [exact H|]. case Rlt_bool_spec; lra.
Qed.
Lemma Rinv_le_0 r : r <= 0 -> / r <= 0.
Proof.
  intro H. destruct (Req_dec r 0) as [->|N]; [rewrite Rinv_0; lra|].
  assert (r < 0) by lra. pose proof (Rinv_lt_0_compat r H0). lra.
Qed.
Lemma Rinv_ge_0 r : 0 <= r -> 0 <= / r.
Proof.
  intro H. destruct (Req_dec r 0) as [->|N]; [rewrite Rinv_0; lra|].
  left. apply Rinv_0_lt_compat. lra.
Qed.
Lemma ext_div x y : fin x -> fin y -> ext y <> 0 ->
  nn (Bdiv mode_NE x y) /\ ext (Bdiv mode_NE x y) = rnd (ext x / ext y).
Proof.
  intros Fx Fy. rewrite (ext_fin x Fx), (ext_fin y Fy). intro N. apply ext_of_correct with (s := xorb (Bsign x) (Bsign y)).
  pose proof (Bdiv_correct 53 1024 _ _ mode_NE x y N) as H. fold M64 in H.
  change (round radix2 fexp64 (round_mode mode_NE) (B2R x / B2R y)) with (rnd0 (B2R x / B2R y)) in H.
  destruct Rlt_bool.
  - destruct H as [H1 [H2 _]]. split; [exact H1|]. unfold fin in *. now rewrite H2.
  - split; [exact H|]. pose proof (sign_B2R x Fx). pose proof (sign_B2R y Fy). unfold Rdiv.
    destruct (Bsign x), (Bsign y); simpl;
    try (pose proof (Rinv_le_0 _ H1)); try (pose proof (Rinv_ge_0 _ H1)); nra.
Qed.
Lemma ext_opp x : nn x -> nn (Bopp x) /\ ext (Bopp x) = - ext x.
Proof.
  unfold nn. destruct x as [s|[|]| |s m e h]; simpl; intro; try discriminate; split; try reflexivity; try lra.
  pose proof (B2R_Bopp 53 1024 (B754_finite s m e h)) as B. simpl in B. rewrite <- B. reflexivity.
Qed.
Lemma ext_sqrt x : fin x -> 0 <= ext x -> nn (Bsqrt mode_NE x) /\ ext (Bsqrt mode_NE x) = rnd (sqrt (ext x)).
Proof.
  intros Fx. rewrite (ext_fin x Fx). intro P.
  destruct (Bsqrt_correct 53 1024 _ _ mode_NE x) as [H1 [H2 _]].
  assert (F : fin (Bsqrt mode_NE x)).
  { unfold fin in *. rewrite H2. destruct x as [s|s| |s m e h]; try discriminate; [reflexivity|].
    destruct s; [|reflexivity]. exfalso. simpl in P.
    assert (Q : F2R (Float radix2 (Z.neg m) e) < 0) by (apply F2R_lt_0; simpl; lia). simpl in Q. lra. }
  split; [apply fin_nn; auto|]. rewrite ext_fin by auto. rewrite H1.
  pose proof (abs_B2R_lt_emax 53 1024 (Bsqrt mode_NE x)) as A. rewrite H1 in A. fold M64 in A.
  change (round radix2 fexp64 (round_mode mode_NE) (sqrt (B2R x))) with (rnd0 (sqrt (B2R x))) in A |- *.
  apply Rabs_def2 in A. unfold rnd, Rmax, Rmin. repeat destruct Rle_dec; lra.
Qed.
Lemma ext_b64 m e : nn (b64 m e) /\ ext (b64 m e) = rnd (F2R (Float radix2 m e)).
Proof.
  apply ext_of_correct with (s := Rlt_bool (F2R (Float radix2 m e)) 0).
  pose proof (binary_normalize_correct 53 1024 _ _ mode_NE m e false) as H. cbv zeta in H. fold M64 in H.
  change (round radix2 fexp64 (round_mode mode_NE) (F2R (Float radix2 m e))) with (rnd0 (F2R (Float radix2 m e))) in H.
  fold (b64 m e) in H. destruct (Rlt_bool (Rabs _)); [tauto|]. split; [exact H|]. case Rlt_bool_spec; lra.
Qed.
Lemma ext_ofZ z : (Z.abs z <= 2 ^ 53)%Z -> fin (b64_of_Z z) /\ ext (b64_of_Z z) = IZR z.
Proof.
  intro H. destruct (ext_b64 z 0) as [N E].
  replace (F2R (Float radix2 z 0)) with (IZR z) in E by (unfold F2R; simpl; ring).
  rewrite rnd_Z in E by exact H. split; [|exact E]. apply fin_iff; [exact N|].
  unfold b64_of_Z. rewrite E. rewrite <- abs_IZR. unfold M64.
  apply Rle_lt_trans with (bpow radix2 53); [|apply bpow_lt; lia].
  change (bpow radix2 53) with (IZR (2 ^ 53)). apply IZR_le. exact H.
Qed.

(** Comparisons. *)
Lemma Bleb_ext x y : nn x -> nn y -> Bleb x y = Rle_bool (ext x) (ext y).
Proof.
  intros Nx Ny. pose proof M64_pos.
  destruct (is_finite x) eqn:Fx, (is_finite y) eqn:Fy.
  - rewrite !ext_fin by auto. now apply Bleb_correct.
  - pose proof (ext_abs_fin x Fx) as A. apply Rabs_def2 in A.
    destruct y as [|[|]| |]; try discriminate; destruct x as [s|s| |s m e h]; try discriminate; simpl in *;
    case Rle_bool_spec; intro; try reflexivity; try lra; destruct s; try reflexivity; lra.
  - pose proof (ext_abs_fin y Fy) as A. apply Rabs_def2 in A.
    destruct x as [|[|]| |]; try discriminate; destruct y as [s|s| |s m e h]; try discriminate; simpl in *;
    case Rle_bool_spec; intro; try reflexivity; try lra; destruct s; try reflexivity; lra.
  - destruct x as [|[|]| |]; try discriminate; destruct y as [|[|]| |]; try discriminate; simpl;
    case Rle_bool_spec; intro; try reflexivity; lra.
Qed.
Lemma Bltb_ext x y : nn x -> nn y -> Bltb x y = Rlt_bool (ext x) (ext y).
Proof.
  intros Nx Ny. pose proof M64_pos.
  destruct (is_finite x) eqn:Fx, (is_finite y) eqn:Fy.
  - rewrite !ext_fin by auto. now apply Bltb_correct.
  - pose proof (ext_abs_fin x Fx) as A. apply Rabs_def2 in A.
    destruct y as [|[|]| |]; try discriminate; destruct x as [s|s| |s m e h]; try discriminate; simpl in *;
    case Rlt_bool_spec; intro; try reflexivity; try lra; destruct s; try reflexivity; lra.
  - pose proof (ext_abs_fin y Fy) as A. apply Rabs_def2 in A.
    destruct x as [|[|]| |]; try discriminate; destruct y as [s|s| |s m e h]; try discriminate; simpl in *;
    case Rlt_bool_spec; intro; try reflexivity; try lra; destruct s; try reflexivity; lra.
  - destruct x as [|[|]| |]; try discriminate; destruct y as [|[|]| |]; try discriminate; simpl;
    case Rlt_bool_spec; intro; try reflexivity; lra.
Qed.
Lemma Bleb_le x y : nn x -> nn y -> ext x <= ext y -> Bleb x y = true.
Proof. intros. rewrite Bleb_ext by auto. now apply Rle_bool_true. Qed.
Lemma le_Bleb x y : Bleb x y = true -> nn x /\ nn y /\ ext x <= ext y.
Proof.
  intro H. assert (nn x) by (unfold nn; destruct x as [|[|]| |[|]]; try reflexivity; destruct y as [|[|]| |[|]]; discriminate).
  assert (nn y) by (unfold nn; destruct y as [|[|]| |[|]]; try reflexivity; destruct x as [|[|]| |[|]]; discriminate).
  repeat split; auto. rewrite Bleb_ext in H by auto. revert H. case Rle_bool_spec; [auto|discriminate].
Qed.
Lemma Bltb_nan_l (y : B64) : Bltb (B754_nan : B64) y = false. Proof. reflexivity. Qed.
Lemma Bltb_nan_r (x : B64) : Bltb x (B754_nan : B64) = false. Proof. destruct x as [|[|]| |[|]]; reflexivity. Qed.
