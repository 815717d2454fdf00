(** Proofs of the IEEE-754 binary64 properties, seventh part: EGF, Ingo, and the
    correctly rounded libm meets the contracts used since part four. *)
From Coq Require Import ZArith NArith List Bool Reals Lra Lia Psatz.
From Flocq Require Import Core.Core IEEE754.BinarySingleNaN.
From Verif Require Import Arith B64 MathB64 MathB64b SpecB64 ModelLib ModelEgf ModelIngo Spec ProofB64 ProofB64b ProofB64c ProofB64d ProofB64e ProofB64f.
Import ListNotations.
Local Open Scope R_scope.

(** ** Contracts *)
Lemma rnd_Zle x z : (Z.abs z <= 2 ^ 53)%Z -> x <= IZR z -> rnd x <= IZR z.
Proof. intros H B. rewrite <- (rnd_Z z H). now apply rnd_le. Qed.
Lemma rnd_Zge x z : (Z.abs z <= 2 ^ 53)%Z -> IZR z <= x -> IZR z <= rnd x.
Proof. intros H B. rewrite <- (rnd_Z z H). now apply rnd_le. Qed.
Lemma fin_Z x (z : Z) : nn x -> Rabs (ext x) <= IZR z -> (z <= 2 ^ 53)%Z -> fin x.
Proof.
  intros N B H. apply (fin_abs_le _ 53); [exact N|lia|]. apply Rle_trans with (1 := B). change (bpow radix2 53) with (IZR (2 ^ 53)). now apply IZR_le.
Qed.
Lemma ln2_lt1 : 0 < ln 2 < 9 / 10.
Proof.
  split; [rewrite <- ln_1; apply ln_increasing; lra|]. rewrite <- (ln_exp (9 / 10)). apply ln_increasing; [lra|].
  pose proof exp_1_bounds as E. replace (9 / 10) with (1 / 2 + 2 / 5) by lra. rewrite exp_plus.
  assert (1 + 1 / 2 <= exp (1 / 2)) by (apply exp_ineq1_le). assert (1 + 2 / 5 <= exp (2 / 5)) by (apply exp_ineq1_le). nra.
Qed.
Lemma ln_bpow e : ln (bpow radix2 e) = IZR e * ln 2.
Proof.
  rewrite bpow_powerRZ. change (IZR radix2) with 2. rewrite powerRZ_Rpower by lra. unfold Rpower. rewrite ln_exp. reflexivity.
Qed.
Lemma ln_range x : bpow radix2 (-1074) <= x <= bpow radix2 1024 -> Rabs (ln x) <= 1000.
Proof.
  intros [H1 H2]. pose proof (bpow_gt_0 radix2 (-1074)) as P. pose proof ln2_lt1 as L.
  assert (A : ln (bpow radix2 (-1074)) <= ln x) by (destruct H1 as [H1|<-]; [left; apply ln_increasing; lra|right; reflexivity]).
  assert (B : ln x <= ln (bpow radix2 1024)) by (destruct H2 as [H2| ->]; [left; apply ln_increasing; lra|right; reflexivity]).
  rewrite ln_bpow in A, B. apply Rabs_le. nra.
Qed.
Lemma fin_min x : fin x -> 0 < B2R x -> bpow radix2 (-1074) <= B2R x < bpow radix2 1024.
Proof.
  intros F P. split.
  - pose proof (abs_B2R_ge_emin 53 1024 x) as G. rewrite Rabs_pos_eq in G by lra. apply G. unfold is_finite_strict. destruct x; try discriminate; auto. simpl in P. lra.
  - pose proof (abs_B2R_lt_emax 53 1024 x) as G. rewrite Rabs_pos_eq in G by lra. exact G.
Qed.
Lemma libm_ln10 : ln10_sane libm_rounded.
Proof.
  destruct (ext_ofZ 10 ltac:(vm_compute; discriminate)) as [F E].
  destruct (real_fun_fin ln (B754_infinity false) B754_nan (b64_of_Z 10) F) as [N H]. rewrite E in H.
  pose proof exp_1_bounds as X.
  assert (B : 2 <= ln 10 <= 3).
  { split.
    - rewrite <- (ln_exp 2). replace 2 with (1 + 1) at 1 by lra. rewrite exp_plus. left. apply ln_increasing; [nra|]. nra.
    - rewrite <- (ln_exp 3). left. apply ln_increasing; [lra|]. replace 3 with (1 + (1 + 1)) by lra. rewrite !exp_plus. nra. }
  assert (R : 2 <= rnd (ln 10) <= 3) by (split; [apply (rnd_Zge _ 2); [lia|]|apply (rnd_Zle _ 3); [lia|]]; apply B).
  assert (G : fin (real_fun ln (B754_infinity false) B754_nan (b64_of_Z 10))) by (apply (fin_Z _ 3); [exact N|rewrite H; apply Rabs_le; lra|lia]).
  split; [exact G|]. change (2 <= B2R (real_fun ln (B754_infinity false) B754_nan (b64_of_Z 10)) <= 3). rewrite <- (ext_fin _ G), H. exact R.
Qed.
Lemma real_fun_nonneg f x : nn x -> (forall r, 0 <= f r) -> le64 zero64 (real_fun f (B754_infinity false) (B754_infinity false) x).
Proof.
  intros N P. destruct (is_finite x) eqn:F.
  - destruct (real_fun_fin f (B754_infinity false) (B754_infinity false) x F) as [N' E]. apply le64_iff; [reflexivity|exact N'|].
    rewrite ext_zero64, E. apply rnd_nonneg, P.
  - destruct x as [|[|]| |]; try discriminate; reflexivity.
Qed.
Lemma libm_hypot : hypot_nonneg libm_rounded.
Proof. intros x y Nx Ny. apply real_fun_nonneg; [exact Ny|]. intro. apply sqrt_pos. Qed.
Lemma libm_expm1 : expm1_nonneg libm_rounded.
Proof.
  intros x H. apply le_Bleb in H. destruct H as [_ [N P]]. rewrite ext_zero64 in P. destruct (is_finite x) eqn:F.
  - destruct (real_fun_fin (fun r => exp r - 1) (B754_infinity false) (b64_of_Z (-1)) x F) as [N' E]. apply le64_iff; [reflexivity|exact N'|].
    rewrite ext_zero64. change (0 <= ext (real_fun (fun r => exp r - 1) (B754_infinity false) (b64_of_Z (-1)) x)). rewrite E. apply rnd_nonneg.
    pose proof (exp_ineq1_le (ext x)). lra.
  - destruct x as [|[|]| |]; try discriminate; [simpl in P; pose proof M64_pos; lra|reflexivity].
Qed.
Lemma libm_exp : exp_nonneg libm_rounded.
Proof.
  intros x N. destruct (is_finite x) eqn:F.
  - destruct (real_fun_fin exp (B754_infinity false) zero64 x F) as [N' E]. apply le64_iff; [reflexivity|exact N'|].
    rewrite ext_zero64. change (0 <= ext (real_fun exp (B754_infinity false) zero64 x)). rewrite E. apply rnd_nonneg. left. apply exp_pos.
  - destruct x as [|[|]| |]; try discriminate; reflexivity.
Qed.
Lemma libm_ln : ln_sane libm_rounded.
Proof.
  intros x F P. destruct (real_fun_fin ln (B754_infinity false) B754_nan x F) as [N E].
  assert (B : Rabs (ln (B2R x)) <= 1000) by (apply ln_range; pose proof (fin_min x F P); lra). apply Rabs_le_inv in B.
  rewrite (ext_fin x F) in E.
  assert (R : Rabs (rnd (ln (B2R x))) <= 1000).
  { apply Rabs_le. split; [apply (rnd_Zge _ (-1000)); [lia|]|apply (rnd_Zle _ 1000); [lia|]]; apply B. }
  assert (G : fin (l_ln libm_rounded x)) by (apply (fin_Z _ 1000); [exact N| |lia]; change (Rabs (ext (real_fun ln (B754_infinity false) B754_nan x)) <= 1000); rewrite E; exact R).
  split; [exact G|]. rewrite <- (ext_fin _ G). change (Rabs (ext (real_fun ln (B754_infinity false) B754_nan x)) <= 1000). rewrite E. exact R.
Qed.
Lemma libm_ln1p : ln1p_sane libm_rounded.
Proof.
  intros x F P. destruct (real_fun_fin (fun r => ln (1 + r)) (B754_infinity false) B754_nan x F) as [N E].
  assert (X : 1 + B2R x <= bpow radix2 1024).
  { pose proof (abs_B2R_lt_emax 53 1024 x) as G. rewrite Rabs_pos_eq in G by lra.
    pose proof (abs_B2R_le_emax_minus_prec 53 1024 eq_refl x) as G'. rewrite Rabs_pos_eq in G' by lra.
    assert (1 <= bpow radix2 (1024 - 53)) by (apply (bpow_le radix2 0); lia). lra. }
  assert (B : 0 <= ln (1 + B2R x) <= 1000).
  { assert (M : bpow radix2 (-1074) <= 1) by (apply (bpow_le radix2 _ 0); lia). split.
    - rewrite <- ln_1. destruct P as [P|<-]; [left; apply ln_increasing; lra|rewrite Rplus_0_r; lra].
    - eapply Rle_trans; [apply Rle_abs|]. apply ln_range. lra. }
  rewrite (ext_fin x F) in E.
  assert (R : 0 <= rnd (ln (1 + B2R x)) <= 1000).
  { split; [apply rnd_nonneg, B|apply (rnd_Zle _ 1000); [vm_compute; discriminate|apply B]]. }
  assert (G : fin (l_ln1p libm_rounded x)) by (apply (fin_Z _ 1000); [exact N| |lia]; change (Rabs (ext (real_fun (fun r => ln (1 + r)) (B754_infinity false) B754_nan x)) <= 1000); rewrite E; apply Rabs_le; lra).
  split; [exact G|]. rewrite <- (ext_fin _ G). change (0 <= ext (real_fun (fun r => ln (1 + r)) (B754_infinity false) B754_nan x) <= 1000). rewrite E. exact R.
Qed.
Lemma libm_pow16 : pow16_sane libm_rounded.
Proof.
  intros x F P.
  assert (F16 : fin (b64_lit 16 10)) by (vm_compute; reflexivity).
  assert (B16 : 0 <= ext (b64_lit 16 10) <= 2).
  { assert (H1 : Bleb zero64 (b64_lit 16 10) = true) by (vm_compute; reflexivity).
    assert (H2 : Bleb (b64_lit 16 10) (b64_of_Z 2) = true) by (vm_compute; reflexivity).
    apply le64_ext in H1, H2. rewrite ext_zero64 in H1. rewrite (proj2 (ext_ofZ 2 ltac:(vm_compute; discriminate))) in H2. lra. }
  destruct (real_fun_fin (Rpower (B2R x)) (B754_infinity false) zero64 (b64_lit 16 10) F16) as [N E].
  assert (B : 0 <= Rpower (B2R x) (ext (b64_lit 16 10)) <= 10000).
  { split; [left; apply exp_pos|]. set (y := ext _) in *. clearbody y. unfold Rpower.
    replace 10000 with (exp (2 * ln 100)).
    - apply exp_le. assert (L1 : ln (B2R x) <= ln 100) by (destruct (proj2 P) as [H| ->]; [left; apply ln_increasing; lra|lra]).
      assert (L2 : 0 <= ln 100) by (rewrite <- ln_1; left; apply ln_increasing; lra).
      apply Rle_trans with (y * ln 100); [apply Rmult_le_compat_l; lra|apply Rmult_le_compat_r; lra].
    - replace (2 * ln 100) with (ln 100 + ln 100) by ring. rewrite exp_plus, exp_ln by lra. lra. }
  assert (R : 0 <= rnd (Rpower (B2R x) (ext (b64_lit 16 10))) <= 10000).
  { split; [apply rnd_nonneg, B|apply (rnd_Zle _ 10000); [vm_compute; discriminate|apply B]]. }
  assert (G : fin (l_pow libm_rounded x (b64_lit 16 10))) by (apply (fin_Z _ 10000); [exact N| |lia];
    change (Rabs (ext (real_fun (Rpower (B2R x)) (B754_infinity false) zero64 (b64_lit 16 10))) <= 10000); rewrite E; apply Rabs_le; lra).
  split; [exact G|]. rewrite <- (ext_fin _ G). change (0 <= ext (real_fun (Rpower (B2R x)) (B754_infinity false) zero64 (b64_lit 16 10)) <= 10000). rewrite E. exact R.
Qed.

(** ** EGF *)
#[local] Opaque Bplus Bminus Bmult Bdiv Bsqrt Bfma Bopp b64 b64_of_Z b64_min b64_max b64_lit.
Lemma minus_Z x y (a b c d : Z) : fin x -> fin y -> IZR a <= ext x <= IZR b -> IZR c <= ext y <= IZR d ->
  (- 2 ^ 50 <= a)%Z -> (b <= 2 ^ 50)%Z -> (- 2 ^ 50 <= c)%Z -> (d <= 2 ^ 50)%Z -> (a <= b)%Z -> (c <= d)%Z ->
  fin (Bminus mode_NE x y) /\ IZR (a - d) <= ext (Bminus mode_NE x y) <= IZR (b - c).
Proof.
  intros Fx Fy Hx Hy Ha Hb Hc Hd Hab Hcd. destruct (ext_minus x y Fx Fy) as [N E].
  assert (B : IZR (a - d) <= ext (Bminus mode_NE x y) <= IZR (b - c)).
  { rewrite E. split; [apply rnd_Zge; [lia|]|apply rnd_Zle; [lia|]]; rewrite minus_IZR; lra. }
  split; [|exact B]. apply (fin_Z _ (2 ^ 52)); [exact N| |lia]. apply Rabs_le.
  assert (H1 : IZR (- 2 ^ 52) <= IZR (a - d)) by (apply IZR_le; lia). rewrite opp_IZR in H1.
  assert (H2 : IZR (b - c) <= IZR (2 ^ 52)) by (apply IZR_le; lia). lra.
Qed.
Lemma zz z : (Z.abs z <= 2 ^ 50)%Z -> fin (b64_of_Z z) /\ IZR z <= ext (b64_of_Z z) <= IZR z.
Proof. intro H. destruct (ext_ofZ z ltac:(lia)) as [F E]. split; [exact F|]. rewrite E. lra. Qed.
Lemma con_ok L r : pow16_sane L -> fin r -> -900 <= ext r <= 3299 ->
  fin (egf_con (A := B64A L) r) /\ 0 <= ext (egf_con (A := B64A L) r) <= 10000.
Proof.
  intros P Fr Br. destruct (zz 3300 ltac:(lia)) as [F3 B3]. destruct (ext_ofZ 200 ltac:(vm_compute; discriminate)) as [F2 E2].
  destruct (minus_Z _ r 3300 3300 (-900) 3299 F3 Fr B3 Br ltac:(lia) ltac:(lia) ltac:(lia) ltac:(lia) ltac:(lia) ltac:(lia)) as [Fm Bm].
  set (m := Bminus mode_NE (b64_of_Z 3300) r) in *. simpl Z.sub in Bm.
  destruct (ext_div m _ Fm F2 ltac:(rewrite E2; lra)) as [N E]. rewrite E2 in E.
  assert (B : 0 < ext (Bdiv mode_NE m (b64_of_Z 200)) <= 100).
  { rewrite E. split; [|apply (rnd_Zle _ 100); [vm_compute; discriminate|lra]].
    apply Rlt_le_trans with (bpow radix2 (-8)); [apply bpow_gt_0|]. apply rnd_ge_pow; [lia|]. clear E. simpl. lra. }
  assert (F : fin (Bdiv mode_NE m (b64_of_Z 200))) by (apply (fin_Z _ 100); [exact N|apply Rabs_le; lra|lia]).
  destruct (P _ F ltac:(rewrite <- (ext_fin _ F); exact B)) as [G H]. rewrite <- (ext_fin _ G) in H. split; [exact G|exact H].
Qed.
Lemma bonus_ok L r : exp_normal L -> ln1p_sane L -> fin r -> -900 <= ext r <= 3299 ->
  fin (egf_bonus (A := B64A L) r) /\ 0 <= ext (egf_bonus (A := B64A L) r) <= 1000.
Proof.
  intros X P Fr Br. destruct (zz 2300 ltac:(lia)) as [F3 B3]. destruct (ext_ofZ 80 ltac:(vm_compute; discriminate)) as [F8 E8].
  destruct (minus_Z _ r 2300 2300 (-900) 3299 F3 Fr B3 Br ltac:(lia) ltac:(lia) ltac:(lia) ltac:(lia) ltac:(lia) ltac:(lia)) as [Fm Bm].
  set (m := Bminus mode_NE (b64_of_Z 2300) r) in *. simpl Z.sub in Bm.
  destruct (ext_div m _ Fm F8 ltac:(rewrite E8; lra)) as [N E]. rewrite E8 in E. set (d := Bdiv mode_NE m (b64_of_Z 80)) in *.
  destruct (zz (-600) ltac:(lia)) as [Fa Ba]. destruct (zz 600 ltac:(lia)) as [Fb Bb].
  assert (Bd : -600 <= ext d <= 600).
  { rewrite E. split; [apply (rnd_Zge _ (-600)); [lia|]|apply (rnd_Zle _ 600); [lia|]]; lra. }
  destruct (X d) as [L1 L2]; try (apply le64_iff; [apply fin_nn; assumption|exact N|lra]); try (apply le64_iff; [exact N|apply fin_nn; assumption|lra]).
  pose proof (le_Bleb _ _ L1) as [_ [Ne _]]. apply le64_ext in L1, L2.
  rewrite (proj2 (ext_pow2 (-1020) ltac:(lia))) in L1. rewrite (proj2 (ext_pow2 1020 ltac:(lia))) in L2. pose proof (bpow_gt_0 radix2 (-1020)).
  assert (Fe : fin (l_exp L d)) by (apply (fin_le _ 1020); [exact Ne|lia|lra]).
  destruct (P _ Fe ltac:(rewrite <- (ext_fin _ Fe); lra)) as [Fl Bl]. rewrite <- (ext_fin _ Fl) in Bl.
  destruct (ext_ofZ 5 ltac:(vm_compute; discriminate)) as [F5 E5].
  destruct (ext_div _ _ Fl F5 ltac:(rewrite E5; lra)) as [Nb' Eb]. rewrite E5 in Eb.
  assert (B : 0 <= ext (egf_bonus (A := B64A L) r) <= 1000).
  { change (egf_bonus (A := B64A L) r) with (Bdiv mode_NE (l_ln1p L (l_exp L d)) (b64_of_Z 5)). rewrite Eb.
    split; [apply rnd_nonneg; lra|apply (rnd_Zle _ 1000); [vm_compute; discriminate|lra]]. }
  split; [|exact B]. apply (fin_Z _ 1000); [exact Nb'|apply Rabs_le; lra|lia].
Qed.
Definition lowH (r h : R) : Prop := -900 <= r /\ ((0 <= h <= 9 /\ r <= 2399) \/ (h = 0 /\ r <= 3299)).
Lemma eqb0 h : fin h -> ext h = 0 -> Beqb h (b64_of_Z 0) = true.
Proof.
  intros F E. destruct h as [s|s| |s m e H]; try discriminate; [destruct s; reflexivity|]. simpl in E.
  apply Float_prop.eq_0_F2R in E. destruct s; discriminate.
Qed.
Lemma half_lit : fin (b64_lit 5 10) /\ 0 <= ext (b64_lit 5 10) <= 1.
Proof. apply lit_between; vm_compute; reflexivity. Qed.
Lemma beta_ok L r h : ln_sane L -> fin r -> fin h -> lowH (ext r) (ext h) ->
  fin (egf_beta (A := B64A L) r h) /\ Rabs (ext (egf_beta (A := B64A L) r h)) <= 7000.
Proof.
  intros P Fr Fh [Lr Hh]. destruct (zz 3300 ltac:(lia)) as [F3 B3].
  assert (Q : exists m, fin m /\ 0 < ext m /\ egf_beta (A := B64A L) r h = Bmult mode_NE (b64_of_Z (-7)) (l_ln L m)).
  { assert (U : egf_beta (A := B64A L) r h = Bmult mode_NE (b64_of_Z (-7)) (l_ln L (Bminus mode_NE (Bminus mode_NE (b64_of_Z 3300)
      (if Beqb h (b64_of_Z 0) then b64_of_Z 0 else Bmult mode_NE (b64_of_Z 100) (Bminus mode_NE h (b64_lit 5 10)))) r))) by reflexivity.
    rewrite U. clear U.
    destruct (Beqb h (b64_of_Z 0)) eqn:E0.
    - destruct (zz 0 ltac:(lia)) as [F0 B0].
      destruct (minus_Z _ _ 3300 3300 0 0 F3 F0 B3 B0 ltac:(lia) ltac:(lia) ltac:(lia) ltac:(lia) ltac:(lia) ltac:(lia)) as [Fm Bm]. simpl Z.sub in Bm.
      destruct (minus_Z _ r 3300 3300 (-900) 3299 Fm Fr Bm ltac:(lra) ltac:(lia) ltac:(lia) ltac:(lia) ltac:(lia) ltac:(lia) ltac:(lia)) as [Fn Bn]. simpl Z.sub in Bn.
      eexists. split; [exact Fn|]. split; [lra|]. reflexivity.
    - destruct Hh as [[Bh Hr]|[Z0 _]]; [|rewrite (eqb0 h Fh Z0) in E0; discriminate].
      destruct half_lit as [F5 B5].
      destruct (minus_Z h _ 0 9 0 1 Fh F5 Bh B5 ltac:(lia) ltac:(lia) ltac:(lia) ltac:(lia) ltac:(lia) ltac:(lia)) as [F1 B1]. simpl Z.sub in B1.
      destruct (zz 100 ltac:(lia)) as [Fc Bc].
      destruct (ext_mult _ _ Fc F1) as [N2 E2]. set (t := Bmult mode_NE (b64_of_Z 100) _) in *.
      assert (B2 : -100 <= ext t <= 900).
      { rewrite E2. replace (ext (b64_of_Z 100)) with 100 by lra. split; [apply (rnd_Zge _ (-100)); [lia|]|apply (rnd_Zle _ 900); [lia|]]; lra. }
      assert (F2 : fin t) by (apply (fin_Z _ 900); [exact N2|apply Rabs_le; lra|lia]).
      destruct (minus_Z _ t 3300 3300 (-100) 900 F3 F2 B3 B2 ltac:(lia) ltac:(lia) ltac:(lia) ltac:(lia) ltac:(lia) ltac:(lia)) as [Fm Bm]. simpl Z.sub in Bm.
      destruct (minus_Z _ r 2400 3400 (-900) 2399 Fm Fr Bm ltac:(lra) ltac:(lia) ltac:(lia) ltac:(lia) ltac:(lia) ltac:(lia) ltac:(lia)) as [Fn Bn]. simpl Z.sub in Bn.
      eexists. split; [exact Fn|]. split; [lra|]. reflexivity. }
  destruct Q as [m [Fm [Pm ->]]]. destruct (P m Fm ltac:(rewrite <- (ext_fin _ Fm); exact Pm)) as [Fl Bl]. rewrite <- (ext_fin _ Fl) in Bl.
  destruct (ext_ofZ (-7) ltac:(vm_compute; discriminate)) as [F7 E7]. destruct (ext_mult _ _ F7 Fl) as [N E]. rewrite E7 in E.
  assert (B : Rabs (ext (Bmult mode_NE (b64_of_Z (-7)) (l_ln L m))) <= 7000).
  { rewrite E. apply Rabs_le_inv in Bl. apply Rabs_le. split; [apply (rnd_Zge _ (-7000)); [lia|]|apply (rnd_Zle _ 7000); [lia|]]; lra. }
  split; [|exact B]. apply (fin_Z _ 7000); [exact N|exact B|lia].
Qed.
Lemma exp_ok L a b : exp_nonneg L -> fin a -> fin b -> Rabs (ext a) <= 7000 -> Rabs (ext b) <= 7000 ->
  in01 (Bdiv mode_NE one64 (Bplus mode_NE one64 (l_exp L (Bminus mode_NE a b)))).
Proof.
  intros X Fa Fb Ba Bb. pose proof (X (Bminus mode_NE a b) (nn_minus a b Fa Fb)) as H. apply le_Bleb in H. destruct H as [_ [N P]]. rewrite ext_zero64 in P.
  destruct (plus_nonneg _ N P) as [N1 [P1 _]]. apply recip_in01; assumption.
Qed.
Lemma split_ok (h : B64) : fin h -> Rabs (ext h) <= 9 ->
  fin (Babs h) /\ 0 <= ext (Babs h) <= 9 /\ (ext h = 0 -> ext (Babs h) = 0).
Proof.
  intros F B. assert (G : fin (Babs h)) by (unfold fin; rewrite is_finite_Babs; exact F).
  split; [exact G|]. rewrite (ext_fin _ G), B2R_Babs, <- (ext_fin h F). split; [split; [apply Rabs_pos|exact B]|].
  intros ->. apply Rabs_R0.
Qed.
Definition okH (r1 r2 h : R) : Prop := -900 <= r1 /\ -900 <= r2 /\ Rabs h <= 9 /\
  ((r1 <= 2399 /\ r2 <= 2399) \/ (h = 0 /\ r1 <= 3299 /\ r2 <= 3299)).
Lemma egf_e_ok L p1 p2 cfg : exp_nonneg L -> ln_sane L -> fin (egf_rating p1) -> fin (egf_rating p2) -> fin (egf_handicap cfg) ->
  okH (ext (egf_rating p1)) (ext (egf_rating p2)) (ext (egf_handicap cfg)) ->
  let e := egf_expected_score (A := B64A L) p1 p2 cfg in in01 (fst e) /\ in01 (snd e).
Proof.
  intros X P F1 F2 Fh [B1 [B2 [Bh H]]] e. destruct (split_ok _ Fh Bh) as [Fa [Ba Za]].
  assert (T : forall r, r = egf_rating p1 \/ r = egf_rating p2 -> lowH (ext r) (ext (Babs (egf_handicap cfg))) /\ lowH (ext r) (ext (b64_of_Z 0))).
  { destruct (ext_ofZ 0 ltac:(vm_compute; discriminate)) as [_ E0]. rewrite E0.
    intros r [-> | ->]; unfold lowH; split; (split; [assumption|]); destruct H as [H|[H0 H]]; try (left; split; [lra|apply H]); right; (split; [first [apply Za; assumption|reflexivity]|apply H]). }
  assert (I : in01 (fst e)).
  { unfold e, egf_expected_score, egf_handicap_split. change (fsignneg (Arith := B64A L) (egf_handicap cfg)) with (Bsign (egf_handicap cfg)).
    destruct (Bsign (egf_handicap cfg)); cbn [fst].
    - destruct (beta_ok L (egf_rating p2) (b64_of_Z 0) P F2 eq_refl) as [G1 C1]; [apply T; auto|].
      destruct (beta_ok L (egf_rating p1) _ P F1 Fa) as [G2 C2]; [apply T; auto|]. exact (exp_ok L _ _ X G1 G2 C1 C2).
    - destruct (beta_ok L (egf_rating p2) _ P F2 Fa) as [G1 C1]; [apply T; auto|].
      destruct (beta_ok L (egf_rating p1) (b64_of_Z 0) P F1 eq_refl) as [G2 C2]; [apply T; auto|]. exact (exp_ok L _ _ X G1 G2 C1 C2). }
  split; [exact I|]. unfold e, egf_expected_score in *. destruct (egf_handicap_split cfg). exact (one_minus_in01 _ I).
Qed.
Lemma egf_new_ok c o e r b : fin c -> 0 <= ext c <= 10000 -> fin o -> 0 <= ext o <= 1 -> in01 e -> fin r -> -900 <= ext r <= 3299 ->
  fin b -> 0 <= ext b <= 1000 ->
  let n := b64_max (Bplus mode_NE (upd c o e r) b) (b64_of_Z (-900)) in fin n /\ (ext o = 1 -> le64 r n).
Proof.
  intros Fc Bc Fo Bo Ie Fr Br Fb Bb n.
  assert (Ac : Rabs (ext c) <= bpow radix2 1000) by (rewrite Rabs_pos_eq by lra; apply Rle_trans with (bpow radix2 14); [simpl; lra|apply bpow_le; lia]).
  assert (Ar : Rabs (ext r) <= bpow radix2 1000) by (apply Rle_trans with (bpow radix2 12); [simpl; apply Rabs_le; lra|apply bpow_le; lia]).
  pose proof (upd_finite c o e r Fc Fo Bo Ie Fr Ac Ar) as Fu. destruct (ext_upd c o e r Fc Fo Bo Ie Fr) as [_ Eu].
  destruct (in01_inv e Ie) as [_ Be].
  assert (Bu : Rabs (ext (upd c o e r)) <= bpow radix2 15).
  { rewrite Eu. apply rnd_abs_pow; [lia|].
    assert (-1 <= rnd (ext o - ext e) <= 1) by (split; [apply (rnd_Zge _ (-1)); [lia|lra]|apply (rnd_Zle _ 1); [lia|lra]]).
    simpl. apply Rabs_le. nra. }
  assert (Bb' : Rabs (ext b) <= bpow radix2 15) by (simpl; apply Rabs_le; lra).
  destruct (plus_pow _ b 15 Fu Fb ltac:(lia) Bu Bb') as [Fp _]. destruct (ext_plus _ b Fu Fb) as [_ Ep].
  destruct (fin_max _ (-900) Fp ltac:(vm_compute; discriminate)) as [Fm Em]. split; [exact Fm|].
  intro Ho. apply le64_iff; [apply fin_nn, Fr|apply fin_nn, Fm|]. unfold n. rewrite Em. eapply Rle_trans; [|apply Rmax_l].
  rewrite Ep. rewrite <- (rnd_ext r Fr). apply rnd_le.
  pose proof (le64_ext _ _ (upd_up c o e r Fc (proj1 Bc) Fo Bo Ie Fr ltac:(lra))). lra.
Qed.
Lemma egf_hyp p1 p2 cfg : finite (egf_rating p1) -> finite (egf_rating p2) -> finite (egf_handicap cfg) ->
  le64 (b64_of_Z (-900)) (egf_rating p1) -> le64 (b64_of_Z (-900)) (egf_rating p2) -> le64 (Babs (egf_handicap cfg)) (b64_of_Z 9) ->
  (le64 (egf_rating p1) (b64_of_Z 2399) /\ le64 (egf_rating p2) (b64_of_Z 2399) \/
   Beqb (egf_handicap cfg) zero64 = true /\ le64 (egf_rating p1) (b64_of_Z 3299) /\ le64 (egf_rating p2) (b64_of_Z 3299)) ->
  okH (ext (egf_rating p1)) (ext (egf_rating p2)) (ext (egf_handicap cfg)).
Proof.
  intros F1 F2 Fh L1 L2 Lh H. apply le64_ext in L1, L2, Lh.
  assert (Z : forall z, (Z.abs z <= 2 ^ 53)%Z -> ext (b64_of_Z z) = IZR z) by (intros; now apply ext_ofZ).
  rewrite Z in L1, L2, Lh by lia.
  assert (G : fin (Babs (egf_handicap cfg))) by (unfold fin; rewrite is_finite_Babs; exact Fh).
  rewrite (ext_fin _ G), B2R_Babs, <- (ext_fin _ Fh) in Lh.
  split; [exact L1|]. split; [exact L2|]. split; [exact Lh|]. destruct H as [[H1 H2]|[H0 [H1 H2]]].
  - left. apply le64_ext in H1, H2. rewrite Z in H1, H2 by lia. auto.
  - right. apply le64_ext in H1, H2. rewrite Z in H1, H2 by lia. split; [apply eq0_ext, H0|auto].
Qed.
Lemma C66_egf_proof : forall (L : Libm) (p1 p2 : EGFRating B64) (cfg : EGFConfig B64),
  exp_nonneg L -> ln_sane L ->
  finite (egf_rating p1) -> finite (egf_rating p2) -> finite (egf_handicap cfg) ->
  le64 (b64_of_Z (-900)) (egf_rating p1) -> le64 (b64_of_Z (-900)) (egf_rating p2) -> le64 (Babs (egf_handicap cfg)) (b64_of_Z 9) ->
  (le64 (egf_rating p1) (b64_of_Z 2399) /\ le64 (egf_rating p2) (b64_of_Z 2399) \/
   Beqb (egf_handicap cfg) zero64 = true /\ le64 (egf_rating p1) (b64_of_Z 3299) /\ le64 (egf_rating p2) (b64_of_Z 3299)) ->
  let e := egf_expected_score (A := B64A L) p1 p2 cfg in in01 (fst e) /\ in01 (snd e).
Proof. intros. apply egf_e_ok; auto. apply egf_hyp; auto. Qed.
Lemma C97_egf_proof : forall (L : Libm) (p1 p2 : EGFRating B64) (o : Outcomes) (cfg : EGFConfig B64),
  exp_nonneg L -> exp_normal L -> ln_sane L -> ln1p_sane L -> pow16_sane L ->
  finite (egf_rating p1) -> finite (egf_rating p2) -> finite (egf_handicap cfg) ->
  le64 (b64_of_Z (-900)) (egf_rating p1) -> le64 (b64_of_Z (-900)) (egf_rating p2) -> le64 (Babs (egf_handicap cfg)) (b64_of_Z 9) ->
  (le64 (egf_rating p1) (b64_of_Z 2399) /\ le64 (egf_rating p2) (b64_of_Z 2399) \/
   Beqb (egf_handicap cfg) zero64 = true /\ le64 (egf_rating p1) (b64_of_Z 3299) /\ le64 (egf_rating p2) (b64_of_Z 3299)) ->
  let new := egf (A := B64A L) p1 p2 o cfg in
  finite (egf_rating (fst new)) /\ finite (egf_rating (snd new)) /\
  (o = WIN -> le64 (egf_rating p1) (egf_rating (fst new))) /\ (o = LOSS -> le64 (egf_rating p2) (egf_rating (snd new))).
Proof.
  intros L p1 p2 o cfg X X' P P1 P6 F1 F2 Fh L1 L2 Lh H new. pose proof (egf_hyp p1 p2 cfg F1 F2 Fh L1 L2 Lh H) as K.
  destruct (egf_e_ok L p1 p2 cfg X P F1 F2 Fh K) as [I1 I2]. destruct K as [K1 [K2 [_ K3]]].
  destruct (con_ok L _ P6 F1 ltac:(lra)) as [Fc1 Bc1]. destruct (con_ok L _ P6 F2 ltac:(lra)) as [Fc2 Bc2].
  destruct (bonus_ok L _ X' P1 F1 ltac:(lra)) as [Fb1 Bb1]. destruct (bonus_ok L _ X' P1 F2 ltac:(lra)) as [Fb2 Bb2].
  destruct (ext_points L o) as [Fp Ep]. destruct (ext_points2 L o) as [Fs Es]. cbv zeta in Fs, Es. pose proof (points_range o) as R.
  subst new. unfold egf. destruct (egf_expected_score p1 p2 cfg) as [e1 e2]. cbn [fst snd] in I1, I2. cbn [fst snd egf_rating].
  destruct (egf_new_ok _ _ _ _ _ Fc1 Bc1 Fp ltac:(rewrite Ep; lra) I1 F1 ltac:(lra) Fb1 Bb1) as [U1 V1].
  destruct (egf_new_ok _ _ _ _ _ Fc2 Bc2 Fs ltac:(rewrite Es; lra) I2 F2 ltac:(lra) Fb2 Bb2) as [U2 V2].
  split; [exact U1|]. split; [exact U2|]. rewrite Ep in V1. rewrite Es in V2. split; intros ->; [apply V1|apply V2]; unfold points; lra.
Qed.

(** ** Ingo *)
Lemma ingo_new_ok (L : Libm) r1 r2 o age : fin r1 -> fin r2 -> Rabs (ext r1) <= bpow radix2 1000 -> Rabs (ext r2) <= bpow radix2 1000 -> fin o -> 0 <= ext o <= 1 ->
  let dev := ingo_age_to_devcoefficent (A := B64A L) age in
  fin (Bdiv mode_NE (Bfma mode_NE (Bminus mode_NE r2 (Bfma mode_NE (b64_of_Z 100) o (b64_of_Z (-50)))) one64 (Bmult mode_NE r1 dev)) (Bplus mode_NE one64 dev)).
Proof.
  intros F1 F2 B1 B2 Fo Bo dev.
  assert (D : exists z, (1 <= z <= 30)%Z /\ dev = b64_of_Z z).
  { unfold dev, ingo_age_to_devcoefficent. destruct (age <=? 20)%N; [exists 10%Z|destruct (age <=? 25)%N; [exists 15%Z|exists 20%Z]];
    (split; [lia|reflexivity]). }
  destruct D as [z [Hz ->]]. destruct (ext_ofZ z ltac:(lia)) as [Fz Ez].
  assert (Bz : Rabs (ext (b64_of_Z z)) <= bpow radix2 5).
  { rewrite Ez, <- abs_IZR. change (bpow radix2 5) with (IZR 32). apply IZR_le. lia. }
  destruct (mult_pow r1 _ 1000 5 F1 Fz ltac:(lia) ltac:(lia) ltac:(lia) B1 Bz) as [Fm Bm].
  destruct (ext_ofZ 100 ltac:(vm_compute; discriminate)) as [Fc Ec]. destruct (ext_ofZ (-50) ltac:(vm_compute; discriminate)) as [Fd Ed].
  assert (Ac : Rabs (ext (b64_of_Z 100)) <= bpow radix2 7) by (rewrite Ec, Rabs_pos_eq by lra; simpl; lra).
  assert (Ao : Rabs (ext o) <= bpow radix2 0) by (rewrite Rabs_pos_eq by lra; simpl; lra).
  assert (Ad : Rabs (ext (b64_of_Z (-50))) <= bpow radix2 7) by (rewrite Ed; simpl; apply Rabs_le; lra).
  destruct (fma_pow (b64_of_Z 100) o (b64_of_Z (-50)) 7 0 7 Fc Fo Fd ltac:(lia) ltac:(lia) ltac:(lia) ltac:(lia) Ac Ao Ad) as [Fp Bp].
  destruct (minus_pow r2 _ 1000 F2 Fp ltac:(lia) B2 (le_up _ (7 + 1) 1000 ltac:(lia) Bp)) as [Fq Bq].
  assert (A1 : Rabs (ext one64) <= bpow radix2 0) by (rewrite ext_one64, Rabs_pos_eq by lra; simpl; lra).
  destruct (fma_pow _ one64 _ (1000 + 1) 0 (1000 + 5) Fq fin_one64 Fm ltac:(lia) ltac:(lia) ltac:(lia) ltac:(lia) Bq A1 Bm) as [Fs Bs].
  destruct (ext_plus one64 (b64_of_Z z) fin_one64 Fz) as [Nt Et]. rewrite ext_one64, Ez, <- (plus_IZR 1 z), rnd_Z in Et by lia.
  set (t := Bplus mode_NE one64 (b64_of_Z z)) in *.
  assert (T : 1 <= ext t) by (rewrite Et; apply (IZR_le 1); lia).
  assert (Ft : fin t) by (apply (fin_Z _ (1 + z)); [exact Nt|rewrite Rabs_pos_eq by lra; lra|lia]).
  match type of Fs with fin ?x => set (s := x) in * end. destruct (ext_div s t Fs Ft ltac:(lra)) as [N E].
  apply (fin_abs_le _ (1000 + 5 + 1)); [exact N|lia|]. rewrite E. apply rnd_abs_pow; [lia|].
  unfold Rdiv. rewrite Rabs_mult, Rabs_inv, (Rabs_pos_eq (ext t)) by lra.
  apply Rle_trans with (2 := Bs). rewrite <- (Rmult_1_r (Rabs (ext s))) at 2. apply Rmult_le_compat_l; [apply Rabs_pos|].
  rewrite <- Rinv_1. apply Rinv_le_contravar; lra.
Qed.
Lemma C97_ingo_proof : forall (L : Libm) (p1 p2 : IngoRating B64) (o : Outcomes),
  finite (ingo_rating p1) -> finite (ingo_rating p2) -> le_2 1000 (ingo_rating p1) -> le_2 1000 (ingo_rating p2) ->
  finite (ingo_rating (fst (ingo (A := B64A L) p1 p2 o))) /\ finite (ingo_rating (snd (ingo (A := B64A L) p1 p2 o))).
Proof.
  intros L p1 p2 o F1 F2 A1 A2. pose proof (le_2_ext 1000 _ ltac:(lia) F1 A1) as B1. pose proof (le_2_ext 1000 _ ltac:(lia) F2 A2) as B2.
  destruct (ext_points L o) as [Fp Ep]. destruct (ext_points2 L o) as [Fs Es]. cbv zeta in Fs, Es. pose proof (points_range o) as R.
  split; [exact (ingo_new_ok L _ _ _ (ingo_age p1) F1 F2 B1 B2 Fp ltac:(rewrite Ep; lra))|exact (ingo_new_ok L _ _ _ (ingo_age p2) F2 F1 B2 B1 Fs ltac:(rewrite Es; lra))].
Qed.
