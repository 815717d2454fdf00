(** Proofs of the IEEE-754 binary64 properties, fourth part: the Glicko family. *)
From Coq Require Import ZArith NArith List Bool Reals Lra Lia Psatz.
From Flocq Require Import Core.Core IEEE754.BinarySingleNaN.
From Verif Require Import Arith B64 MathB64 MathB64b SpecB64 ModelLib ModelGlicko ModelSticko Spec ProofB64 ProofB64b.
Import ListNotations.
Local Open Scope R_scope.

Lemma le_2_ext e x : (-1022 <= e <= 1023)%Z -> finite x -> le_2 e x -> Rabs (ext x) <= bpow radix2 e.
Proof.
  intros He Fx Ax. apply le_Bleb in Ax. destruct Ax as [_ [_ Ax]]. rewrite (proj2 (ext_b64 1 e)) in Ax.
  replace (F2R (Float radix2 1 e)) with (bpow radix2 e) in Ax by (unfold F2R; simpl Fnum; simpl Fexp; ring).
  rewrite rnd_pow2 in Ax by lia. rewrite ext_fin in Ax by (unfold fin; rewrite is_finite_Babs; exact Fx).
  rewrite B2R_Babs in Ax. rewrite ext_fin by exact Fx. exact Ax.
Qed.
Lemma rnd_abs_pow x e : (-1022 <= e <= 1024)%Z -> Rabs x <= bpow radix2 e -> Rabs (rnd x) <= bpow radix2 e.
Proof.
  intros H B. apply Rabs_le_inv in B. apply Rabs_le. pose proof (rnd_pow2 e H) as P. split.
  - replace (- bpow radix2 e) with (rnd (- bpow radix2 e)); [apply rnd_le; lra|].
    apply rnd_id; [apply generic_format_opp, generic_format_bpow; rewrite fexp64_FLT; unfold FLT_exp; lia|].
    rewrite Rabs_Ropp, Rabs_pos_eq by apply bpow_ge_0. apply bpow_le; lia.
  - rewrite <- P. apply rnd_le; lra.
Qed.
Lemma bpow_1 e : bpow radix2 (e + 1) = 2 * bpow radix2 e.
Proof. rewrite bpow_plus. change (bpow radix2 1) with 2. ring. Qed.
Lemma minus_pow x y e : fin x -> fin y -> (0 <= e <= 1022)%Z -> Rabs (ext x) <= bpow radix2 e -> Rabs (ext y) <= bpow radix2 e ->
  fin (Bminus mode_NE x y) /\ Rabs (ext (Bminus mode_NE x y)) <= bpow radix2 (e + 1).
Proof.
  intros Fx Fy He Hx Hy. destruct (ext_minus x y Fx Fy) as [N E]. rewrite E.
  assert (B : Rabs (rnd (ext x - ext y)) <= bpow radix2 (e + 1)).
  { apply rnd_abs_pow; [lia|]. rewrite bpow_1. apply Rabs_le_inv in Hx, Hy. apply Rabs_le; lra. }
  split; [|exact B]. apply (fin_abs_le _ (e + 1)); [exact N|lia|]. rewrite E. exact B.
Qed.
Lemma mult01 x y : sp x -> sp y -> ext x <= 1 -> ext y <= 1 ->
  sp (Bmult mode_NE x y) /\ fin (Bmult mode_NE x y) /\ ext (Bmult mode_NE x y) <= 1.
Proof.
  intros Sx Sy Hx Hy. pose proof (sp_ge0 x Sx). pose proof (sp_ge0 y Sy).
  assert (F : forall z, sp z -> ext z <= 1 -> fin z).
  { intros z Sz Hz. apply (fin_le _ 0); [apply Sz|lia|]. simpl. split; [apply sp_ge0, Sz|exact Hz]. }
  destruct (sp_mult x y Sx Sy (F x Sx Hx) (F y Sy Hy)) as [S E].
  assert (B : ext (Bmult mode_NE x y) <= 1) by (rewrite E; rewrite <- rnd_1; apply rnd_le; nra).
  split; [exact S|]. split; [apply F; assumption|exact B].
Qed.

(** The quantities the three Glicko modules compute, with f64 operations. *)
Definition qB (L : Libm) : B64 := Bdiv mode_NE (l_ln L (b64_of_Z 10)) (b64_of_Z 400).
Definition piB : B64 := b64 884279719003555 (-48).
Definition gB (q d : B64) : B64 :=
  Bdiv mode_NE one64 (Bsqrt mode_NE (Bplus mode_NE one64
    (Bdiv mode_NE (Bmult mode_NE (Bmult mode_NE (b64_of_Z 3) (Bmult mode_NE q q)) (Bmult mode_NE d d)) (Bmult mode_NE piB piB)))).
Definition lgB (L : Libm) (y : B64) : B64 := Bdiv mode_NE one64 (Bplus mode_NE one64 (l_pow L (b64_of_Z 10) y)).
Definition argB (g d : B64) : B64 := Bdiv mode_NE (Bmult mode_NE (Bopp g) d) (b64_of_Z 400).
Definition xB (q g e : B64) : B64 := Bmult mode_NE (Bmult mode_NE (Bmult mode_NE (Bmult mode_NE q q) (Bmult mode_NE g g)) e) (Bminus mode_NE one64 e).
Definition c350 : B64 := Bdiv mode_NE one64 (b64_of_Z 122500).

Lemma q_ok L : ln10_sane L -> fin (qB L) /\ bpow radix2 (-8) <= ext (qB L) <= bpow radix2 (-7).
Proof.
  intros [F [H1 H2]]. rewrite <- (ext_fin _ F) in H1, H2.
  assert (E400 : ext (b64_of_Z 400) = 400) by (apply (ext_ofZ 400); vm_compute; discriminate).
  destruct (ext_div (l_ln L (b64_of_Z 10)) (b64_of_Z 400) F eq_refl ltac:(rewrite E400; lra)) as [N E]. fold (qB L) in N, E.
  rewrite E400 in E.
  assert (B : bpow radix2 (-8) <= ext (qB L) <= bpow radix2 (-7)).
  { rewrite E. clear E N E400. set (l := ext _) in *. clearbody l. split; [apply rnd_ge_pow|apply rnd_le_pow]; try lia; simpl; lra. }
  split; [|exact B]. apply (fin_le _ (-7)); [exact N|lia|]. split; [|apply B]. pose proof (bpow_ge_0 radix2 (-8)). lra.
Qed.
Lemma sp_pos_of x lo : fin x -> 0 < lo -> lo <= ext x -> sp x /\ fin x /\ 0 < ext x.
Proof. intros F H1 H2. split; [apply sp_of; [apply fin_nn, F|lra]|]. split; [exact F|lra]. Qed.
Lemma pi2_ok : sp (Bmult mode_NE piB piB) /\ fin (Bmult mode_NE piB piB) /\ 0 < ext (Bmult mode_NE piB piB).
Proof.
  assert (H : Bleb one64 (Bmult mode_NE piB piB) = true) by (vm_compute; reflexivity).
  apply le_Bleb in H. destruct H as [_ [_ H]]. rewrite ext_one64 in H.
  apply (sp_pos_of _ 1); [vm_compute; reflexivity|lra|exact H].
Qed.
Lemma g_ok q d : fin q -> bpow radix2 (-8) <= ext q <= bpow radix2 (-7) -> nn d -> sp (gB q d) /\ in01 (gB q d).
Proof.
  intros Fq Bq Nd. unfold gB.
  destruct (sp_pos_of q (bpow radix2 (-8)) Fq (bpow_gt_0 _ _) (proj1 Bq)) as [Sq [_ Pq]].
  assert (B7 : bpow radix2 (-7) <= 1) by (apply (bpow_le radix2 (-7) 0); lia).
  destruct (mult01 q q Sq Sq ltac:(lra) ltac:(lra)) as [S2 [F2 B2]].
  assert (L2 : bpow radix2 (-16) <= ext (Bmult mode_NE q q)).
  { destruct (ext_mult q q Fq Fq) as [_ ->]. apply rnd_ge_pow; [lia|].
    change (-16)%Z with (-8 + -8)%Z. rewrite bpow_plus. pose proof (bpow_gt_0 radix2 (-8)). nra. }
  set (qq := Bmult mode_NE q q) in *.
  destruct (ext_ofZ 3 ltac:(vm_compute; discriminate)) as [F3 E3].
  assert (S3 : sp (b64_of_Z 3)) by (apply sp_ofZ; lia).
  destruct (sp_mult _ _ S3 S2 F3 F2) as [S4 E4]. rewrite E3 in E4.
  assert (P4 : 0 < ext (Bmult mode_NE (b64_of_Z 3) qq)).
  { rewrite E4. apply Rlt_le_trans with (bpow radix2 (-16)); [apply bpow_gt_0|]. apply rnd_ge_pow; [lia|].
    pose proof (bpow_gt_0 radix2 (-16)). lra. }
  assert (F4 : fin (Bmult mode_NE (b64_of_Z 3) qq)).
  { apply (fin_le _ 2); [apply S4|lia|]. split; [lra|]. rewrite E4. apply rnd_le_pow; [lia|]. simpl. lra. }
  set (c := Bmult mode_NE (b64_of_Z 3) qq) in *.
  pose proof (sp_mult_c c _ S4 F4 P4 (sp_sq d Nd)) as S5.
  destruct pi2_ok as [Sp [Fp Pp]]. pose proof (sp_div_c _ _ Sp Fp Pp S5) as S6.
  destruct (sp_plus one64 _ one_sp S6) as [S7 E7]. rewrite ext_one64 in E7. pose proof (sp_ge0 _ S6) as G6.
  set (t := Bplus mode_NE one64 _) in *.
  assert (T1 : 1 <= ext t) by (rewrite E7; rewrite <- rnd_1 at 1; apply rnd_le; lra).
  destruct (sp_sqrt t S7) as [S8 [L8 _]].
  apply recip_sp; [exact S8|]. eapply Rle_trans; [|apply (L8 1); lra]. rewrite sqrt_1, rnd_1. lra.
Qed.
Lemma lg_ok L y : pow10_nonneg L -> nn y -> sp (lgB L y) /\ in01 (lgB L y).
Proof.
  intros P N. destruct (pow_ext L y P N) as [Np Pp]. destruct (plus_nonneg _ Np Pp) as [Ns [Ps _]].
  apply recip_sp; [apply sp_of; [exact Ns|lra]|exact Ps].
Qed.
Lemma arg_ok g d : in01 g -> fin d -> nn (argB g d).
Proof.
  intros Ig Fd. destruct (in01_inv g Ig) as [Fg _]. apply nn_div_c; [|reflexivity|apply nz_ofZ; [vm_compute; discriminate|discriminate]].
  apply ext_mult; [|exact Fd]. unfold fin in *. rewrite is_finite_Bopp. exact Fg.
Qed.
Lemma in01_sp_le x : in01 x -> 0 <= ext x <= 1. Proof. intro I. apply (in01_inv x I). Qed.
Lemma q_le1 q : ext q <= bpow radix2 (-7) -> ext q <= 1.
Proof. intro. assert (B7 : bpow radix2 (-7) <= 1) by (apply (bpow_le radix2 (-7) 0); lia). lra. Qed.
Lemma x_ok q g e : fin q -> bpow radix2 (-8) <= ext q <= bpow radix2 (-7) -> sp g -> in01 g -> sp e -> in01 e ->
  sp (xB q g e) /\ ext (xB q g e) <= 1.
Proof.
  intros Fq Bq Sg Ig Se Ie. unfold xB.
  destruct (sp_pos_of q (bpow radix2 (-8)) Fq (bpow_gt_0 _ _) (proj1 Bq)) as [Sq _]. pose proof (q_le1 q (proj2 Bq)).
  pose proof (in01_sp_le g Ig). pose proof (in01_sp_le e Ie). pose proof (in01_sp_le _ (one_minus_in01 e Ie)).
  destruct (mult01 q q Sq Sq ltac:(lra) ltac:(lra)) as [S1 [_ B1]].
  destruct (mult01 g g Sg Sg ltac:(lra) ltac:(lra)) as [S2 [_ B2]].
  destruct (mult01 _ _ S1 S2 B1 B2) as [S3 [_ B3]].
  destruct (mult01 _ _ S3 Se B3 ltac:(lra)) as [S4 [_ B4]].
  destruct (mult01 _ _ S4 (one_minus_sp e Ie) B4 ltac:(lra)) as [S5 [_ B5]]. split; assumption.
Qed.
Lemma recip_ge1 x : sp x -> ext x <= 1 -> sp (Bdiv mode_NE one64 x) /\ 1 <= ext (Bdiv mode_NE one64 x).
Proof.
  intros S H. destruct (sp_div one64 x one_sp fin_one64 ltac:(rewrite ext_one64; lra) S) as [S1 [_ H1]]. split; [exact S1|].
  assert (1 < M64) by (unfold M64; apply (bpow_lt radix2 0); lia).
  specialize (H1 1 ltac:(lra) H). rewrite ext_one64 in H1. replace (1 / 1) with 1 in H1 by lra. rewrite rnd_1 in H1. exact H1.
Qed.
Lemma c350_ok : fin c350 /\ bpow radix2 (-17) <= ext c350 /\ ext c350 = rnd (1 / 122500).
Proof.
  assert (E : ext (b64_of_Z 122500) = 122500) by (apply (ext_ofZ 122500); vm_compute; discriminate).
  destruct (ext_div one64 (b64_of_Z 122500) fin_one64 eq_refl ltac:(rewrite E; lra)) as [N H]. fold c350 in N, H. rewrite E, ext_one64 in H.
  split; [vm_compute; reflexivity|]. split; [|exact H]. rewrite H. apply rnd_ge_pow; [lia|]. simpl. lra.
Qed.
(** the sum of precisions 1/pre^2 + v *)
Definition sB (pre v : B64) : B64 := Bplus mode_NE (Bdiv mode_NE one64 (Bmult mode_NE pre pre)) v.
Lemma s_ok pre v : nn pre -> 0 <= ext pre <= 350 -> sp v -> sp (sB pre v) /\ ext c350 <= ext (sB pre v).
Proof.
  intros Np Bp Sv. unfold sB.
  assert (Fp : fin pre) by (apply (fin_le _ 9); [exact Np|lia|simpl; lra]).
  pose proof (sp_sq pre Np) as S1. destruct (ext_mult pre pre Fp Fp) as [_ E1].
  assert (B1 : ext (Bmult mode_NE pre pre) <= 122500).
  { rewrite E1. replace 122500 with (rnd 122500) by (apply (rnd_Z 122500); vm_compute; discriminate). apply rnd_le. nra. }
  destruct (sp_div one64 _ one_sp fin_one64 ltac:(rewrite ext_one64; lra) S1) as [S2 [_ H2]].
  assert (M : 122500 < M64) by (apply Rlt_trans with (bpow radix2 17); [simpl; lra|apply bpow_lt; lia]).
  specialize (H2 122500 ltac:(lra) B1). rewrite ext_one64 in H2. destruct c350_ok as [F3 [_ E3]]. rewrite <- E3 in H2.
  destruct (sp_plus _ v S2 Sv) as [S4 E4]. split; [exact S4|]. rewrite E4, <- (rnd_ext c350 F3). apply rnd_le.
  pose proof (sp_ge0 v Sv). lra.
Qed.
Lemma k_ok q s : fin q -> bpow radix2 (-8) <= ext q <= bpow radix2 (-7) -> sp s -> ext c350 <= ext s ->
  sp (Bdiv mode_NE q s) /\ fin (Bdiv mode_NE q s) /\ ext (Bdiv mode_NE q s) <= bpow radix2 10.
Proof.
  intros Fq Bq Ss Hs. destruct (sp_pos_of q (bpow radix2 (-8)) Fq (bpow_gt_0 _ _) (proj1 Bq)) as [Sq [_ Pq]].
  destruct (sp_div q s Sq Fq Pq Ss) as [S [H _]]. destruct c350_ok as [_ [C _]].
  assert (B : ext (Bdiv mode_NE q s) <= bpow radix2 10).
  { eapply Rle_trans; [apply (H (bpow radix2 (-17)))|].
    - split; [apply bpow_gt_0|lra].
    - apply rnd_le_pow; [lia|]. unfold Rdiv. rewrite <- bpow_opp.
      replace (bpow radix2 10) with (bpow radix2 (-7) * bpow radix2 17) by (rewrite <- bpow_plus; reflexivity).
      apply Rmult_le_compat_r; [apply bpow_ge_0|apply Bq]. }
  split; [exact S|]. split; [|exact B]. apply (fin_le _ 10); [apply S|lia|]. split; [apply sp_ge0, S|exact B].
Qed.
Lemma kg_ok k g : sp k -> fin k -> ext k <= bpow radix2 10 -> sp g -> in01 g ->
  fin (Bmult mode_NE k g) /\ 0 <= ext (Bmult mode_NE k g) <= bpow radix2 10.
Proof.
  intros Sk Fk Bk Sg Ig. destruct (in01_inv g Ig) as [Fg Bg]. destruct (sp_mult k g Sk Sg Fk Fg) as [S E].
  pose proof (sp_ge0 k Sk). assert (B : ext (Bmult mode_NE k g) <= bpow radix2 10) by (rewrite E; apply rnd_le_pow; [lia|nra]).
  pose proof (sp_ge0 _ S). split; [|lra]. apply (fin_le _ 10); [apply S|lia|lra].
Qed.
Lemma dev_ok s : sp s -> ext c350 <= ext s ->
  let d := Bsqrt mode_NE (Bdiv mode_NE one64 s) in fin d /\ 0 <= ext d <= 350.
Proof.
  intros Ss Hs d. destruct c350_ok as [F3 [C _]]. pose proof (bpow_gt_0 radix2 (-17)) as P17.
  destruct (sp_div one64 s one_sp fin_one64 ltac:(rewrite ext_one64; lra) Ss) as [S1 [H1 _]].
  specialize (H1 (ext c350) ltac:(lra)).
  destruct (ext_div one64 c350 fin_one64 F3 ltac:(lra)) as [_ E1]. rewrite <- E1 in H1.
  set (i := Bdiv mode_NE one64 c350) in *. assert (Fi : fin i) by (vm_compute; reflexivity).
  destruct (sp_sqrt _ S1) as [S2 [_ H2]]. fold d in S2, H2.
  pose proof (ext_abs_fin i Fi) as Mi. apply Rabs_def2 in Mi.
  assert (Si : sp i) by (split; vm_compute; reflexivity).
  specialize (H2 (ext i) ltac:(lra)).
  destruct (ext_sqrt i Fi (sp_ge0 i Si)) as [_ E2]. rewrite <- E2 in H2.
  assert (V : Bleb (Bsqrt mode_NE i) (b64_of_Z 350) = true) by (vm_compute; reflexivity).
  apply le_Bleb in V. destruct V as [_ [_ V]]. rewrite (proj2 (ext_ofZ 350 ltac:(vm_compute; discriminate))) in V.
  pose proof (sp_ge0 d S2). split; [|lra]. apply (fin_le _ 9); [apply S2|lia|simpl; lra].
Qed.
(** deviation.hypot(c).min(350.0) *)
Lemma pre_ok L d c : hypot_nonneg L -> nn d -> nn c ->
  nn (b64_min (l_hypot L d c) (b64_of_Z 350)) /\ 0 <= ext (b64_min (l_hypot L d c) (b64_of_Z 350)) <= 350.
Proof.
  intros H Nd Nc. specialize (H d c Nd Nc). apply le_Bleb in H. destruct H as [_ [Nh Ph]]. rewrite ext_zero64 in Ph.
  destruct (ext_ofZ 350 ltac:(vm_compute; discriminate)) as [F E].
  pose proof (min_cap (l_hypot L d c) (b64_of_Z 350) (fin_nn _ F)) as C. apply le_Bleb in C. destruct C as [N [_ C]]. rewrite E in C.
  split; [exact N|]. split; [|exact C]. unfold b64_min. unfold nn in Nh. rewrite Nh.
  change (is_nan (b64_of_Z 350)) with false. destruct (Bleb (l_hypot L d c) (b64_of_Z 350)); rewrite ?E; lra.
Qed.

(** ** Glicko *)
#[local] Opaque Bplus Bminus Bmult Bdiv Bsqrt Bfma Bopp b64 b64_of_Z b64_min.
Definition eB (L : Libm) (d2 r1 r2 : B64) : B64 := lgB L (argB (gB (qB L) d2) (Bminus mode_NE r1 r2)).
Lemma e_ok L d2 r1 r2 : pow10_nonneg L -> ln10_sane L -> nn d2 -> finite r1 -> finite r2 ->
  Rabs (ext r1) <= bpow radix2 1000 -> Rabs (ext r2) <= bpow radix2 1000 -> sp (eB L d2 r1 r2) /\ in01 (eB L d2 r1 r2).
Proof.
  intros P Q Nd F1 F2 B1 B2. destruct (q_ok L Q) as [Fq Bq]. destruct (g_ok (qB L) d2 Fq Bq Nd) as [_ Ig].
  destruct (minus_pow r1 r2 1000 F1 F2 ltac:(lia) B1 B2) as [Fm _]. apply lg_ok; [exact P|]. apply arg_ok; assumption.
Qed.
Definition newr (L : Libm) (r1 pre o q g e v : B64) : B64 :=
  upd (Bmult mode_NE (Bdiv mode_NE q (sB pre v)) g) o e r1.
Lemma glicko_half L (r1 d1 r2 d2 c o : B64) :
  pow10_nonneg L -> ln10_sane L -> hypot_nonneg L -> nn d1 -> nn d2 -> nn c -> finite r1 -> finite r2 ->
  Rabs (ext r1) <= bpow radix2 1000 -> Rabs (ext r2) <= bpow radix2 1000 -> fin o -> 0 <= ext o <= 1 ->
  let q := qB L in let g := gB q d2 in let e := eB L d2 r1 r2 in
  let v := Bdiv mode_NE one64 (Bdiv mode_NE one64 (xB q g e)) in let pre := b64_min (l_hypot L d1 c) (b64_of_Z 350) in
  let K := Bmult mode_NE (Bdiv mode_NE q (sB pre v)) g in
  let dev := Bsqrt mode_NE (Bdiv mode_NE one64 (sB pre v)) in
  (fin K /\ 0 <= ext K <= bpow radix2 10) /\ in01 e /\ fin (upd K o e r1) /\ (fin dev /\ 0 <= ext dev <= 350).
Proof.
  intros P Q Hh N1 N2 Nc F1 F2 B1 B2 Fo Bo q g e v pre K dev.
  destruct (q_ok L Q) as [Fq Bq]. fold q in Fq, Bq. destruct (g_ok q d2 Fq Bq N2) as [Sg Ig]. fold g in Sg, Ig.
  destruct (e_ok L d2 r1 r2 P Q N2 F1 F2 B1 B2) as [Se Ie]. fold e in Se, Ie.
  destruct (x_ok q g e Fq Bq Sg Ig Se Ie) as [Sx Bx]. destruct (recip_ge1 _ Sx Bx) as [Sd Bd].
  destruct (sp_div one64 _ one_sp fin_one64 ltac:(rewrite ext_one64; lra) Sd) as [Sv _]. fold v in Sv.
  destruct (pre_ok L d1 c Hh N1 Nc) as [Np Bp]. fold pre in Np, Bp.
  destruct (s_ok pre v Np Bp Sv) as [Ss Hs]. destruct (k_ok q _ Fq Bq Ss Hs) as [Sk [Fk Bk]].
  destruct (kg_ok _ g Sk Fk Bk Sg Ig) as [FK BK]. fold K in FK, BK.
  split; [split; assumption|]. split; [exact Ie|]. split; [|exact (dev_ok _ Ss Hs)].
  apply upd_finite; auto. rewrite Rabs_pos_eq by lra. apply Rle_trans with (1 := proj2 BK). apply bpow_le; lia.
Qed.
Lemma dev_le64 d : fin d /\ 0 <= ext d <= 350 -> finite d /\ le64 zero64 d /\ le64 d (b64_of_Z 350).
Proof.
  intros [F B]. split; [exact F|]. destruct (ext_ofZ 350 ltac:(vm_compute; discriminate)) as [F3 E3].
  split; apply le64_iff; try (apply fin_nn; assumption); try reflexivity; rewrite ?ext_zero64, ?E3; lra.
Qed.
Lemma C97_glicko_proof : forall (L : Libm) (p1 p2 : GlickoRating B64) (o : Outcomes) (cfg : GlickoConfig B64),
  pow10_nonneg L -> ln10_sane L -> hypot_nonneg L ->
  finite (gl_rating p1) -> le_2 1000 (gl_rating p1) -> finite (gl_rating p2) -> le_2 1000 (gl_rating p2) ->
  is_nan (gl_deviation p1) = false -> is_nan (gl_deviation p2) = false -> is_nan (gl_c cfg) = false ->
  let new := glicko (A := B64A L) p1 p2 o cfg in
  finite (gl_rating (fst new)) /\ finite (gl_rating (snd new)) /\
  (finite (gl_deviation (fst new)) /\ le64 zero64 (gl_deviation (fst new)) /\ le64 (gl_deviation (fst new)) (b64_of_Z 350)) /\
  (finite (gl_deviation (snd new)) /\ le64 zero64 (gl_deviation (snd new)) /\ le64 (gl_deviation (snd new)) (b64_of_Z 350)).
Proof.
  intros L [r1 d1] [r2 d2] o [c] P Q Hh F1 A1 F2 A2 N1 N2 Nc new. cbn in F1, A1, F2, A2, N1, N2, Nc.
  pose proof (le_2_ext 1000 _ ltac:(lia) F1 A1) as B1. pose proof (le_2_ext 1000 _ ltac:(lia) F2 A2) as B2.
  destruct (ext_points L o) as [Fp Ep]. destruct (ext_points2 L o) as [Fq Eq]. cbv zeta in Fq, Eq. pose proof (points_range o).
  destruct (glicko_half L r1 d1 r2 d2 c _ P Q Hh N1 N2 Nc F1 F2 B1 B2 Fp ltac:(rewrite Ep; lra)) as [_ [_ [U1 V1]]].
  destruct (glicko_half L r2 d2 r1 d1 c _ P Q Hh N2 N1 Nc F2 F1 B2 B1 Fq ltac:(rewrite Eq; lra)) as [_ [_ [U2 V2]]].
  split; [exact U1|]. split; [exact U2|]. split; [exact (dev_le64 _ V1)|exact (dev_le64 _ V2)].
Qed.
Lemma C98_glicko_proof : forall (L : Libm) (p1 p2 : GlickoRating B64) (cfg : GlickoConfig B64),
  pow10_nonneg L -> ln10_sane L -> hypot_nonneg L ->
  finite (gl_rating p1) -> le_2 1000 (gl_rating p1) -> finite (gl_rating p2) -> le_2 1000 (gl_rating p2) ->
  is_nan (gl_deviation p1) = false -> is_nan (gl_deviation p2) = false -> is_nan (gl_c cfg) = false ->
  let one o := gl_rating (fst (glicko (A := B64A L) p1 p2 o cfg)) in
  let two o := gl_rating (snd (glicko (A := B64A L) p1 p2 o cfg)) in
  le64 (gl_rating p1) (one WIN) /\ le64 (one LOSS) (gl_rating p1) /\
  le64 (two WIN) (gl_rating p2) /\ le64 (gl_rating p2) (two LOSS) /\
  le64 (one LOSS) (one DRAW) /\ le64 (one DRAW) (one WIN) /\
  le64 (two WIN) (two DRAW) /\ le64 (two DRAW) (two LOSS).
Proof.
  intros L [r1 d1] [r2 d2] [c] P Q Hh F1 A1 F2 A2 N1 N2 Nc one two. cbn in F1, A1, F2, A2, N1, N2, Nc.
  pose proof (le_2_ext 1000 _ ltac:(lia) F1 A1) as B1. pose proof (le_2_ext 1000 _ ltac:(lia) F2 A2) as B2.
  pose proof (fun o => proj1 (ext_points L o)) as Fp. pose proof (fun o => proj2 (ext_points L o)) as Ep.
  pose proof (fun o => proj1 (ext_points2 L o)) as Fq. pose proof (fun o => proj2 (ext_points2 L o)) as Eq. cbv zeta in Fq, Eq.
  destruct (glicko_half L r1 d1 r2 d2 c _ P Q Hh N1 N2 Nc F1 F2 B1 B2 (Fp WIN) ltac:(rewrite Ep; unfold points; lra)) as [[FK1 BK1] [I1 _]].
  destruct (glicko_half L r2 d2 r1 d1 c _ P Q Hh N2 N1 Nc F2 F1 B2 B1 (Fq WIN) ltac:(rewrite Eq; unfold points; lra)) as [[FK2 BK2] [I2 _]].
  set (e1 := eB L d2 r1 r2) in *. set (e2 := eB L d1 r2 r1) in *.
  match type of FK1 with fin ?k => set (K1 := k) in * end. match type of FK2 with fin ?k => set (K2 := k) in * end.
  assert (H1 : forall o, one o = upd K1 (to_chess_points (A := B64A L) o) e1 r1) by reflexivity.
  assert (H2 : forall o, two o = upd K2 (Bminus mode_NE one64 (to_chess_points (A := B64A L) o)) e2 r2) by reflexivity.
  cbn [gl_rating]. rewrite !H1, !H2. destruct (in01_inv e1 I1) as [_ Be1]. destruct (in01_inv e2 I2) as [_ Be2]. clearbody K1 K2 e1 e2.
  repeat match goal with |- _ /\ _ => split end;
  [apply upd_up|apply upd_down|apply upd_down|apply upd_up|apply upd_mono..];
  rewrite ?Ep, ?Eq; auto; try (apply Fp); try (apply Fq); unfold points; try lra.
Qed.
Lemma C66_glicko_proof : forall (L : Libm) (p1 p2 : GlickoRating B64),
  pow10_nonneg L -> ln10_sane L -> hypot_nonneg L ->
  finite (gl_rating p1) -> le_2 1000 (gl_rating p1) -> finite (gl_rating p2) -> le_2 1000 (gl_rating p2) ->
  is_nan (gl_deviation p1) = false -> is_nan (gl_deviation p2) = false ->
  let e := glicko_expected_score (A := B64A L) p1 p2 in in01 (fst e) /\ in01 (snd e).
Proof.
  intros L [r1 d1] [r2 d2] P Q Hh F1 A1 F2 A2 N1 N2 e. cbn in F1, A1, F2, A2, N1, N2.
  pose proof (le_2_ext 1000 _ ltac:(lia) F1 A1) as B1. pose proof (le_2_ext 1000 _ ltac:(lia) F2 A2) as B2.
  specialize (Hh d1 d2 N1 N2). apply le_Bleb in Hh. destruct Hh as [_ [Nh _]].
  destruct (e_ok L (l_hypot L d1 d2) r1 r2 P Q Nh F1 F2 B1 B2) as [_ I].
  split; [exact I|]. exact (one_minus_in01 _ I).
Qed.

(** ** Rating periods *)
Lemma sp_plus_negzero x : sp x -> sp (Bplus mode_NE (B754_zero true) x) /\ ext (Bplus mode_NE (B754_zero true) x) = ext x.
Proof.
  Transparent Bplus. intros [N S]. destruct x as [[|]|[|]| |[|]]; try discriminate; split; try (split; reflexivity); reflexivity.
Qed.
#[local] Opaque Bplus.
Lemma fsum_sp_acc (L : Libm) l : Forall sp l -> forall acc, sp acc -> sp (fold_left (fadd (Arith := B64A L)) l acc).
Proof.
  induction 1 as [|x l Sx _ IH]; intros acc Sa; [exact Sa|]. simpl. apply IH. change (sp (Bplus mode_NE acc x)). now apply sp_plus.
Qed.
Lemma fsum_sp (L : Libm) l : l <> [] -> Forall sp l -> sp (fsum (A := B64A L) l).
Proof.
  intros NE F. destruct F as [|x l Sx Fl]; [congruence|]. unfold fsum. simpl. apply (fsum_sp_acc L); [exact Fl|].
  apply (sp_plus_negzero x Sx).
Qed.
(** sums of numbers in [-1,1]: at most 2^53 of them *)
Lemma fsum_unit_acc (L : Libm) l : Forall (fun x => fin x /\ Rabs (ext x) <= 1) l -> forall acc n,
  fin acc -> (0 <= n)%Z -> (n + Z.of_nat (length l) <= 2 ^ 53)%Z -> Rabs (ext acc) <= IZR n ->
  let s := fold_left (fadd (Arith := B64A L)) l acc in
  fin s /\ Rabs (ext s) <= IZR (n + Z.of_nat (length l)) /\
  (Forall (fun x => 0 <= ext x) l -> 0 <= ext acc -> 0 <= ext s) /\ (Forall (fun x => ext x <= 0) l -> ext acc <= 0 -> ext s <= 0).
Proof.
  induction 1 as [|x l [Fx Bx] _ IH]; intros acc n Fa Hn Hl Ha.
  - simpl. rewrite Z.add_0_r. auto.
  - cbn [length fold_left] in *. change (fadd (Arith := B64A L) acc x) with (Bplus mode_NE acc x).
    destruct (ext_plus acc x Fa Fx) as [N E].
    assert (B : Rabs (ext (Bplus mode_NE acc x)) <= IZR (n + 1)).
    { rewrite E. apply Rabs_le_inv in Ha, Bx. rewrite plus_IZR. apply Rabs_le.
      assert (R1 : rnd (IZR (n + 1)) = IZR (n + 1)) by (apply rnd_Z; rewrite Z.abs_eq; lia).
      assert (R2 : rnd (IZR (- (n + 1))) = IZR (- (n + 1))) by (apply rnd_Z; rewrite Z.abs_opp, Z.abs_eq; lia).
      rewrite opp_IZR, plus_IZR in R2. rewrite plus_IZR in R1.
      split; [rewrite <- R2|rewrite <- R1]; apply rnd_le; lra. }
    assert (F : fin (Bplus mode_NE acc x)).
    { apply (fin_abs_le _ 53); [exact N|lia|]. apply Rle_trans with (1 := B). change (bpow radix2 53) with (IZR (2 ^ 53)). apply IZR_le. lia. }
    destruct (IH (Bplus mode_NE acc x) (n + 1)%Z F ltac:(lia) ltac:(lia) B) as [G1 [G2 [G3 G4]]].
    split; [exact G1|]. split; [replace (n + Z.of_nat (S (length l)))%Z with (n + 1 + Z.of_nat (length l))%Z by lia; exact G2|]. split.
    + intros Hf Hp. inversion Hf; subst. apply G3; [assumption|]. rewrite E. apply rnd_nonneg. lra.
    + intros Hf Hp. inversion Hf; subst. apply G4; [assumption|]. rewrite E. apply rnd_0_le. lra.
Qed.
Lemma fsum_unit (L : Libm) l : Forall (fun x => fin x /\ Rabs (ext x) <= 1) l -> (Z.of_nat (length l) <= 2 ^ 53)%Z ->
  let s := fsum (A := B64A L) l in
  fin s /\ Rabs (ext s) <= bpow radix2 53 /\
  (Forall (fun x => 0 <= ext x) l -> 0 <= ext s) /\ (Forall (fun x => ext x <= 0) l -> ext s <= 0).
Proof.
  intros F H s. destruct (fsum_unit_acc L l F (B754_zero true) 0%Z eq_refl ltac:(lia) ltac:(lia) ltac:(simpl; rewrite Rabs_R0; lra)) as [G1 [G2 [G3 G4]]].
  split; [exact G1|]. split; [|split; [intro X; apply G3; [exact X|simpl; lra]|intro X; apply G4; [exact X|simpl; lra]]].
  apply Rle_trans with (1 := G2). change (bpow radix2 53) with (IZR (2 ^ 53)). apply IZR_le. lia.
Qed.
(** a term g * (s - e) *)
Lemma term_ok g o e : in01 g -> fin o -> 0 <= ext o <= 1 -> in01 e ->
  let t := Bmult mode_NE g (Bminus mode_NE o e) in
  (fin t /\ Rabs (ext t) <= 1) /\ (ext o = 1 -> 0 <= ext t) /\ (ext o = 0 -> ext t <= 0).
Proof.
  intros Ig Fo Bo Ie t. destruct (in01_inv g Ig) as [Fg Bg]. destruct (in01_inv e Ie) as [Fe Be].
  destruct (ext_minus o e Fo Fe) as [N1 E1].
  assert (B1 : Rabs (ext (Bminus mode_NE o e)) <= bpow radix2 0).
  { rewrite E1. apply rnd_abs_pow; [lia|]. simpl. apply Rabs_le. lra. }
  assert (F1 : fin (Bminus mode_NE o e)) by (apply (fin_abs_le _ 0); [exact N1|lia|exact B1]).
  destruct (ext_mult g _ Fg F1) as [N2 E2]. fold t in N2, E2. change (bpow radix2 0) with 1 in B1.
  assert (B2 : Rabs (ext t) <= bpow radix2 0).
  { rewrite E2. apply rnd_abs_pow; [lia|]. change (bpow radix2 0) with 1. rewrite Rabs_mult, (Rabs_pos_eq (ext g)) by lra.
    pose proof (Rabs_pos (ext (Bminus mode_NE o e))). nra. }
  split; [split; [apply (fin_abs_le _ 0); [exact N2|lia|exact B2]|exact B2]|].
  split; intro H; rewrite E2, E1.
  - apply rnd_nonneg. apply Rmult_le_pos; [lra|]. apply rnd_nonneg. lra.
  - apply rnd_0_le. pose proof (rnd_0_le (ext o - ext e) ltac:(lra)). nra.
Qed.
(** the precision term (g^2 * e) * (1 - e) *)
Lemma prec_ok g e : sp g -> in01 g -> sp e -> in01 e ->
  sp (Bmult mode_NE (Bmult mode_NE (Bmult mode_NE g g) e) (Bminus mode_NE one64 e)).
Proof.
  intros Sg Ig Se Ie. pose proof (in01_sp_le g Ig). pose proof (in01_sp_le e Ie). pose proof (in01_sp_le _ (one_minus_in01 e Ie)).
  destruct (mult01 g g Sg Sg ltac:(lra) ltac:(lra)) as [S2 [_ B2]].
  destruct (mult01 _ _ S2 Se B2 ltac:(lra)) as [S4 [_ B4]].
  now destruct (mult01 _ _ S4 (one_minus_sp e Ie) B4 ltac:(lra)).
Qed.
Lemma qq_ok q : fin q -> bpow radix2 (-8) <= ext q <= bpow radix2 (-7) ->
  sp (Bmult mode_NE q q) /\ fin (Bmult mode_NE q q) /\ 0 < ext (Bmult mode_NE q q).
Proof.
  intros Fq Bq. destruct (sp_pos_of q (bpow radix2 (-8)) Fq (bpow_gt_0 _ _) (proj1 Bq)) as [Sq [_ Pq]]. pose proof (q_le1 q (proj2 Bq)).
  destruct (mult01 q q Sq Sq ltac:(lra) ltac:(lra)) as [S2 [F2 B2]]. split; [exact S2|]. split; [exact F2|].
  apply Rlt_le_trans with (bpow radix2 (-16)); [apply bpow_gt_0|].
  destruct (ext_mult q q Fq Fq) as [_ ->]. apply rnd_ge_pow; [lia|].
  change (-16)%Z with (-8 + -8)%Z. rewrite bpow_plus. pose proof (bpow_gt_0 radix2 (-8)). nra.
Qed.
(** the update of a period: K * m + r *)
Lemma period_upd K m r : fin K -> 0 <= ext K <= bpow radix2 10 -> fin m -> Rabs (ext m) <= bpow radix2 53 ->
  fin r -> Rabs (ext r) <= bpow radix2 1000 ->
  let u := Bfma mode_NE K m r in fin u /\ (0 <= ext m -> le64 r u) /\ (ext m <= 0 -> le64 u r).
Proof.
  intros FK BK Fm Bm Fr Br u. destruct (ext_fma K m r FK Fm Fr) as [N E]. fold u in N, E.
  assert (B : Rabs (ext u) <= bpow radix2 1001).
  { rewrite E. apply rnd_abs_pow; [lia|]. change 1001%Z with (1000 + 1)%Z. rewrite bpow_1.
    eapply Rle_trans; [apply Rabs_triang|]. rewrite Rabs_mult, (Rabs_pos_eq (ext K)) by lra.
    assert (X : ext K * Rabs (ext m) <= bpow radix2 1000).
    { apply Rle_trans with (bpow radix2 10 * bpow radix2 53); [apply Rmult_le_compat; try lra; apply Rabs_pos|].
      rewrite <- bpow_plus. apply bpow_le; lia. }
    lra. }
  split; [apply (fin_abs_le _ 1001); [exact N|lia|exact B]|]. split; intro H.
  - apply le64_iff; [apply fin_nn, Fr|exact N|]. rewrite E, <- (rnd_ext r Fr) at 1. apply rnd_le. nra.
  - apply le64_iff; [exact N|apply fin_nn, Fr|]. rewrite E, <- (rnd_ext r Fr). apply rnd_le. rewrite rnd_ext by exact Fr. nra.
Qed.
Lemma glicko_period_all : forall (L : Libm) (p : GlickoRating B64) (rs : list (GlickoRating B64 * Outcomes)) (cfg : GlickoConfig B64),
  pow10_nonneg L -> ln10_sane L -> hypot_nonneg L ->
  finite (gl_rating p) -> le_2 1000 (gl_rating p) -> is_nan (gl_deviation p) = false -> is_nan (gl_c cfg) = false ->
  Forall (fun r => finite (gl_rating (fst r)) /\ le_2 1000 (gl_rating (fst r)) /\ is_nan (gl_deviation (fst r)) = false) rs ->
  (Z.of_nat (length rs) <= 2 ^ 53)%Z ->
  let new := glicko_rating_period (A := B64A L) p rs cfg in
  finite (gl_rating new) /\
  (finite (gl_deviation new) /\ le64 zero64 (gl_deviation new) /\ le64 (gl_deviation new) (b64_of_Z 350)) /\
  (Forall (fun r => snd r = WIN) rs -> le64 (gl_rating p) (gl_rating new)) /\
  (Forall (fun r => snd r = LOSS) rs -> le64 (gl_rating new) (gl_rating p)).
Proof.
  intros L [r d] rs [c] P Q Hh F A Nd Nc Hrs Hlen new. cbn in F, A, Nd, Nc.
  pose proof (le_2_ext 1000 _ ltac:(lia) F A) as B.
  destruct (pre_ok L d c Hh Nd Nc) as [Np Bp].
  destruct rs as [|r0 rs0].
  { cbn in new. split; [exact F|]. split.
    - apply dev_le64. cbn. split; [|exact Bp]. apply (fin_le _ 9); [exact Np|lia|simpl; lra].
    - cbn. split; intros _; apply le64_iff; try (apply fin_nn; exact F); lra. }
  set (rs := r0 :: rs0) in *.
  destruct (q_ok L Q) as [Fq Bq]. set (q := qB L) in *.
  set (gf := fun x : GlickoRating B64 * Outcomes => gB q (gl_deviation (fst x))).
  set (ef := fun x : GlickoRating B64 * Outcomes => eB L (gl_deviation (fst x)) r (gl_rating (fst x))).
  assert (G : Forall (fun x => (sp (gf x) /\ in01 (gf x)) /\ (sp (ef x) /\ in01 (ef x))) rs).
  { apply Forall_forall. intros x Hx. pose proof (proj1 (Forall_forall _ rs) Hrs x Hx) as [X1 [X2 X3]].
    split; [apply g_ok; assumption|]. apply e_ok; try assumption. apply (le_2_ext 1000); [lia|assumption..]. }
  set (tl := map (fun x => Bmult mode_NE (Bmult mode_NE (Bmult mode_NE (gf x) (gf x)) (ef x)) (Bminus mode_NE one64 (ef x))) rs).
  set (ml := map (fun x => Bmult mode_NE (gf x) (Bminus mode_NE (to_chess_points (A := B64A L) (snd x)) (ef x))) rs).
  set (S := fsum (A := B64A L) tl). set (m := fsum (A := B64A L) ml).
  set (pre := b64_min (l_hypot L d c) (b64_of_Z 350)) in *.
  set (v := Bdiv mode_NE one64 (Bdiv mode_NE one64 (Bmult mode_NE (Bmult mode_NE q q) S))).
  assert (HR : gl_rating new = Bfma mode_NE (Bdiv mode_NE q (sB pre v)) m r) by reflexivity.
  assert (HD : gl_deviation new = Bsqrt mode_NE (Bdiv mode_NE one64 (sB pre v))) by reflexivity.
  assert (SS : sp S).
  { apply fsum_sp; [unfold tl, rs; discriminate|]. apply Forall_map. eapply Forall_impl; [|exact G].
    intros x [[X1 X2] [X3 X4]]. apply prec_ok; assumption. }
  destruct (qq_ok q Fq Bq) as [Sq2 [Fq2 Pq2]]. pose proof (sp_mult_c _ S Sq2 Fq2 Pq2 SS) as S1.
  assert (One : 0 < ext one64) by (rewrite ext_one64; lra).
  destruct (sp_div one64 _ one_sp fin_one64 One S1) as [S2 _].
  destruct (sp_div one64 _ one_sp fin_one64 One S2) as [Sv _]. fold v in Sv.
  destruct (s_ok pre v Np Bp Sv) as [Ss Hs]. destruct (k_ok q _ Fq Bq Ss Hs) as [Sk [Fk Bk]].
  assert (T : Forall (fun x => let t := Bmult mode_NE (gf x) (Bminus mode_NE (to_chess_points (A := B64A L) (snd x)) (ef x)) in
     (fin t /\ Rabs (ext t) <= 1) /\ (snd x = WIN -> 0 <= ext t) /\ (snd x = LOSS -> ext t <= 0)) rs).
  { eapply Forall_impl; [|exact G]. intros x [[X1 X2] [X3 X4]] t. destruct (ext_points L (snd x)) as [Fo Eo].
    pose proof (points_range (snd x)). destruct (term_ok (gf x) _ (ef x) X2 Fo ltac:(rewrite Eo; lra) X4) as [Y1 [Y2 Y3]].
    split; [exact Y1|]. split; intro Z; [apply Y2|apply Y3]; rewrite Eo, Z; reflexivity. }
  destruct (fsum_unit L ml) as [Fm [Bm [Pm Nm]]].
  { apply Forall_map. eapply Forall_impl; [|exact T]. intros x X. apply X. }
  { unfold ml. rewrite map_length. exact Hlen. }
  fold m in Fm, Bm, Pm, Nm.
  assert (BK : 0 <= ext (Bdiv mode_NE q (sB pre v)) <= bpow radix2 10) by (split; [apply sp_ge0, Sk|exact Bk]).
  destruct (period_upd _ m r Fk BK Fm Bm F B) as [U1 [U2 U3]].
  rewrite HR, HD. split; [exact U1|]. split; [exact (dev_le64 _ (dev_ok _ Ss Hs))|]. cbn [gl_rating]. split; intro W.
  - apply U2, Pm, Forall_map. apply Forall_forall. intros x Hx.
    apply (proj1 (Forall_forall _ rs) T x Hx). exact (proj1 (Forall_forall _ rs) W x Hx).
  - apply U3, Nm, Forall_map. apply Forall_forall. intros x Hx.
    apply (proj1 (Forall_forall _ rs) T x Hx). exact (proj1 (Forall_forall _ rs) W x Hx).
Qed.
Lemma C97_glicko_period_proof : forall (L : Libm) (p : GlickoRating B64) (rs : list (GlickoRating B64 * Outcomes)) (cfg : GlickoConfig B64),
  pow10_nonneg L -> ln10_sane L -> hypot_nonneg L ->
  finite (gl_rating p) -> le_2 1000 (gl_rating p) -> is_nan (gl_deviation p) = false -> is_nan (gl_c cfg) = false ->
  Forall (fun r => finite (gl_rating (fst r)) /\ le_2 1000 (gl_rating (fst r)) /\ is_nan (gl_deviation (fst r)) = false) rs ->
  (Z.of_nat (length rs) <= 2 ^ 53)%Z ->
  let new := glicko_rating_period (A := B64A L) p rs cfg in
  finite (gl_rating new) /\
  (finite (gl_deviation new) /\ le64 zero64 (gl_deviation new) /\ le64 (gl_deviation new) (b64_of_Z 350)).
Proof. intros L p rs cfg P Q Hh F A Nd Nc Hrs Hl. destruct (glicko_period_all L p rs cfg P Q Hh F A Nd Nc Hrs Hl) as [H1 [H2 _]]. split; assumption. Qed.
Lemma C98_glicko_period_proof : forall (L : Libm) (p : GlickoRating B64) (rs : list (GlickoRating B64 * Outcomes)) (cfg : GlickoConfig B64),
  pow10_nonneg L -> ln10_sane L -> hypot_nonneg L ->
  finite (gl_rating p) -> le_2 1000 (gl_rating p) -> is_nan (gl_deviation p) = false -> is_nan (gl_c cfg) = false ->
  Forall (fun r => finite (gl_rating (fst r)) /\ le_2 1000 (gl_rating (fst r)) /\ is_nan (gl_deviation (fst r)) = false) rs ->
  (Z.of_nat (length rs) <= 2 ^ 53)%Z ->
  let new := glicko_rating_period (A := B64A L) p rs cfg in
  (Forall (fun r => snd r = WIN) rs -> le64 (gl_rating p) (gl_rating new)) /\
  (Forall (fun r => snd r = LOSS) rs -> le64 (gl_rating new) (gl_rating p)).
Proof. intros L p rs cfg P Q Hh F A Nd Nc Hrs Hl. destruct (glicko_period_all L p rs cfg P Q Hh F A Nd Nc Hrs Hl) as [_ [_ H]]. exact H. Qed.
