(** Proofs of the IEEE-754 binary64 properties, fifth part: Glicko-Boost, Sticko, FIFA and USCF. *)
From Coq Require Import ZArith NArith List Bool Reals Lra Lia Psatz.
From Flocq Require Import Core.Core IEEE754.BinarySingleNaN.
From Verif Require Import Arith B64 MathB64 MathB64b SpecB64 ModelLib ModelSticko ModelBoost ModelFifa ModelUscf Spec ProofB64 ProofB64b ProofB64c ProofB64d.
Import ListNotations.
Local Open Scope R_scope.

(** sqrt(..).min(350.0) is a number in [0,350] whatever is under the root *)
Lemma min350 x : let m := b64_min (Bsqrt mode_NE x) (b64_of_Z 350) in fin m /\ 0 <= ext m <= 350.
Proof.
  intro m. destruct (ext_ofZ 350 ltac:(vm_compute; discriminate)) as [F E].
  pose proof (min_cap (Bsqrt mode_NE x) (b64_of_Z 350) (fin_nn _ F)) as C. apply le_Bleb in C. destruct C as [N [_ C]]. rewrite E in C. fold m in N, C.
  assert (P : 0 <= ext m).
  { unfold m, b64_min. destruct (is_nan (Bsqrt mode_NE x)) eqn:Ns; [rewrite E; lra|].
    change (is_nan (b64_of_Z 350)) with false. destruct (Bleb (Bsqrt mode_NE x) (b64_of_Z 350)); [|rewrite E; lra].
    destruct x as [s|[|]| |s k e h]; try discriminate; [simpl; lra|simpl; pose proof M64_pos; lra|].
    destruct s; [discriminate|].
    apply sp_ge0, (sp_sqrt (B754_finite false k e h)). split; reflexivity. }
  split; [|lra]. apply (fin_le _ 9); [exact N|lia|simpl; lra].
Qed.
Lemma min350' x : nn x -> 0 <= ext x -> let m := b64_min x (b64_of_Z 350) in fin m /\ 0 <= ext m <= 350.
Proof.
  intros Nx Px m. destruct (ext_ofZ 350 ltac:(vm_compute; discriminate)) as [F E].
  pose proof (min_cap x (b64_of_Z 350) (fin_nn _ F)) as C. apply le_Bleb in C. destruct C as [N [_ C]]. rewrite E in C. fold m in N, C.
  assert (P : 0 <= ext m) by (unfold m, b64_min; unfold nn in Nx; rewrite Nx; change (is_nan (b64_of_Z 350)) with false;
    destruct (Bleb x (b64_of_Z 350)); rewrite ?E; lra).
  split; [|lra]. apply (fin_le _ 9); [exact N|lia|simpl; lra].
Qed.
#[local] Opaque Bplus Bminus Bmult Bdiv Bsqrt Bfma Bopp b64 b64_of_Z b64_min b64_max.

Lemma fma_unit s a r e : fin s -> Rabs (ext s) <= 1 -> fin a -> fin r -> (0 <= e <= 1022)%Z ->
  Rabs (ext a) <= bpow radix2 e -> Rabs (ext r) <= bpow radix2 e ->
  fin (Bfma mode_NE s a r) /\ Rabs (ext (Bfma mode_NE s a r)) <= bpow radix2 (e + 1).
Proof.
  intros Fs Bs Fa Fr He Ba Br. destruct (ext_fma s a r Fs Fa Fr) as [N E].
  assert (B : Rabs (ext (Bfma mode_NE s a r)) <= bpow radix2 (e + 1)).
  { rewrite E. apply rnd_abs_pow; [lia|]. rewrite bpow_1. eapply Rle_trans; [apply Rabs_triang|]. rewrite Rabs_mult.
    pose proof (Rabs_pos (ext s)). pose proof (Rabs_pos (ext a)). nra. }
  split; [|exact B]. apply (fin_abs_le _ (e + 1)); [exact N|lia|exact B].
Qed.
Lemma plus_pow x y e : fin x -> fin y -> (0 <= e <= 1022)%Z -> Rabs (ext x) <= bpow radix2 e -> Rabs (ext y) <= bpow radix2 e ->
  fin (Bplus mode_NE x y) /\ Rabs (ext (Bplus mode_NE x y)) <= bpow radix2 (e + 1).
Proof.
  intros Fx Fy He Hx Hy. destruct (ext_plus x y Fx Fy) as [N E]. rewrite E.
  assert (B : Rabs (rnd (ext x + ext y)) <= bpow radix2 (e + 1)).
  { apply rnd_abs_pow; [lia|]. rewrite bpow_1. apply Rabs_le_inv in Hx, Hy. apply Rabs_le; lra. }
  split; [|exact B]. apply (fin_abs_le _ (e + 1)); [exact N|lia|]. rewrite E. exact B.
Qed.
Lemma mult_pow x y a b : fin x -> fin y -> (0 <= a)%Z -> (0 <= b)%Z -> (a + b <= 1023)%Z ->
  Rabs (ext x) <= bpow radix2 a -> Rabs (ext y) <= bpow radix2 b ->
  fin (Bmult mode_NE x y) /\ Rabs (ext (Bmult mode_NE x y)) <= bpow radix2 (a + b).
Proof.
  intros Fx Fy Ha Hb Hab Hx Hy. destruct (ext_mult x y Fx Fy) as [N E]. rewrite E.
  assert (B : Rabs (rnd (ext x * ext y)) <= bpow radix2 (a + b)).
  { apply rnd_abs_pow; [lia|]. rewrite bpow_plus, Rabs_mult. apply Rmult_le_compat; auto using Rabs_pos. }
  split; [|exact B]. apply (fin_abs_le _ (a + b)); [exact N|lia|]. rewrite E. exact B.
Qed.
Lemma le_up x a b : (a <= b)%Z -> Rabs x <= bpow radix2 a -> Rabs x <= bpow radix2 b.
Proof. intros H B. apply Rle_trans with (1 := B). apply bpow_le, H. Qed.
Lemma unit_sign (b : bool) : let s := if b then b64_of_Z 1 else b64_of_Z (-1) in fin s /\ Rabs (ext s) <= 1.
Proof.
  destruct b; cbv zeta.
  - destruct (ext_ofZ 1 ltac:(vm_compute; discriminate)) as [F E]. split; [exact F|]. rewrite E. apply Rabs_le. lra.
  - destruct (ext_ofZ (-1) ltac:(vm_compute; discriminate)) as [F E]. split; [exact F|]. rewrite E. apply Rabs_le. lra.
Qed.

(** ** Glicko-Boost *)
Definition ebB (L : Libm) (w : bool) (eta d2 r1 r2 : B64) : B64 :=
  lgB L (argB (gB (qB L) d2) (Bminus mode_NE (Bfma mode_NE (if w then b64_of_Z 1 else b64_of_Z (-1)) eta r1) r2)).
Lemma eb_ok L w eta d2 r1 r2 : pow10_nonneg L -> ln10_sane L -> nn d2 -> finite r1 -> finite r2 -> finite eta ->
  Rabs (ext r1) <= bpow radix2 1000 -> Rabs (ext r2) <= bpow radix2 1000 -> Rabs (ext eta) <= bpow radix2 1000 ->
  sp (ebB L w eta d2 r1 r2) /\ in01 (ebB L w eta d2 r1 r2).
Proof.
  intros P Q Nd F1 F2 Fe B1 B2 Be. destruct (q_ok L Q) as [Fq Bq]. destruct (g_ok (qB L) d2 Fq Bq Nd) as [_ Ig].
  destruct (unit_sign w) as [Fw Bw]. destruct (fma_unit _ eta r1 1000 Fw Bw Fe F1 ltac:(lia) Be B1) as [Ff Bf].
  destruct (minus_pow _ r2 1001 Ff F2 ltac:(lia) Bf (le_up _ 1000 1001 ltac:(lia) B2)) as [Fm _].
  apply lg_ok; [exact P|]. apply arg_ok; assumption.
Qed.
Lemma kb_ok dev q g : fin dev -> 0 <= ext dev <= 350 -> fin q -> bpow radix2 (-8) <= ext q <= bpow radix2 (-7) -> sp g -> in01 g ->
  let Kq := Bmult mode_NE (Bmult mode_NE dev dev) q in
  (fin Kq /\ 0 <= ext Kq <= bpow radix2 10) /\ let K := Bmult mode_NE Kq g in fin K /\ 0 <= ext K <= bpow radix2 10.
Proof.
  intros Fd Bd Fq Bq Sg Ig Kq. destruct (in01_inv g Ig) as [Fg Bg].
  destruct (sp_pos_of q (bpow radix2 (-8)) Fq (bpow_gt_0 _ _) (proj1 Bq)) as [Sq [_ Pq]].
  pose proof (sp_sq dev (fin_nn _ Fd)) as S1. destruct (ext_mult dev dev Fd Fd) as [_ E1].
  assert (B1 : 0 <= ext (Bmult mode_NE dev dev) <= bpow radix2 17).
  { split; [apply sp_ge0, S1|]. rewrite E1. apply rnd_le_pow; [lia|]. simpl. nra. }
  assert (F1 : fin (Bmult mode_NE dev dev)) by (apply (fin_le _ 17); [apply S1|lia|exact B1]).
  destruct (sp_mult _ q S1 Sq F1 Fq) as [S2 E2]. fold Kq in S2, E2.
  assert (B2 : 0 <= ext Kq <= bpow radix2 10).
  { split; [apply sp_ge0, S2|]. rewrite E2. apply rnd_le_pow; [lia|].
    replace (bpow radix2 10) with (bpow radix2 17 * bpow radix2 (-7)) by (rewrite <- bpow_plus; reflexivity).
    pose proof (bpow_ge_0 radix2 (-8)). apply Rmult_le_compat; lra. }
  assert (F2 : fin Kq) by (apply (fin_le _ 10); [apply S2|lia|exact B2]).
  split; [split; assumption|]. intro K. destruct (sp_mult Kq g S2 Sg F2 Fg) as [S3 E3]. fold K in S3, E3.
  assert (B3 : 0 <= ext K <= bpow radix2 10).
  { split; [apply sp_ge0, S3|]. rewrite E3. apply rnd_le_pow; [lia|]. nra. }
  split; [|exact B3]. apply (fin_le _ 10); [apply S3|lia|exact B3].
Qed.
Lemma nd_ok L d v z cfg : let m := gb_new_deviation (A := B64A L) d v z cfg in fin m /\ 0 <= ext m <= 350.
Proof.
  unfold gb_new_deviation. destruct (_ && _); exact (min350 _).
Qed.
Lemma boost_all : forall (L : Libm) (p1 p2 : GlickoBoostRating B64) (o : Outcomes) (cfg : GlickoBoostConfig B64),
  pow10_nonneg L -> ln10_sane L ->
  finite (gb_rating p1) -> le_2 1000 (gb_rating p1) -> finite (gb_rating p2) -> le_2 1000 (gb_rating p2) ->
  finite (gb_eta cfg) -> le_2 1000 (gb_eta cfg) ->
  is_nan (gb_deviation p1) = false -> is_nan (gb_deviation p2) = false ->
  let new := glicko_boost (A := B64A L) p1 p2 o cfg in
  finite (gb_rating (fst new)) /\ finite (gb_rating (snd new)) /\
  (finite (gb_deviation (fst new)) /\ le64 zero64 (gb_deviation (fst new)) /\ le64 (gb_deviation (fst new)) (b64_of_Z 350)) /\
  (finite (gb_deviation (snd new)) /\ le64 zero64 (gb_deviation (snd new)) /\ le64 (gb_deviation (snd new)) (b64_of_Z 350)) /\
  (o = WIN -> le64 (gb_rating p1) (gb_rating (fst new)) /\ le64 (gb_rating (snd new)) (gb_rating p2)) /\
  (o = LOSS -> le64 (gb_rating (fst new)) (gb_rating p1) /\ le64 (gb_rating p2) (gb_rating (snd new))).
Proof.
  intros L [r1 d1] [r2 d2] o cfg P Q F1 A1 F2 A2 Fe Ae N1 N2 new. cbn in F1, A1, F2, A2, N1, N2.
  pose proof (le_2_ext 1000 _ ltac:(lia) F1 A1) as B1. pose proof (le_2_ext 1000 _ ltac:(lia) F2 A2) as B2.
  pose proof (le_2_ext 1000 _ ltac:(lia) Fe Ae) as Be.
  destruct (ext_points L o) as [Fp Ep]. destruct (ext_points2 L o) as [Fs Es]. cbv zeta in Fs, Es. pose proof (points_range o) as R.
  destruct (q_ok L Q) as [Fq Bq].
  destruct (g_ok (qB L) d2 Fq Bq N2) as [Sg1 Ig1]. destruct (g_ok (qB L) d1 Fq Bq N1) as [Sg2 Ig2].
  destruct (eb_ok L true (gb_eta cfg) d2 r1 r2 P Q N2 F1 F2 Fe B1 B2 Be) as [Se1 Ie1].
  destruct (eb_ok L false (gb_eta cfg) d1 r2 r1 P Q N1 F2 F1 Fe B2 B1 Be) as [Se2 Ie2].
  set (g1 := gB (qB L) d2) in *. set (g2 := gB (qB L) d1) in *.
  set (e1 := ebB L true (gb_eta cfg) d2 r1 r2) in *. set (e2 := ebB L false (gb_eta cfg) d1 r2 r1) in *.
  set (o1 := to_chess_points (A := B64A L) o) in *. set (o2 := Bminus mode_NE one64 o1) in *.
  pose (v1 := Bdiv mode_NE one64 (xB (qB L) g1 e1)). pose (v2 := Bdiv mode_NE one64 (xB (qB L) g2 e2)).
  pose (z1 := gb_z_value (A := B64A L) g1 e1 o1). pose (z2 := gb_z_value (A := B64A L) g2 e2 o2).
  destruct (nd_ok L d1 v1 z1 cfg) as [Fn1 Bn1]. destruct (nd_ok L d2 v2 z2 cfg) as [Fn2 Bn2].
  set (n1 := gb_new_deviation (A := B64A L) d1 v1 z1 cfg) in *. set (n2 := gb_new_deviation (A := B64A L) d2 v2 z2 cfg) in *.
  destruct (kb_ok n1 (qB L) g1 Fn1 Bn1 Fq Bq Sg1 Ig1) as [_ [FK1 BK1]].
  destruct (kb_ok n2 (qB L) g2 Fn2 Bn2 Fq Bq Sg2 Ig2) as [_ [FK2 BK2]].
  set (K1 := Bmult mode_NE (Bmult mode_NE (Bmult mode_NE n1 n1) (qB L)) g1) in *.
  set (K2 := Bmult mode_NE (Bmult mode_NE (Bmult mode_NE n2 n2) (qB L)) g2) in *.
  assert (H1 : gb_rating (fst new) = upd K1 o1 e1 r1) by reflexivity.
  assert (H2 : gb_rating (snd new) = upd K2 o2 e2 r2) by reflexivity.
  assert (D : forall r d, let m := gb_end_deviation (A := B64A L) r d cfg in finite m /\ le64 zero64 m /\ le64 m (b64_of_Z 350)).
  { intros r d m. apply dev_le64. exact (min350 _). }
  destruct (in01_inv e1 Ie1) as [_ Be1]. destruct (in01_inv e2 Ie2) as [_ Be2].
  assert (T : bpow radix2 10 <= bpow radix2 1000) by (apply bpow_le; lia).
  assert (AK1 : Rabs (ext K1) <= bpow radix2 1000) by (rewrite Rabs_pos_eq; lra).
  assert (AK2 : Rabs (ext K2) <= bpow radix2 1000) by (rewrite Rabs_pos_eq; lra).
  rewrite H1, H2. cbn [gb_rating].
  split; [apply upd_finite; auto; rewrite Ep; lra|]. split; [apply upd_finite; auto; rewrite Es; lra|].
  split; [exact (D _ _)|]. split; [exact (D _ _)|].
  split; intros ->; split; first [apply upd_up|apply upd_down]; auto; rewrite ?Ep, ?Es; unfold points; lra.
Qed.

(** ** Sticko *)
Definition esB (L : Libm) (gamma colour d2 r1 r2 : B64) : B64 :=
  lgB L (argB (gB (qB L) d2) (Bfma mode_NE gamma colour (Bminus mode_NE r1 r2))).
Lemma fma_unit' s a r e : fin s -> Rabs (ext s) <= 1 -> fin a -> fin r -> (0 <= e <= 1022)%Z ->
  Rabs (ext a) <= bpow radix2 e -> Rabs (ext r) <= bpow radix2 e ->
  fin (Bfma mode_NE a s r) /\ Rabs (ext (Bfma mode_NE a s r)) <= bpow radix2 (e + 1).
Proof.
  intros Fs Bs Fa Fr He Ba Br. destruct (ext_fma a s r Fa Fs Fr) as [N E].
  assert (B : Rabs (ext (Bfma mode_NE a s r)) <= bpow radix2 (e + 1)).
  { rewrite E. apply rnd_abs_pow; [lia|]. rewrite bpow_1. eapply Rle_trans; [apply Rabs_triang|]. rewrite Rabs_mult.
    pose proof (Rabs_pos (ext s)). pose proof (Rabs_pos (ext a)). nra. }
  split; [|exact B]. apply (fin_abs_le _ (e + 1)); [exact N|lia|exact B].
Qed.
Lemma div100_pow x e : fin x -> (0 <= e <= 1022)%Z -> Rabs (ext x) <= bpow radix2 e ->
  let y := Bdiv mode_NE x (b64_of_Z 100) in fin y /\ Rabs (ext y) <= bpow radix2 e /\ (0 <= ext x -> 0 <= ext y) /\ (ext x = 0 -> ext y = 0).
Proof.
  intros Fx He Bx y. assert (E100 : ext (b64_of_Z 100) = 100) by (apply (ext_ofZ 100); vm_compute; discriminate).
  destruct (ext_div x (b64_of_Z 100) Fx eq_refl ltac:(rewrite E100; lra)) as [N E]. fold y in N, E. rewrite E100 in E.
  assert (B : Rabs (ext y) <= bpow radix2 e).
  { rewrite E. apply rnd_abs_pow; [lia|]. unfold Rdiv. rewrite Rabs_mult, (Rabs_pos_eq (/ 100)) by lra. pose proof (Rabs_pos (ext x)). lra. }
  split; [apply (fin_abs_le _ e); [exact N|lia|exact B]|]. split; [exact B|]. split.
  - intro H. rewrite E. apply rnd_nonneg. lra.
  - intro H. rewrite E, H. unfold Rdiv. rewrite Rmult_0_l. apply rnd_0.
Qed.
Lemma sticko_half L (r1 d1 r2 d2 colour o h beta lambda gamma c : B64) :
  pow10_nonneg L -> ln10_sane L -> hypot_nonneg L -> nn d1 -> nn d2 -> nn c -> fin r1 -> fin r2 -> fin beta -> fin lambda -> fin gamma ->
  Rabs (ext r1) <= bpow radix2 400 -> Rabs (ext r2) <= bpow radix2 400 -> Rabs (ext beta) <= bpow radix2 400 ->
  Rabs (ext lambda) <= bpow radix2 400 -> Rabs (ext gamma) <= bpow radix2 400 -> fin colour -> Rabs (ext colour) <= 1 ->
  fin o -> 0 <= ext o <= 1 ->
  let q := qB L in let g := gB q d2 in let e := esB L gamma colour d2 r1 r2 in let d := Bdiv mode_NE one64 (xB q g e) in
  let v := Bdiv mode_NE one64 d in let pre := b64_min (l_hypot L d1 c) (b64_of_Z 350) in
  let K := Bmult mode_NE (Bdiv mode_NE q (sB pre v)) g in
  let lam := Bmult mode_NE (Bdiv mode_NE lambda (b64_of_Z 100)) (Bminus mode_NE r2 r1) in
  let new := Bplus mode_NE (Bfma mode_NE K (Bplus mode_NE (Bminus mode_NE o e) beta) r1) lam in
  fin new /\ (ext o = 1 -> 0 <= ext beta -> 0 <= ext lambda -> ext lambda = 0 \/ ext r1 <= ext r2 -> ext r1 <= ext new) /\
  (ext o = 0 -> ext beta <= 0 -> 0 <= ext lambda -> ext lambda = 0 \/ ext r2 <= ext r1 -> ext new <= ext r1).
Proof.
  intros P Q Hh N1 N2 Nc F1 F2 Fb Fl Fg B1 B2 Bb Bl Bg Fc Bc Fo Bo q g e d v pre K lam new.
  destruct (q_ok L Q) as [Fq Bq]. fold q in Fq, Bq. destruct (g_ok q d2 Fq Bq N2) as [Sg Ig]. fold g in Sg, Ig.
  destruct (minus_pow r1 r2 400 F1 F2 ltac:(lia) B1 B2) as [Fm Bm].
  destruct (fma_unit' colour gamma _ 401 Fc Bc Fg Fm ltac:(lia) (le_up _ 400 401 ltac:(lia) Bg) Bm) as [Ff _].
  destruct (lg_ok L _ P (arg_ok g _ Ig Ff)) as [Se Ie].
  change (lgB L (argB g (Bfma mode_NE gamma colour (Bminus mode_NE r1 r2)))) with e in Se, Ie.
  destruct (x_ok q g e Fq Bq Sg Ig Se Ie) as [Sx Bx]. destruct (recip_ge1 _ Sx Bx) as [Sd Bd].
  destruct (sp_div one64 _ one_sp fin_one64 ltac:(rewrite ext_one64; lra) Sd) as [Sv _].
  change (Bdiv mode_NE one64 (Bdiv mode_NE one64 (xB q g e))) with v in Sv.
  destruct (pre_ok L d1 c Hh N1 Nc) as [Np Bp]. fold pre in Np, Bp.
  destruct (s_ok pre v Np Bp Sv) as [Ss Hs]. destruct (k_ok q _ Fq Bq Ss Hs) as [Sk [Fk Bk]].
  destruct (kg_ok _ g Sk Fk Bk Sg Ig) as [FK BK]. fold K in FK, BK.
  destruct (in01_inv e Ie) as [Fe Be].
  destruct (minus_pow o e 0 Fo Fe ltac:(lia) ltac:(simpl; rewrite Rabs_pos_eq; lra) ltac:(simpl; rewrite Rabs_pos_eq; lra)) as [Fs Bs].
  destruct (plus_pow _ beta 400 Fs Fb ltac:(lia) (le_up _ (0 + 1) 400 ltac:(lia) Bs) Bb) as [Ft Bt].
  destruct (ext_minus o e Fo Fe) as [_ Es]. destruct (ext_plus _ beta Fs Fb) as [_ Et].
  set (t := Bplus mode_NE (Bminus mode_NE o e) beta) in *.
  destruct (ext_fma K t r1 FK Ft F1) as [Nu Eu]. set (u := Bfma mode_NE K t r1) in *.
  assert (Bu : Rabs (ext u) <= bpow radix2 801).
  { rewrite Eu. apply rnd_abs_pow; [lia|]. eapply Rle_trans; [apply Rabs_triang|]. rewrite Rabs_mult, (Rabs_pos_eq (ext K)) by lra.
    apply Rle_trans with (bpow radix2 10 * bpow radix2 401 + bpow radix2 400).
    - apply Rplus_le_compat; [|exact B1]. apply Rmult_le_compat; [lra|apply Rabs_pos|lra|exact Bt].
    - rewrite <- bpow_plus. change (10 + 401)%Z with 411%Z.
      assert (bpow radix2 411 <= bpow radix2 800) by (apply bpow_le; lia). assert (bpow radix2 400 <= bpow radix2 800) by (apply bpow_le; lia).
      change 801%Z with (800 + 1)%Z. rewrite bpow_1. lra. }
  assert (Fu : fin u) by (apply (fin_abs_le _ 801); [exact Nu|lia|exact Bu]).
  destruct (div100_pow lambda 400 Fl ltac:(lia) Bl) as [Fl' [Bl' [Pl Zl]]].
  destruct (minus_pow r2 r1 400 F2 F1 ltac:(lia) B2 B1) as [Fd Bdd]. destruct (ext_minus r2 r1 F2 F1) as [_ Ed].
  destruct (mult_pow _ _ 400 401 Fl' Fd ltac:(lia) ltac:(lia) ltac:(lia) Bl' Bdd) as [Flam Blam].
  destruct (ext_mult _ _ Fl' Fd) as [_ Elam]. fold lam in Flam, Blam, Elam. change (400 + 401)%Z with 801%Z in Blam.
  destruct (plus_pow u lam 801 Fu Flam ltac:(lia) Bu Blam) as [Fn _]. destruct (ext_plus u lam Fu Flam) as [_ En]. fold new in Fn, En.
  split; [exact Fn|]. split.
  - intros Ho Hb Hl Hr.
    assert (0 <= ext t) by (rewrite Et; apply rnd_nonneg; rewrite Es; assert (0 <= rnd (ext o - ext e)) by (apply rnd_nonneg; lra); lra).
    assert (Kt : 0 <= ext K * ext t) by (apply Rmult_le_pos; lra).
    assert (ext r1 <= ext u) by (rewrite Eu, <- (rnd_ext r1 F1) at 1; apply rnd_le; lra).
    assert (0 <= ext lam).
    { rewrite Elam. apply rnd_nonneg. destruct Hr as [Hz|Hr]; [rewrite (Zl Hz); lra|].
      apply Rmult_le_pos; [apply Pl, Hl|]. rewrite Ed. apply rnd_nonneg. lra. }
    rewrite En. rewrite <- (rnd_ext r1 F1). apply rnd_le. lra.
  - intros Ho Hb Hl Hr.
    assert (ext t <= 0) by (rewrite Et; apply rnd_0_le; rewrite Es; assert (rnd (ext o - ext e) <= 0) by (apply rnd_0_le; lra); lra).
    assert (Kt : 0 <= ext K * - ext t) by (apply Rmult_le_pos; lra).
    assert (ext u <= ext r1) by (rewrite Eu; rewrite <- (rnd_ext r1 F1) at 2; apply rnd_le; lra).
    assert (ext lam <= 0).
    { rewrite Elam. apply rnd_0_le. destruct Hr as [Hz|Hr]; [rewrite (Zl Hz); lra|].
      assert (rnd (ext r2 - ext r1) <= 0) by (apply rnd_0_le; lra). rewrite Ed. specialize (Pl Hl).
      pose proof (Rmult_le_pos _ (- rnd (ext r2 - ext r1)) Pl ltac:(lra)). lra. }
    rewrite En. rewrite <- (rnd_ext r1 F1). apply rnd_le. lra.
Qed.
Lemma le_2_le e x : (-1022 <= e <= 1023)%Z -> finite x -> le_2 e x -> fin x /\ Rabs (ext x) <= bpow radix2 e.
Proof. intros. split; [assumption|]. now apply le_2_ext. Qed.
Lemma eq0_ext x : Beqb x zero64 = true -> ext x = 0.
Proof. destruct x as [s|[|]| |[|]]; try discriminate; reflexivity. Qed.
Lemma le64_ext x y : le64 x y -> ext x <= ext y.
Proof. intro H. apply le_Bleb in H. apply H. Qed.
Lemma C97_sticko_proof : forall (L : Libm) (p1 p2 : StickoRating B64) (o : Outcomes) (cfg : StickoConfig B64),
  pow10_nonneg L -> ln10_sane L -> hypot_nonneg L ->
  finite (st_rating p1) -> le_2 400 (st_rating p1) -> finite (st_rating p2) -> le_2 400 (st_rating p2) ->
  finite (st_beta cfg) -> le_2 400 (st_beta cfg) -> finite (st_lambda cfg) -> le_2 400 (st_lambda cfg) ->
  finite (st_gamma cfg) -> le_2 400 (st_gamma cfg) ->
  is_nan (st_deviation p1) = false -> is_nan (st_deviation p2) = false -> is_nan (st_c cfg) = false ->
  let new := sticko (A := B64A L) p1 p2 o cfg in
  finite (st_rating (fst new)) /\ finite (st_rating (snd new)) /\
  (finite (st_deviation (fst new)) /\ le64 zero64 (st_deviation (fst new)) /\ le64 (st_deviation (fst new)) (b64_of_Z 350)) /\
  (finite (st_deviation (snd new)) /\ le64 zero64 (st_deviation (snd new)) /\ le64 (st_deviation (snd new)) (b64_of_Z 350)).
Proof.
  intros L [r1 d1] [r2 d2] o [h beta lambda gamma c] P Q Hh F1 A1 F2 A2 Fb Ab Fl Al Fg Ag N1 N2 Nc new. cbn in *.
  pose proof (fun x F A => proj2 (le_2_le 400 x ltac:(lia) F A)) as T.
  destruct (ext_points L o) as [Fp Ep]. destruct (ext_points2 L o) as [Fs Es]. cbv zeta in Fs, Es. pose proof (points_range o) as R.
  destruct (unit_sign true) as [Fw Bw]. destruct (unit_sign false) as [Fv Bv].
  destruct (sticko_half L r1 d1 r2 d2 _ _ h beta lambda gamma c P Q Hh N1 N2 Nc F1 F2 Fb Fl Fg (T _ F1 A1) (T _ F2 A2) (T _ Fb Ab) (T _ Fl Al) (T _ Fg Ag)
    Fw Bw Fp ltac:(rewrite Ep; lra)) as [U1 _].
  destruct (sticko_half L r2 d2 r1 d1 _ _ h beta lambda gamma c P Q Hh N2 N1 Nc F2 F1 Fb Fl Fg (T _ F2 A2) (T _ F1 A1) (T _ Fb Ab) (T _ Fl Al) (T _ Fg Ag)
    Fv Bv Fs ltac:(rewrite Es; lra)) as [U2 _].
  split; [exact U1|]. split; [exact U2|]. split; apply dev_le64; exact (min350 _).
Qed.
Lemma C98_sticko_proof : forall (L : Libm) (p1 p2 : StickoRating B64) (cfg : StickoConfig B64),
  pow10_nonneg L -> ln10_sane L -> hypot_nonneg L ->
  finite (st_rating p1) -> le_2 400 (st_rating p1) -> finite (st_rating p2) -> le_2 400 (st_rating p2) ->
  finite (st_beta cfg) -> le_2 400 (st_beta cfg) -> finite (st_lambda cfg) -> le_2 400 (st_lambda cfg) ->
  finite (st_gamma cfg) -> le_2 400 (st_gamma cfg) ->
  is_nan (st_deviation p1) = false -> is_nan (st_deviation p2) = false -> is_nan (st_c cfg) = false ->
  le64 zero64 (st_beta cfg) -> le64 zero64 (st_lambda cfg) ->
  let one o := st_rating (fst (sticko (A := B64A L) p1 p2 o cfg)) in
  let two o := st_rating (snd (sticko (A := B64A L) p1 p2 o cfg)) in
  let plain := Beqb (st_lambda cfg) zero64 = true in
  (plain \/ le64 (st_rating p1) (st_rating p2) -> le64 (st_rating p1) (one WIN)) /\
  (plain \/ le64 (st_rating p2) (st_rating p1) -> le64 (st_rating p2) (two LOSS)) /\
  (Beqb (st_beta cfg) zero64 = true ->
   (plain \/ le64 (st_rating p1) (st_rating p2) -> le64 (two WIN) (st_rating p2)) /\
   (plain \/ le64 (st_rating p2) (st_rating p1) -> le64 (one LOSS) (st_rating p1))).
Proof.
  intros L [r1 d1] [r2 d2] [h beta lambda gamma c] P Q Hh F1 A1 F2 A2 Fb Ab Fl Al Fg Ag N1 N2 Nc Pb Pl one two plain. cbn [st_rating st_deviation st_h st_beta st_lambda st_gamma st_c] in *.
  pose proof (fun x F A => proj2 (le_2_le 400 x ltac:(lia) F A)) as T.
  pose proof (fun o => proj1 (ext_points L o)) as Fp. pose proof (fun o => proj2 (ext_points L o)) as Ep.
  pose proof (fun o => proj1 (ext_points2 L o)) as Fs. pose proof (fun o => proj2 (ext_points2 L o)) as Es. cbv zeta in Fs, Es.
  apply le64_ext in Pb, Pl. rewrite ext_zero64 in Pb, Pl.
  destruct (unit_sign true) as [Fw Bw]. destruct (unit_sign false) as [Fv Bv].
  assert (R : forall o, 0 <= ext (to_chess_points (A := B64A L) o) <= 1) by (intro o; rewrite Ep; destruct o; unfold points; lra).
  assert (R' : forall o, 0 <= ext (Bminus mode_NE one64 (to_chess_points (A := B64A L) o)) <= 1) by (intro o; rewrite Es; destruct o; unfold points; lra).
  pose proof (fun o => sticko_half L r1 d1 r2 d2 _ _ h beta lambda gamma c P Q Hh N1 N2 Nc F1 F2 Fb Fl Fg (T _ F1 A1) (T _ F2 A2) (T _ Fb Ab) (T _ Fl Al) (T _ Fg Ag)
    Fw Bw (Fp o) (R o)) as H1. cbv zeta in H1.
  pose proof (fun o => sticko_half L r2 d2 r1 d1 _ _ h beta lambda gamma c P Q Hh N2 N1 Nc F2 F1 Fb Fl Fg (T _ F2 A2) (T _ F1 A1) (T _ Fb Ab) (T _ Fl Al) (T _ Fg Ag)
    Fv Bv (Fs o) (R' o)) as H2. cbv zeta in H2.
  destruct (H1 WIN) as [Fx1 [X1 _]]. destruct (H1 LOSS) as [Fy1 [_ Y1]]. destruct (H2 LOSS) as [Fx2 [X2 _]]. destruct (H2 WIN) as [Fy2 [_ Y2]].
  rewrite Ep in X1, Y1. rewrite Es in X2, Y2. unfold points in X1, Y1, X2, Y2. clear H1 H2.
  assert (D : forall a b, plain \/ le64 a b -> ext lambda = 0 \/ ext a <= ext b).
  { intros a b [H|H]; [left; apply eq0_ext, H|right; apply le64_ext, H]. }
  split; [intro H; apply le64_iff; [apply fin_nn, F1|apply fin_nn, Fx1|]; apply X1; auto|].
  split; [intro H; apply le64_iff; [apply fin_nn, F2|apply fin_nn, Fx2|]; apply X2; auto; lra|].
  intro Hb. apply eq0_ext in Hb.
  split; intro H; apply le64_iff; try (apply fin_nn; assumption).
  - apply Y2; auto; lra.
  - apply Y1; auto; lra.
Qed.

(** ** Expected scores *)
Lemma exp_adv_ok L (r1 d1 r2 d2 a : B64) : pow10_nonneg L -> ln10_sane L -> hypot_nonneg L -> finite r1 -> le_2 1000 r1 -> finite r2 -> le_2 1000 r2 ->
  finite a -> le_2 1000 a -> nn d1 -> nn d2 ->
  in01 (lgB L (argB (gB (qB L) (l_hypot L d1 d2)) (Bminus mode_NE (Bplus mode_NE r1 a) r2))).
Proof.
  intros P Q Hh F1 A1 F2 A2 Fa Aa N1 N2. pose proof (fun x F A => le_2_ext 1000 x ltac:(lia) F A) as T.
  specialize (Hh d1 d2 N1 N2). apply le_Bleb in Hh. destruct Hh as [_ [Nh _]].
  destruct (q_ok L Q) as [Fq Bq]. destruct (g_ok (qB L) _ Fq Bq Nh) as [_ Ig].
  destruct (plus_pow r1 a 1000 F1 Fa ltac:(lia) (T _ F1 A1) (T _ Fa Aa)) as [Fp Bp].
  destruct (minus_pow _ r2 1001 Fp F2 ltac:(lia) Bp (le_up _ 1000 1001 ltac:(lia) (T _ F2 A2))) as [Fm _].
  apply lg_ok; [exact P|]. apply arg_ok; assumption.
Qed.
Lemma C66_sticko_proof : forall (L : Libm) (p1 p2 : StickoRating B64) (cfg : StickoConfig B64),
  pow10_nonneg L -> ln10_sane L -> hypot_nonneg L ->
  finite (st_rating p1) -> le_2 1000 (st_rating p1) -> finite (st_rating p2) -> le_2 1000 (st_rating p2) ->
  finite (st_gamma cfg) -> le_2 1000 (st_gamma cfg) ->
  is_nan (st_deviation p1) = false -> is_nan (st_deviation p2) = false ->
  let e := sticko_expected_score (A := B64A L) p1 p2 cfg in in01 (fst e) /\ in01 (snd e).
Proof.
  intros L [r1 d1] [r2 d2] cfg P Q Hh F1 A1 F2 A2 Fa Aa N1 N2 e.
  pose proof (exp_adv_ok L r1 d1 r2 d2 (st_gamma cfg) P Q Hh F1 A1 F2 A2 Fa Aa N1 N2) as I.
  split; [exact I|exact (one_minus_in01 _ I)].
Qed.
Lemma C66_boost_proof : forall (L : Libm) (p1 p2 : GlickoBoostRating B64) (cfg : GlickoBoostConfig B64),
  pow10_nonneg L -> ln10_sane L -> hypot_nonneg L ->
  finite (gb_rating p1) -> le_2 1000 (gb_rating p1) -> finite (gb_rating p2) -> le_2 1000 (gb_rating p2) ->
  finite (gb_eta cfg) -> le_2 1000 (gb_eta cfg) ->
  is_nan (gb_deviation p1) = false -> is_nan (gb_deviation p2) = false ->
  let e := boost_expected_score (A := B64A L) p1 p2 cfg in in01 (fst e) /\ in01 (snd e).
Proof.
  intros L [r1 d1] [r2 d2] cfg P Q Hh F1 A1 F2 A2 Fa Aa N1 N2 e.
  pose proof (exp_adv_ok L r1 d1 r2 d2 (gb_eta cfg) P Q Hh F1 A1 F2 A2 Fa Aa N1 N2) as I.
  split; [exact I|exact (one_minus_in01 _ I)].
Qed.
Lemma C97_boost_proof : forall (L : Libm) (p1 p2 : GlickoBoostRating B64) (o : Outcomes) (cfg : GlickoBoostConfig B64),
  pow10_nonneg L -> ln10_sane L ->
  finite (gb_rating p1) -> le_2 1000 (gb_rating p1) -> finite (gb_rating p2) -> le_2 1000 (gb_rating p2) ->
  finite (gb_eta cfg) -> le_2 1000 (gb_eta cfg) ->
  is_nan (gb_deviation p1) = false -> is_nan (gb_deviation p2) = false ->
  let new := glicko_boost (A := B64A L) p1 p2 o cfg in
  finite (gb_rating (fst new)) /\ finite (gb_rating (snd new)) /\
  (finite (gb_deviation (fst new)) /\ le64 zero64 (gb_deviation (fst new)) /\ le64 (gb_deviation (fst new)) (b64_of_Z 350)) /\
  (finite (gb_deviation (snd new)) /\ le64 zero64 (gb_deviation (snd new)) /\ le64 (gb_deviation (snd new)) (b64_of_Z 350)).
Proof.
  intros L p1 p2 o cfg P Q F1 A1 F2 A2 Fe Ae N1 N2 new. destruct (boost_all L p1 p2 o cfg P Q F1 A1 F2 A2 Fe Ae N1 N2) as [H1 [H2 [H3 [H4 _]]]].
  exact (conj H1 (conj H2 (conj H3 H4))).
Qed.
Lemma C98_boost_proof : forall (L : Libm) (p1 p2 : GlickoBoostRating B64) (o : Outcomes) (cfg : GlickoBoostConfig B64),
  pow10_nonneg L -> ln10_sane L ->
  finite (gb_rating p1) -> le_2 1000 (gb_rating p1) -> finite (gb_rating p2) -> le_2 1000 (gb_rating p2) ->
  finite (gb_eta cfg) -> le_2 1000 (gb_eta cfg) ->
  is_nan (gb_deviation p1) = false -> is_nan (gb_deviation p2) = false ->
  let new := glicko_boost (A := B64A L) p1 p2 o cfg in
  (o = WIN -> le64 (gb_rating p1) (gb_rating (fst new)) /\ le64 (gb_rating (snd new)) (gb_rating p2)) /\
  (o = LOSS -> le64 (gb_rating (fst new)) (gb_rating p1) /\ le64 (gb_rating p2) (gb_rating (snd new))).
Proof.
  intros L p1 p2 o cfg P Q F1 A1 F2 A2 Fe Ae N1 N2 new. destruct (boost_all L p1 p2 o cfg P Q F1 A1 F2 A2 Fe Ae N1 N2) as [_ [_ [_ [_ H]]]]. exact H.
Qed.
