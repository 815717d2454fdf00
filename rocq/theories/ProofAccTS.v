(** Accuracy in double precision: TrueSkill's erfc, cdf and pdf. *)
From Coq Require Import ZArith List Bool Reals Lra Lia Psatz.
From Flocq Require Import Core.Core IEEE754.BinarySingleNaN.
From Verif Require Import Arith XR B64 ModelLib ModelTS Spec SpecTS SpecNormal SpecTSN SpecB64 SpecAcc Tac MathB64 ProofB64 ProofB64b ProofB64c MathB64b ProofB64f MathAcc MathAcc2 MathAccR MathTS MathTSW MathTSInv MathTSNorm MathTSNorm2 ProofBoost2 ProofAcc ProofAcc2 ProofAcc3.
Import ListNotations.
Local Open Scope R_scope.
#[local] Opaque Bplus Bminus Bmult Bdiv Bfma Bsqrt Bopp Babs b64_max b64_min b64_of_Z b64_lit.

Lemma abs_ap x : fin x -> ap (Babs x) (Rabs (ext x)) 0.
Proof.
  intros F. apply ap_exact; [unfold fin; rewrite is_finite_Babs; exact F|]. rewrite ext_fin by (unfold fin; rewrite is_finite_Babs; exact F). rewrite B2R_Babs, <- ext_fin by exact F. reflexivity.
Qed.

(** ** The polynomial of erfc *)
Lemma hst t h c T H C dt e ec M K : ap t T dt -> ap h H e -> ap c C ec -> 0 <= T <= 1 -> Rabs H <= M -> Rabs C <= K -> M <= 400 -> K <= 400 ->
  dt <= / 10 ^ 6 -> e <= / 10 ^ 6 -> ec <= / 10 ^ 6 -> ap (Bfma mode_NE t h c) (T * H + C) (1.001 * e + M * dt + ec + u0 * (M + K + 1)) /\ Rabs (T * H + C) <= M + K.
Proof.
  intros At Ah Ac BT BH BC BM BK d1 d2 d3. pose proof (ap_nonneg _ _ _ At) as D1. pose proof (ap_nonneg _ _ _ Ah) as D2. pose proof (ap_nonneg _ _ _ Ac) as D3.
  pose proof (Rabs_pos H) as PH. pose proof (Rabs_pos C) as PC.
  assert (BTH : Rabs (T * H + C) <= M + K). { eapply Rle_trans; [apply Rabs_triang|]. rewrite Rabs_mult, (Rabs_pos_eq T) by lra. nra. }
  split; [|exact BTH]. assert (0 <= dt * e <= e / 1000000) by nra. assert (M * dt <= 400 / 10 ^ 6) by nra.
  pose proof (ap_fma _ _ _ _ _ _ _ _ _ 1 M (M + K + 1) At Ah Ac ltac:(rewrite Rabs_pos_eq; lra) BH ltac:(lra) ltac:(apply okB; split; [|apply Rle_trans with 1000; [lra|]]; lra)) as F.
  apply (ap_weak _ _ _ _ F). lra.
Qed.
Definition polyB (t z : B64) : B64 :=
  Bfma mode_NE t (Bfma mode_NE t (Bfma mode_NE t (Bfma mode_NE t (Bfma mode_NE t (Bfma mode_NE t (Bfma mode_NE t (Bfma mode_NE t (Bfma mode_NE t
      (b64_lit 17087277 100000000) (b64_lit (-82215223) 100000000))
      (b64_lit 148851587 100000000)) (b64_lit (-113520398) 100000000))
      (b64_lit 27886807 100000000)) (b64_lit (-18628806) 100000000))
      (b64_lit 9678418 100000000)) (b64_lit 37409196 100000000))
      (b64_lit 100002368 100000000)) (Bfma mode_NE (Bopp z) z (b64_lit (-126551223) 100000000)).
Lemma poly_ap t z T Z : ap t T (3 / 10 ^ 15) -> ap z Z 0 -> 0 <= T <= 1 -> 0 <= Z <= 18.5 ->
  ap (polyB t z) (nr_P T - Z ^ 2) (2 / 10 ^ 13) /\ Rabs (nr_P T - Z ^ 2) <= 360.
Proof.
  intros At Az BT BZ. assert (U0 : 0 < u0 <= 12 / 10 ^ 17) by ulra.
  assert (LT : forall m d, (m <> 0)%Z -> (0 < d)%Z -> Rabs (IZR m / IZR d) <= 1.5 -> ap (b64_lit m d) (IZR m / IZR d) (2 / 10 ^ 16)).
  { intros m d h1 h2 h3. apply (ap_weak _ _ (u0 * 1.5)); [|ulra]. apply lit_ap; [exact h1|exact h2|exact h3|okb]. }
  unfold polyB.
  assert (L : forall m, (m <> 0)%Z -> Rabs (IZR m / 100000000) <= 1.5 -> ap (b64_lit m 100000000) (IZR m / 100000000) (2 / 10 ^ 16)) by (intros m h1 h2; apply LT; auto; lia).
  assert (S9 := L 17087277%Z ltac:(lia) ltac:(bd)).
  pose proof (hst _ _ _ _ _ _ _ _ _ 0.2 0.83 At S9 (L (-82215223)%Z ltac:(lia) ltac:(bd)) BT ltac:(bd) ltac:(bd) ltac:(lra) ltac:(lra) ltac:(lra) ltac:(lra) ltac:(lra)) as [S8 B8].
  apply (ap_weak _ _ _ (2 / 10 ^ 15)) in S8; [|lra].
  pose proof (hst _ _ _ _ _ _ _ _ _ 1.03 1.5 At S8 (L 148851587%Z ltac:(lia) ltac:(bd)) BT ltac:(lra) ltac:(bd) ltac:(lra) ltac:(lra) ltac:(lra) ltac:(lra) ltac:(lra)) as [S7 B7].
  apply (ap_weak _ _ _ (6 / 10 ^ 15)) in S7; [|lra].
  pose proof (hst _ _ _ _ _ _ _ _ _ 2.53 1.14 At S7 (L (-113520398)%Z ltac:(lia) ltac:(bd)) BT ltac:(lra) ltac:(bd) ltac:(lra) ltac:(lra) ltac:(lra) ltac:(lra) ltac:(lra)) as [S6 B6].
  apply (ap_weak _ _ _ (15 / 10 ^ 15)) in S6; [|lra].
  pose proof (hst _ _ _ _ _ _ _ _ _ 3.67 0.28 At S6 (L 27886807%Z ltac:(lia) ltac:(bd)) BT ltac:(lra) ltac:(bd) ltac:(lra) ltac:(lra) ltac:(lra) ltac:(lra) ltac:(lra)) as [S5 B5].
  apply (ap_weak _ _ _ (28 / 10 ^ 15)) in S5; [|lra].
  pose proof (hst _ _ _ _ _ _ _ _ _ 3.95 0.19 At S5 (L (-18628806)%Z ltac:(lia) ltac:(bd)) BT ltac:(lra) ltac:(bd) ltac:(lra) ltac:(lra) ltac:(lra) ltac:(lra) ltac:(lra)) as [S4 B4].
  apply (ap_weak _ _ _ (42 / 10 ^ 15)) in S4; [|lra].
  pose proof (hst _ _ _ _ _ _ _ _ _ 4.14 0.1 At S4 (L 9678418%Z ltac:(lia) ltac:(bd)) BT ltac:(lra) ltac:(bd) ltac:(lra) ltac:(lra) ltac:(lra) ltac:(lra) ltac:(lra)) as [S3 B3].
  apply (ap_weak _ _ _ (56 / 10 ^ 15)) in S3; [|lra].
  pose proof (hst _ _ _ _ _ _ _ _ _ 4.24 0.38 At S3 (L 37409196%Z ltac:(lia) ltac:(bd)) BT ltac:(lra) ltac:(bd) ltac:(lra) ltac:(lra) ltac:(lra) ltac:(lra) ltac:(lra)) as [S2 B2].
  apply (ap_weak _ _ _ (71 / 10 ^ 15)) in S2; [|lra].
  pose proof (hst _ _ _ _ _ _ _ _ _ 4.62 1.01 At S2 (L 100002368%Z ltac:(lia) ltac:(bd)) BT ltac:(lra) ltac:(bd) ltac:(lra) ltac:(lra) ltac:(lra) ltac:(lra) ltac:(lra)) as [S1 B1].
  apply (ap_weak _ _ _ (87 / 10 ^ 15)) in S1; [|lra].
  assert (ZZ : 0 <= Z * Z <= 342.25) by nra.
  pose proof (ap_fma _ _ _ _ _ _ _ _ _ 18.5 18.5 350 (ap_opp _ _ _ Az) Az (L (-126551223)%Z ltac:(lia) ltac:(bd)) ltac:(rewrite Rabs_Ropp, Rabs_pos_eq; lra) ltac:(rewrite Rabs_pos_eq; lra)
    ltac:(apply Rle_trans with (345 + (18.5 * 0 + 18.5 * 0 + 0 * 0 + 2 / 10 ^ 16)); [apply Rplus_le_compat_r; apply Rabs_le; lra|lra]) ltac:(okb)) as S0.
  apply (ap_weak _ _ _ (43 / 10 ^ 15)) in S0; [|lra].
  pose proof (hst _ _ _ _ _ _ _ _ _ 5.63 344 At S1 S0 BT ltac:(lra) ltac:(apply Rabs_le; lra) ltac:(lra) ltac:(lra) ltac:(lra) ltac:(lra) ltac:(lra)) as [S B].
  match type of S with ap _ ?r _ => assert (E : r = nr_P T - Z ^ 2) by (unfold nr_P; lra) end.
  rewrite E in S, B. split; [apply (ap_weak _ _ _ _ S); lra|lra].
Qed.
Definition erfcB (L : Libm) (x : B64) : B64 :=
  let z := Babs x in
  let t := Bdiv mode_NE (b64_of_Z 1) (Bplus mode_NE (b64_of_Z 1) (Bdiv mode_NE z (b64_of_Z 2))) in
  let r := Bmult mode_NE t (l_exp L (polyB t z)) in
  if Bltb x (b64_of_Z 0) then Bminus mode_NE (b64_of_Z 2) r else r.
Lemma fold_erfc L x : erfc (A := B64A L) x = erfcB L x. Proof. reflexivity. Qed.
Lemma erfc_rp L x : exp_accurate L -> fin x -> Rabs (ext x) <= 18.5 -> rp (erfcB L x) (nr_erfc (ext x)) (3 / 10 ^ 13) /\ / 10 ^ 182 <= nr_erfc (ext x) < 2.
Proof.
  intros HE F BX. pose proof (abs_ap x F) as Az. pose proof (Rabs_pos (ext x)) as Z0. set (Z := Rabs (ext x)) in *. unfold erfcB. set (z := Babs x) in *.
  assert (U0 : 0 < u0 <= 12 / 10 ^ 17) by ulra.
  step (ap_div _ _ _ _ _ _ 2 9.25 9.26 Az (ap_Z 2 ltac:(vm_compute; discriminate)) ltac:(lra) ltac:(bd) ltac:(bd) ltac:(lra) ltac:(okb)) (112 / 10 ^ 17).
  step (ap_add _ _ _ _ _ _ 10.26 (ap_Z 1 ltac:(vm_compute; discriminate)) S ltac:(rewrite Rabs_pos_eq by lra; lra) ltac:(okb)) (24 / 10 ^ 16).
  set (T := / (1 + Z / 2)). assert (BT : / 10.25 <= T <= 1) by (unfold T; split; [apply Rinv_le_contravar; lra|rewrite <- Rinv_1; apply Rinv_le_contravar; lra]).
  assert (ET : 1 / (1 + Z / 2) = T) by (unfold T, Rdiv; ring).
  pose proof (ap_div _ _ _ _ _ _ 0.99 1 1.01 (ap_Z 1 ltac:(vm_compute; discriminate)) S0 ltac:(lra) ltac:(rewrite Rabs_pos_eq; lra) ltac:(rewrite ET, Rabs_pos_eq; lra) ltac:(lra) ltac:(okb)) as S1.
  rewrite ET in S1. apply (ap_weak _ _ _ (3 / 10 ^ 15)) in S1; [|ulra]. set (t := Bdiv mode_NE _ (Bplus _ _ _)) in *.
  destruct (poly_ap t z T Z S1 Az ltac:(lra) ltac:(lra)) as [SP BP]. destruct (exp_ap L _ _ _ HE SP ltac:(lra) ltac:(lra)) as [SE BE].
  set (E := exp (nr_P T - Z ^ 2)) in *. assert (I180 : 0 < / 10 ^ 180) by (apply Rinv_0_lt_compat, pow_lt; lra).
  assert (RE : rp (l_exp L (polyB t z)) E (21 / 10 ^ 14)) by (apply (ap_rp _ _ _ _ SE); [lra|apply Rmult_le_compat_r; lra]).
  assert (RT : rp t T (4 / 10 ^ 14)) by (apply (ap_rp _ _ _ _ S1); lra).
  pose proof (nr_pos_range Z Z0) as NR. assert (EN : T * E = nr_pos Z) by reflexivity.
  assert (LO : / 10 ^ 182 <= nr_pos Z). { rewrite <- EN. replace (/ 10 ^ 182) with (/ 10 ^ 2 * / 10 ^ 180) by (rewrite <- Rinv_mult, <- pow_add; reflexivity). apply Rmult_le_compat; try lra. }
  assert (I190 : / 10 ^ 190 <= / 10 ^ 182) by (apply Rinv_le_contravar; [apply pow_lt; lra|apply Rle_pow; [lra|lia]]).
  assert (H190 : 2 <= 10 ^ 190) by (apply Rle_trans with (10 ^ 1); [lra|apply Rle_pow; [lra|lia]]).
  pose proof (rp_mul _ _ _ _ _ _ RT RE ltac:(lra) ltac:(lra) ltac:(rewrite EN; lra)) as R. rewrite EN in R. apply (rp_weak _ _ _ (26 / 10 ^ 14)) in R; [|lra].
  set (r := Bmult _ t _) in *. clearbody r.
  rewrite Bltb_ext by (apply fin_nn; auto; apply (ap_Z 0); vm_compute; discriminate).
  assert (E0 : ext (b64_of_Z 0) = 0) by (apply (proj2 (ext_ofZ 0 ltac:(vm_compute; discriminate)))). rewrite E0. unfold nr_erfc.
  destruct (Rlt_dec (ext x) 0) as [N|N].
  - rewrite Rlt_bool_true by auto. assert (EZ : - ext x = Z) by (unfold Z; rewrite Rabs_left; auto). rewrite EZ. split; [|lra].
    pose proof (rp_ap _ _ _ R) as Ar. pose proof (ap_sub _ _ _ _ _ _ 2 (ap_Z 2 ltac:(vm_compute; discriminate)) Ar ltac:(rewrite Rabs_pos_eq by lra; lra) ltac:(okb)) as Q.
    apply (ap_rp _ _ _ _ Q); lra.
  - rewrite Rlt_bool_false by lra. assert (EZ : ext x = Z) by (unfold Z; rewrite Rabs_pos_eq; lra). rewrite EZ. split; [|lra]. apply (rp_weak _ _ _ _ R). lra.
Qed.

(** ** cdf and pdf *)
Lemma sqrt2_15 : 1.414213562373095 < sqrt 2 < 1.4142135623730954.
Proof.
  assert (Q : sqrt 2 * sqrt 2 = 2) by (apply sqrt_sqrt; lra). pose proof (sqrt_pos 2). split; apply Rnot_le_lt; intros H1; nra.
Qed.
Lemma b64_val m e n : (Z.abs m < 2 ^ 53)%Z -> (e = - Z.of_nat n)%Z -> (n <= 60)%nat -> m <> 0%Z -> Rabs (IZR m / 2 ^ n) <= 1000 -> fin (b64 m e) /\ ext (b64 m e) = IZR m / 2 ^ n.
Proof.
  intros Hm -> Hn M0 HB. destruct (ext_b64 m (- Z.of_nat n)) as [N E].
  assert (EF : ext (b64 m (- Z.of_nat n)) = IZR m / 2 ^ n).
  { rewrite E. rewrite rnd_id.
    - unfold F2R. simpl Fnum. simpl Fexp. rewrite bpow_nat. reflexivity.
    - apply generic_format_F2R. intros _. unfold cexp. simpl Fexp. rewrite (mag_F2R_Zdigits radix2 m (- Z.of_nat n)) by exact M0.
      assert (D : (Zdigits radix2 m <= 53)%Z) by (apply Zdigits_le_Zpower; exact Hm). unfold fexp64, FLT_exp, SpecFloat.fexp, SpecFloat.emin. lia.
    - unfold F2R. simpl Fnum. simpl Fexp. rewrite bpow_nat. eapply Rle_trans; [exact HB|].
      apply Rle_trans with (bpow radix2 10); [simpl; lra|]. apply bpow_le. lia. }
  split; [|exact EF]. apply fin_iff; [exact N|]. rewrite EF. apply Rle_lt_trans with (1 := HB). apply Rlt_trans with (bpow radix2 10); [simpl; lra|]. apply bpow_lt. lia.
Qed.
Lemma sqrt2_ap L : ap (fsqrt2 (Arith := B64A L)) (sqrt 2) (5 / 10 ^ 16).
Proof.
  change (fsqrt2 (Arith := B64A L)) with (b64 6369051672525773 (-52)). destruct (b64_val 6369051672525773 (-52) 52 ltac:(lia) ltac:(lia) ltac:(lia) ltac:(lia) ltac:(rewrite Rabs_pos_eq; lra)) as [F E].
  split; [exact F|]. rewrite E. pose proof sqrt2_15. apply Rabs_le. lra.
Qed.
Definition cdfB (L : Libm) (x : B64) : B64 :=
  Bmult mode_NE (b64_lit 5 10) (erfcB L (Bdiv mode_NE (Bopp (Bminus mode_NE x (b64_of_Z 0))) (Bmult mode_NE (b64_of_Z 1) (fsqrt2 (Arith := B64A L))))).
Lemma fold_cdf L x : cdf (A := B64A L) x (fofZ (Arith := B64A L) 0) (fofZ (Arith := B64A L) 1) = cdfB L x. Proof. reflexivity. Qed.
Lemma Phi_low x : -26 <= x -> / 10 ^ 160 <= Phi x.
Proof.
  intros H. assert (P : 0 < 10 ^ 156) by (apply pow_lt; lra). pose proof (Phi_rel x) as R. apply Rabs_le_inv in R.
  assert (N : 1.1 * / 10 ^ 160 <= Ncdf x); [|lra].
  apply Rle_trans with (Ncdf (- 26)); [|apply Ncdf_mono; auto]. replace (Ncdf (-26)) with (Ntl 26) by (rewrite <- Ntl_neg; f_equal; lra).
  pose proof (mills_low 26 ltac:(lra)) as M. pose proof (phi_far 26 ltac:(lra)) as F.
  assert (0.038 * phi 26 <= Ntl 26) by (pose proof (phi_pos 26); lra).
  change 160%nat with (4 + 156)%nat. rewrite pow_add, Rinv_mult. assert (0 < / 10 ^ 156) by (apply Rinv_0_lt_compat; auto). unfold Rdiv in F. lra.
Qed.
Lemma cdf_rp L x : exp_accurate L -> fin x -> Rabs (ext x) <= 25.5 ->
  exists xi, Rabs (xi - ext x) <= 2 / 10 ^ 14 /\ rp (cdfB L x) (Phi xi) (31 / 10 ^ 14) /\ / 10 ^ 160 <= Phi xi < 1.
Proof.
  intros HE F B. set (X := ext x) in *. apply Rabs_le_inv in B. pose proof sqrt2_15 as S2. unfold cdfB.
  step (ap_sub _ _ _ _ _ _ 26 (ap_self x F) (ap_Z 0 ltac:(vm_compute; discriminate)) ltac:(fold X; rewrite !Rplus_0_r; apply Rabs_le; lra) ltac:(okb)) (32 / 10 ^ 16).
  fold X in S. rewrite Rminus_0_r in S. pose proof (ap_opp _ _ _ S) as S'.
  pose proof (ap_mul _ _ _ _ _ _ 1 1.42 1.43 (ap_Z 1 ltac:(vm_compute; discriminate)) (sqrt2_ap L) ltac:(bd) ltac:(bd) ltac:(lra) ltac:(okb)) as T. rewrite Rmult_1_l in T. apply (ap_weak _ _ _ (7 / 10 ^ 16)) in T; [|ulra].
  assert (IS : / sqrt 2 * sqrt 2 = 1) by (apply Rinv_l; lra). assert (IS' : 0.7071 < / sqrt 2 < 0.7072) by (split; apply Rmult_lt_reg_r with (sqrt 2); lra).
  assert (BQ : Rabs (- X / sqrt 2) <= 18.1) by (unfold Rdiv; apply Rabs_le; split; nra).
  step (ap_div _ _ _ _ _ _ 1.414 18.1 18.2 S' T ltac:(lra) ltac:(rewrite Rabs_pos_eq; lra) BQ ltac:(lra) ltac:(okb)) (14 / 10 ^ 15).
  set (a := Bdiv _ _ _) in *. pose proof (ap_int _ _ _ S0) as IA. apply Rabs_le_inv in BQ.
  destruct (erfc_rp L a HE (ap_fin _ _ _ S0) ltac:(apply Rabs_le; lra)) as [R BR]. exists (- (sqrt 2 * ext a)).
  assert (EP : Phi (- (sqrt 2 * ext a)) = 1 / 2 * nr_erfc (ext a)). { unfold Phi. replace (- - (sqrt 2 * ext a) / sqrt 2) with (ext a) by (field; lra). field. }
  assert (BX : Rabs (- (sqrt 2 * ext a) - X) <= 2 / 10 ^ 14).
  { replace X with (- (sqrt 2 * (- X / sqrt 2))) by (field; lra). apply Rabs_le. split; nra. }
  split; [exact BX|]. apply Rabs_le_inv in BX. pose proof (Phi_low (- (sqrt 2 * ext a)) ltac:(lra)) as PL. pose proof (Phi_range (- (sqrt 2 * ext a))) as PR. rewrite EP in *. split; [|lra].
  assert (I190 : / 10 ^ 190 <= / 10 ^ 160) by (apply Rinv_le_contravar; [apply pow_lt; lra|apply Rle_pow; [lra|lia]]).
  assert (H190 : 2 <= 10 ^ 190) by (apply Rle_trans with (10 ^ 1); [lra|apply Rle_pow; [lra|lia]]).
  assert (H : rp (b64_lit 5 10) (1 / 2) 0) by (apply (ap_rp _ _ 0); [apply half_ap|lra|lra]).
  apply (rp_weak _ _ _ _ (rp_mul _ _ _ _ _ _ H R ltac:(lra) ltac:(lra) ltac:(lra))). lra.
Qed.
Definition pdfB (L : Libm) (x : B64) : B64 :=
  let y := Bdiv mode_NE (Bminus mode_NE x (b64_of_Z 0)) (Babs (b64_of_Z 1)) in
  Bmult mode_NE (Bdiv mode_NE (b64_of_Z 1) (Bmult mode_NE (Bsqrt mode_NE (Bmult mode_NE (b64_of_Z 2) (fpi (Arith := B64A L)))) (Babs (b64_of_Z 1))))
    (l_exp L (Bopp (Bdiv mode_NE (Bmult mode_NE y y) (b64_of_Z 2)))).
Lemma fold_pdf L x : pdf (A := B64A L) x (fofZ (Arith := B64A L) 0) (fofZ (Arith := B64A L) 1) = pdfB L x. Proof. reflexivity. Qed.
Lemma phi_exp x : phi x = / sqrt (2 * PI) * exp (- (x * x / 2)).
Proof. unfold phi. replace (x ^ 2) with (x * x) by ring. unfold Rdiv. ring. Qed.
Lemma pdf_rp L x : exp_accurate L -> fin x -> Rabs (ext x) <= 25.5 -> rp (pdfB L x) (phi (ext x)) (3 / 10 ^ 13) /\ / 10 ^ 157 <= phi (ext x) < 1.
Proof.
  intros HE F B. set (X := ext x) in *. apply Rabs_le_inv in B. unfold pdfB. pose proof PI_15 as HP.
  step (ap_sub _ _ _ _ _ _ 26 (ap_self x F) (ap_Z 0 ltac:(vm_compute; discriminate)) ltac:(fold X; rewrite !Rplus_0_r; apply Rabs_le; lra) ltac:(okb)) (32 / 10 ^ 16).
  fold X in S. rewrite Rminus_0_r in S.
  assert (A1 : ap (Babs (b64_of_Z 1)) 1 0). { destruct (ext_ofZ 1 ltac:(vm_compute; discriminate)) as [F1 E1]. pose proof (abs_ap _ F1) as Q. rewrite E1 in Q. rewrite Rabs_pos_eq in Q by lra. exact Q. }
  pose proof (ap_div _ _ _ _ _ _ 1 26 26.1 S A1 ltac:(lra) ltac:(rewrite Rabs_pos_eq; lra) ltac:(apply Rabs_le; lra) ltac:(lra) ltac:(okb)) as S1.
  replace (X / 1) with X in S1 by field. apply (ap_weak _ _ _ (65 / 10 ^ 16)) in S1; [|ulra]. set (y := Bdiv _ _ (Babs _)) in *. clearbody y.
  step (ap_mul _ _ _ _ _ _ 26 26 680 S1 S1 ltac:(apply Rabs_le; lra) ltac:(apply Rabs_le; lra) ltac:(lra) ltac:(okb)) (43 / 10 ^ 14).
  assert (XX : 0 <= X * X <= 650.25) by nra.
  step (ap_div _ _ _ _ _ _ 2 330 340 S0 (ap_Z 2 ltac:(vm_compute; discriminate)) ltac:(lra) ltac:(rewrite Rabs_pos_eq; lra) ltac:(apply Rabs_le; lra) ltac:(lra) ltac:(okb)) (26 / 10 ^ 14).
  destruct (exp_ap L _ _ _ HE (ap_opp _ _ _ S2) ltac:(apply Rabs_le; lra) ltac:(lra)) as [SE BE]. set (E := exp _) in *.
  assert (I180 : 0 < / 10 ^ 180) by (apply Rinv_0_lt_compat, pow_lt; lra).
  assert (RE : rp (l_exp L (Bopp (Bdiv mode_NE (Bmult mode_NE y y) (b64_of_Z 2)))) E (27 / 10 ^ 14)) by (apply (ap_rp _ _ _ _ SE); [lra|apply Rmult_le_compat_r; lra]).
  set (K := sqrt (2 * PI)). assert (KK : K * K = 2 * PI) by (apply sqrt_sqrt; lra). assert (K0 : 0 < K) by (apply sqrt_lt_R0; lra). assert (BK : 2.5 < K < 2.51) by (split; nra).
  step (ap_mul _ _ _ _ _ _ 2 3.15 6.4 (ap_Z 2 ltac:(vm_compute; discriminate)) (pi_ap L) ltac:(bd) ltac:(bd) ltac:(lra) ltac:(okb)) (28 / 10 ^ 16).
  step (ap_sqrt _ _ _ 2.5 2.51 2.52 S3 ltac:(lra) ltac:(fold K; lra) ltac:(fold K; lra) ltac:(lra) ltac:(lra) ltac:(okb)) (15 / 10 ^ 16). fold K in S4.
  pose proof (ap_mul _ _ _ _ _ _ 2.51 1 2.52 S4 A1 ltac:(bd) ltac:(bd) ltac:(lra) ltac:(okb)) as S5. rewrite Rmult_1_r in S5. apply (ap_weak _ _ _ (19 / 10 ^ 16)) in S5; [|ulra].
  assert (IK : 0.39 < / K < 0.4) by (split; apply Rmult_lt_reg_r with K; try rewrite Rinv_l; lra).
  assert (EK : 1 / K = / K) by (unfold Rdiv; ring).
  pose proof (ap_div _ _ _ _ _ _ 2.49 0.4 0.41 (ap_Z 1 ltac:(vm_compute; discriminate)) S5 ltac:(lra) ltac:(rewrite Rabs_pos_eq; lra) ltac:(rewrite EK; bd) ltac:(lra) ltac:(okb)) as S6. rewrite EK in S6.
  match type of S6 with ap ?q _ _ => assert (RK : rp q (/ K) (1 / 10 ^ 15)) by (apply (ap_rp _ _ _ _ S6); ulra) end.
  assert (PX : phi X = / K * E) by (unfold K, E; apply phi_exp).
  assert (PL : / 10 ^ 157 <= phi X).
  { pose proof (phi_far X ltac:(replace (X ^ 2) with (X * X) by ring; lra)) as Q. change 157%nat with (1 + 156)%nat. rewrite pow_add, Rinv_mult. assert (0 < / 10 ^ 156) by (apply Rinv_0_lt_compat, pow_lt; lra). unfold Rdiv in Q. lra. }
  assert (PU : phi X < 1). { rewrite PX. assert (E <= 1). { unfold E. rewrite <- exp_0. apply exp_le. lra. } nra. }
  split; [|lra]. rewrite PX in *.
  assert (I190 : / 10 ^ 190 <= / 10 ^ 157) by (apply Rinv_le_contravar; [apply pow_lt; lra|apply Rle_pow; [lra|lia]]).
  assert (H190 : 2 <= 10 ^ 190) by (apply Rle_trans with (10 ^ 1); [lra|apply Rle_pow; [lra|lia]]).
  apply (rp_weak _ _ _ _ (rp_mul _ _ _ _ _ _ RK RE ltac:(lra) ltac:(lra) ltac:(lra))). lra.
Qed.

(** ** The corrections of a decided game *)
Definition tinyB : B64 := b64_lit 2222758749 (10 ^ 171).
Definition vB (L : Libm) (t e : B64) : B64 :=
  let n := cdfB L (Bminus mode_NE t e) in
  if Bltb n tinyB then Bplus mode_NE (Bopp t) e else Bdiv mode_NE (pdfB L (Bminus mode_NE t e)) n.
Definition wB (L : Libm) (t e : B64) : B64 :=
  let n := cdfB L (Bminus mode_NE t e) in
  if Bltb n tinyB then (if Bltb t (b64_of_Z 0) then b64_of_Z 1 else b64_of_Z 0)
  else Bmult mode_NE (vB L t e) (Bminus mode_NE (Bplus mode_NE (vB L t e) t) e).
Lemma fold_v L d m c : v_non_draw (A := B64A L) d m c = vB L (Bdiv mode_NE d c) (Bdiv mode_NE m c). Proof. reflexivity. Qed.
Lemma fold_w L d m c : w_non_draw (A := B64A L) d m c = wB L (Bdiv mode_NE d c) (Bdiv mode_NE m c). Proof. reflexivity. Qed.

Lemma tiny_ap : fin tinyB /\ ext tinyB <= 2 / 10 ^ 161.
Proof.
  assert (P : 0 < 10 ^ 161) by (apply pow_lt; lra). assert (I : 0 < / 10 ^ 161) by (apply Rinv_0_lt_compat; auto). assert (PT : 0 < tiny) by apply tiny_small. pose proof tiny_le as TL.
  assert (E : IZR 2222758749 / IZR (10 ^ 171) = tiny) by (unfold tiny; rewrite pow_IZR; reflexivity).
  assert (H : ap tinyB (IZR 2222758749 / IZR (10 ^ 171)) (u0 * (1 / 10 ^ 161))).
  { apply lit_ap; [lia|reflexivity|rewrite E, Rabs_pos_eq; lra|]. unfold Rdiv. rewrite Rmult_1_l. split; [apply Rinv_le_contravar; [auto|apply Rle_pow; [lra|lia]]|].
    apply Rle_trans with 1; [|apply pow_R1_Rle; lra]. rewrite <- Rinv_1. apply Rinv_le_contravar; [lra|apply pow_R1_Rle; lra]. }
  rewrite E in H. pose proof (ap_int _ _ _ H) as J. split; [apply H|]. unfold Rdiv in *. unfold u0 in J. lra.
Qed.
Lemma phi_shift a b : Rabs (a - b) <= 3 / 10 ^ 14 -> Rabs a <= 25.6 -> Rabs (phi b - phi a) <= 8 / 10 ^ 13 * phi a.
Proof.
  intros H B. apply Rabs_le_inv in B. pose proof (phi_pos a) as P. assert (E : phi b = phi a * exp ((a - b) * (a + b) / 2)).
  { rewrite !phi_exp, Rmult_assoc, <- exp_plus. f_equal. f_equal. field. }
  apply Rabs_le_inv in H. assert (D : Rabs ((a - b) * (a + b) / 2) <= 78 / 10 ^ 14) by (apply Rabs_le; nra).
  pose proof (exp_close _ _ D ltac:(lra)) as EC. rewrite E. replace (phi a * exp ((a - b) * (a + b) / 2) - phi a) with ((exp ((a - b) * (a + b) / 2) - 1) * phi a) by ring.
  rewrite Rabs_mult, (Rabs_pos_eq (phi a)) by lra. apply Rmult_le_compat_r; lra.
Qed.
Lemma vw_ap L t e : exp_accurate L -> fin t -> fin e -> Rabs (ext t - ext e) <= 25.4 -> Rabs (ext t) <= 50 ->
  exists xi, Rabs (xi - (ext t - ext e)) <= 3 / 10 ^ 14 /\ let V := phi xi / Phi xi in
    rp (vB L t e) V (2 / 10 ^ 12) /\ ap (wB L t e) (V * (V + xi)) (5 / 10 ^ 9) /\ 0 < V <= 27 /\ 0 < V * (V + xi) < 1.
Proof.
  intros HE Ft Fe BX BT. set (T := ext t) in *. set (E := ext e) in *.
  step (ap_sub _ _ _ _ _ _ 26 (ap_self t Ft) (ap_self e Fe) ltac:(fold T E; lra) ltac:(okb)) (32 / 10 ^ 16). fold T E in S.
  unfold wB, vB. set (x := Bminus mode_NE t e) in *. pose proof (ap_int _ _ _ S) as IX. apply Rabs_le_inv in BX, BT.
  assert (BX' : Rabs (ext x) <= 25.5) by (apply Rabs_le; lra). pose proof (ap_fin _ _ _ S) as Fx.
  destruct (cdf_rp L x HE Fx BX') as (xi & D & RC & BC). destruct (pdf_rp L x HE Fx BX') as [RP BP].
  exists xi. apply Rabs_le_inv in D. split; [apply Rabs_le; lra|]. cbv zeta.
  assert (I160 : 0 < / 10 ^ 160) by (apply Rinv_0_lt_compat, pow_lt; lra).
  assert (P161 : 10 * / 10 ^ 161 = / 10 ^ 160) by (change 161%nat with (1 + 160)%nat; rewrite pow_add; field; apply pow_nonzero; lra).
  destruct tiny_ap as [Ftn Etn]. pose proof (rp_ap _ _ _ RC) as AC. pose proof (ap_int _ _ _ AC) as IC.
  assert (HB : Bltb (cdfB L x) tinyB = false). { rewrite Bltb_ext by (apply fin_nn; [apply AC||exact Ftn]). apply Rlt_bool_false. unfold Rdiv in Etn. lra. }
  rewrite !HB. assert (PC : 0 < Phi xi) by lra. assert (PH : 0 < phi xi) by apply phi_pos. set (V := phi xi / Phi xi).
  assert (V0 : 0 < V) by (unfold V, Rdiv; apply Rmult_lt_0_compat; auto; apply Rinv_0_lt_compat; auto).
  destruct (win_close xi ltac:(lra)) as [WC _]. cbv zeta in WC. fold V in WC. apply Rabs_le_inv in WC.
  assert (HZ : hz (- xi) <= 26.5). { destruct (Rle_dec xi 0); [pose proof (hz_up1 (- xi) ltac:(lra)); lra|pose proof (hz_neg (- xi) ltac:(lra)); lra]. }
  assert (V27 : V <= 27) by (pose proof (hz_pos (- xi)); lra).
  assert (WR : 0 < V * (V + xi) < 1).
  { pose proof (Phi_not_tiny xi ltac:(lra)) as NT. pose proof (wwin_range xi 0) as W. rewrite Rminus_0_r in W. specialize (W NT). unfold wwin, vwin in W. rewrite Rminus_0_r in W.
    destruct (Rlt_dec (Phi xi) tiny) as [N|_]; [lra|]. fold V in W. rewrite Rminus_0_r in W. exact W. }
  pose proof (phi_shift xi (ext x) ltac:(apply Rabs_le; lra) ltac:(apply Rabs_le; lra)) as PS.
  pose proof (rp_trans _ _ _ _ _ RP PH PS ltac:(lra)) as RP'. apply (rp_weak _ _ _ (12 / 10 ^ 13)) in RP'; [|lra].
  assert (VL : / 10 ^ 190 <= V). { apply Rle_trans with (phi xi); [|].
    - assert (X26 : -25.6 <= xi <= 25.6) by lra. assert (X2 : xi ^ 2 <= 680) by (clear - X26; nra). pose proof (phi_far xi X2) as Q. apply Rle_trans with (2 := Q). change 190%nat with (34 + 156)%nat. rewrite pow_add, Rinv_mult. assert (0 < / 10 ^ 156) by (apply Rinv_0_lt_compat, pow_lt; lra). unfold Rdiv. lra.
    - unfold V. apply Rmult_le_reg_r with (Phi xi); auto. unfold Rdiv. rewrite Rmult_assoc, Rinv_l by lra. apply Rmult_le_compat_l; lra. }
  assert (VU : V <= 10 ^ 190) by (apply Rle_trans with (10 ^ 2); [lra|apply Rle_pow; [lra|lia]]).
  pose proof (rp_div _ _ _ _ _ _ RP' RC ltac:(lra) ltac:(lra) (conj VL VU)) as RV. fold V in RV. apply (rp_weak _ _ _ (2 / 10 ^ 12)) in RV; [|lra].
  split; [exact RV|]. split; [|split; auto]. set (v := Bdiv _ (pdfB L x) _) in *. clearbody v. pose proof (rp_ap _ _ _ RV) as AV. apply (ap_weak _ _ _ (54 / 10 ^ 12)) in AV; [|lra].
  step (ap_add _ _ _ _ _ _ 80 AV (ap_self t Ft) ltac:(fold T; apply Rle_trans with (77 + (54 / 10 ^ 12 + 0)); [apply Rplus_le_compat_r; apply Rabs_le; lra|lra]) ltac:(okb)) (55 / 10 ^ 12).
  fold T in S0.
  step (ap_sub _ _ _ _ _ _ 80 S0 (ap_self e Fe) ltac:(fold E; apply Rle_trans with (77 + (55 / 10 ^ 12 + 0)); [apply Rplus_le_compat_r; apply Rabs_le; lra|lra]) ltac:(okb)) (56 / 10 ^ 12).
  fold E in S1. assert (S2 : ap (Bminus mode_NE (Bplus mode_NE v t) e) (V + xi) (57 / 10 ^ 12)).
  { destruct S1 as [F1 H1]. split; [exact F1|]. apply Rabs_le_inv in H1. apply Rabs_le. lra. }
  step (ap_mul _ _ _ _ _ _ 27 53 1500 AV S2 ltac:(rewrite Rabs_pos_eq; lra) ltac:(apply Rabs_le; lra) ltac:(lra) ltac:(okb)) (5 / 10 ^ 9). exact S3.
Qed.
