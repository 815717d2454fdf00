(** Accuracy in double precision: DWZ games and rating periods. *)
From Coq Require Import ZArith NArith List Bool Reals Lra Lia Psatz.
From Flocq Require Import Core.Core IEEE754.BinarySingleNaN.
From Verif Require Import Arith XR B64 ModelLib ModelDwz Spec SpecB64 SpecAcc SpecAcc2 Tac MathB64 ProofB64 ProofB64b ProofB64c MathB64b ProofB64f MathAcc MathAcc2 MathTSAcc MathTSNorm2 ProofDwz ProofAcc ProofAcc2 ProofAcc3 ProofAccDwz.
Import ListNotations.
Local Open Scope R_scope.
#[local] Opaque Bplus Bminus Bmult Bdiv Bfma Bsqrt Bopp Babs b64_of_Z b64_lit.

(** ** The expected score *)
Definition dxB (L : Libm) (r1 r2 : B64) : B64 :=
  Bdiv mode_NE one64 (Bplus mode_NE one64 (l_pow L (b64_of_Z 10) (Bmult mode_NE (Bopp (Bdiv mode_NE one64 (b64_of_Z 400))) (Bminus mode_NE r1 r2)))).
Lemma fold_dx L r1 i1 a1 r2 i2 a2 : fst (dwz_expected_score (A := B64A L) (mkDwz r1 i1 a1) (mkDwz r2 i2 a2)) = dxB L r1 r2. Proof. reflexivity. Qed.
Lemma dx_ap L r1 r2 R1 R2 : pow10_accurate L -> ap r1 R1 0 -> ap r2 R2 0 -> 0 <= R1 <= 4000 -> 0 <= R2 <= 4000 ->
  in01 (dxB L r1 r2) /\ ap (dxB L r1 r2) (elo_E R1 R2) (4 / 10 ^ 15) /\ 0 <= elo_E R1 R2 <= 1.
Proof.
  intros HP A1 A2 B1 B2. assert (U0 : 0 < u0 <= 12 / 10 ^ 17) by ulra.
  step (ap_sub _ _ _ _ _ _ 4001 A1 A2 ltac:(apply Rle_trans with (4000 + (0 + 0)); [apply Rplus_le_compat_r; apply Rabs_le; lra|lra]) ltac:(okb)) (49 / 10 ^ 14).
  pose proof (ap_div _ _ _ _ _ _ 400 (/ 400) (/ 399) (ap_exact one64 1 fin_one64 ext_one64) (ap_Z 400 ltac:(vm_compute; discriminate)) ltac:(lra) ltac:(rewrite Rabs_pos_eq; lra) ltac:(rewrite Rabs_pos_eq; lra) ltac:(lra) ltac:(okb)) as D.
  apply (ap_weak _ _ _ (31 / 10 ^ 20)) in D; [|lra]. pose proof (ap_opp _ _ _ D) as D'.
  pose proof (ap_mul _ _ _ _ _ _ (/ 400) 4000 11 D' S ltac:(rewrite Rabs_Ropp, Rabs_pos_eq; lra) ltac:(apply Rabs_le; lra) ltac:(lra) ltac:(okb)) as M. apply (ap_weak _ _ _ (5 / 10 ^ 15)) in M; [|lra].
  assert (EY : - (1 / 400) * (R1 - R2) = (R2 - R1) / 400) by lra. rewrite EY in M.
  destruct (log_ap L _ _ _ HP M ltac:(lra) ltac:(apply Rabs_le; lra)) as [I A]. split; [exact I|]. assert (EE : elo_E R1 R2 = / (1 + Rpower 10 ((R2 - R1) / 400))) by (unfold elo_E; apply Rmult_1_l). rewrite EE. split; [apply (ap_weak _ _ _ _ A); lra|].
  pose proof (Rpower10_pos ((R2 - R1) / 400)) as P. split; [left; apply Rinv_0_lt_compat; lra|]. apply Rle_trans with (/ 1); [apply Rinv_le_contravar; lra|lra].
Qed.

(** ** The development coefficient *)
Definition jB (age : N) : B64 := if (age <=? 20)%N then b64_of_Z 5 else if (age <=? 25)%N then b64_of_Z 10 else b64_of_Z 15.
Definition p4B (r : B64) : B64 := let q := Bdiv mode_NE r (b64_of_Z 1000) in Bmult mode_NE (Bmult mode_NE q q) (Bmult mode_NE q q).
Definition aB (r : B64) (age : N) (s x : B64) : B64 := if (age <? 20)%N && Bleb x s then Bdiv mode_NE r (b64_of_Z 2000) else b64_of_Z 1.
Definition bB (L : Libm) (r s x : B64) : B64 :=
  if Bltb r (b64_of_Z 1300) && Bleb s x then l_expm1 L (Bdiv mode_NE (Bminus mode_NE (b64_of_Z 1300) r) (b64_of_Z 150)) else b64_of_Z 0.
Definition clampB (L : Libm) (b e : B64) (i : N) : B64 :=
  if Bleb e (b64_of_Z 5) then b64_of_Z 5
  else if Beqb b (b64_of_Z 0) then let c := b64_min (b64_of_Z 30) (Bmult mode_NE (b64_of_Z 5) (fofN (A := B64A L) i)) in if Bleb c e then c else e
  else if Bleb (b64_of_Z 150) e then b64_of_Z 150 else e.
Lemma fold_e L r age s x i : dwz_e_value (A := B64A L) r age s x i = clampB L (bB L r s x) (Bfma mode_NE (aB r age s x) (Bplus mode_NE (p4B r) (jB age)) (bB L r s x)) i.
Proof. reflexivity. Qed.
Lemma Rle_leb a b : Rle_bool a b = if Rle_dec a b then true else false.
Proof. destruct (Rle_dec a b) as [H|H]; [apply Rle_bool_true; exact H|apply Rle_bool_false; lra]. Qed.
(** the cap min(30, 5 i) is exact *)
Lemma cap_ap L i : (1 <= i)%N -> let c := b64_min (b64_of_Z 30) (Bmult mode_NE (b64_of_Z 5) (fofN (A := B64A L) i)) in
  ap c (Rmin 30 (5 * IZR (Z.of_N i))) 0.
Proof.
  intros Hi c. destruct (ext_ofZ 30 ltac:(vm_compute; discriminate)) as [F30 E30]. destruct (ext_ofZ 5 ltac:(vm_compute; discriminate)) as [F5 E5].
  pose proof (sp_mult_c (b64_of_Z 5) _ ltac:(apply sp_ofZ; lia) F5 ltac:(lra) (ofN_sp L i)) as SP. set (y := Bmult mode_NE (b64_of_Z 5) (fofN (A := B64A L) i)) in *.
  assert (Ny : nn y) by apply SP.
  assert (EY : (i <= 6)%N /\ ext y = 5 * IZR (Z.of_N i) \/ (6 <= i)%N /\ 30 <= ext y).
  { destruct (N.le_gt_cases i 6) as [C|C].
    - left. split; [exact C|]. destruct (ext_ofZ (Z.of_N i) ltac:(lia)) as [Fi Ei]. destruct (ext_mult (b64_of_Z 5) (b64_of_Z (Z.of_N i)) F5 Fi) as [_ M]. change y with (Bmult mode_NE (b64_of_Z 5) (b64_of_Z (Z.of_N i))). rewrite M, E5, Ei, <- mult_IZR. apply rnd_Z. lia.
    - right. split; [lia|]. unfold y. set (z := fofN (A := B64A L) i). assert (Z6 : nn z /\ 6 <= ext z). { destruct (ofN_ge0 L i) as [N _]. split; [exact N|]. unfold z, fofN in *. change (fofZ (Arith := B64A L) (Z.of_N i)) with (b64 (Z.of_N i) 0) in *. destruct (ext_b64 (Z.of_N i) 0) as [_ E]. rewrite E. rewrite <- (rnd_Z 6) by lia. apply rnd_le. unfold F2R. simpl Fnum. simpl Fexp. simpl bpow. rewrite Rmult_1_r. apply IZR_le. lia. }
      destruct Z6 as [Nz Z6]. destruct (is_finite z) eqn:Fz.
      + destruct (ext_mult (b64_of_Z 5) z F5 Fz) as [_ M]. rewrite M, E5. rewrite <- (rnd_Z 30) by lia. apply rnd_le. lra.
      + destruct z as [s|[|]| |s m e H]; try discriminate; [simpl in Z6; pose proof M64_pos; lra|]. change (30 <= ext (B754_infinity false : B64)). simpl. unfold M64. apply Rle_trans with (bpow radix2 10); [simpl; lra|apply bpow_le; lia]. }
  unfold c, b64_min. replace (is_nan (b64_of_Z 30)) with false by (symmetry; reflexivity). unfold nn in Ny. rewrite Ny. rewrite Bleb_ext by (try exact Ny; apply fin_nn, F30). rewrite E30.
  destruct EY as [[C EY]|[C EY]].
  - assert (I6 : 1 <= IZR (Z.of_N i) <= 6) by (split; apply IZR_le; lia). rewrite Rmin_right by lra. case Rle_bool_spec; intros Q.
    + apply ap_exact; [exact F30|]. lra.
    + assert (Fy : fin y) by (apply (fin_le y 10); [exact Ny|lia|rewrite EY; simpl; lra]). apply ap_exact; [exact Fy|exact EY].
  - rewrite Rle_bool_true by exact EY. assert (6 <= IZR (Z.of_N i)) by (apply IZR_le; lia). rewrite Rmin_left by lra. apply ap_exact; auto.
Qed.

(** below 1300 means well below 1300 *)
Lemma below1300 r : fin r -> 0 <= ext r < 1300 -> / 10 ^ 13 <= 1300 - ext r.
Proof.
  intros F H. destruct (Rlt_or_le (ext r) 1024) as [C|C]; [lra|]. rewrite (ext_fin r F) in *. pose proof (generic_format_B2R 53 1024 r) as G. unfold generic_format in G.
  assert (CE : cexp radix2 (SpecFloat.fexp 53 1024) (B2R r) = (-42)%Z).
  { unfold cexp. rewrite (mag_unique radix2 (B2R r) 11); [reflexivity|]. rewrite Rabs_pos_eq by lra. simpl bpow. lra. }
  rewrite CE in G. set (m := Ztrunc (scaled_mantissa radix2 (SpecFloat.fexp 53 1024) (B2R r))) in G. unfold F2R in G. cbn [Fnum Fexp] in G.
  assert (BE : bpow radix2 (-42) * 4398046511104 = 1) by (simpl bpow; lra). set (b := bpow radix2 (-42)) in *. assert (B0 : 0 < b) by (unfold b; apply bpow_gt_0).
  assert (E1 : 1300 = IZR (1300 * 4398046511104) * b) by (rewrite mult_IZR; lra).
  assert (HM : (m + 1 <= 1300 * 4398046511104)%Z). { apply Zlt_le_succ. apply lt_IZR. apply Rmult_lt_reg_r with b; [exact B0|]. rewrite <- E1, <- G. lra. }
  apply IZR_le in HM. rewrite plus_IZR in HM. apply Rle_trans with b; [lra|]. rewrite G, E1 at 1. apply Rle_trans with ((IZR m + 1) * b - IZR m * b); [lra|]. apply Rplus_le_compat_r. apply Rmult_le_compat_r; lra.
Qed.
Lemma exp_9 : exp 9 <= 9000.
Proof.
  assert (E0 : exp (1 / 64) <= 64 / 63) by (pose proof (exp_le_inv (1 / 64) ltac:(lra)); lra).
  assert (E1 : exp (9 / 16) <= 1.7635). { replace (9 / 16) with (INR 36 * (1 / 64)) by (rewrite INR_IZR_INZ; simpl; lra). rewrite exp_INR. apply Rle_trans with ((64 / 63) ^ 36); [apply pow_incr; pose proof (exp_pos (1 / 64)); lra|lra]. }
  replace 9 with (INR 16 * (9 / 16)) by (rewrite INR_IZR_INZ; simpl; lra). rewrite exp_INR. apply Rle_trans with (1.7635 ^ 16); [apply pow_incr; pose proof (exp_pos (9 / 16)); lra|lra].
Qed.
Lemma expm1_small t : Rabs t <= / 10 -> Rabs (exp t - 1) <= 1.2 * Rabs t.
Proof.
  intros B. pose proof (Rabs_le_inv _ _ B) as B'. pose proof (exp_ineq1_le t) as E1. pose proof (exp_le_inv t ltac:(lra)) as E2. pose proof (Rle_abs t). pose proof (Rle_abs (- t)) as R2. rewrite Rabs_Ropp in R2.
  assert (E3 : / (1 - t) = 1 + t + t * t * / (1 - t)) by (field; lra). assert (I : 0 < / (1 - t) <= 10 / 9) by (split; [apply Rinv_0_lt_compat; lra|apply Rle_trans with (/ (9 / 10)); [apply Rinv_le_contravar; lra|lra]]).
  assert (TT : t * t = Rabs t * Rabs t) by (rewrite <- Rabs_mult, Rabs_pos_eq by apply Rle_0_sqr; reflexivity). rewrite TT in E3.
  assert (Rabs t * Rabs t * / (1 - t) <= Rabs t * (/ 10) * (10 / 9)). { pose proof (Rabs_pos t). apply Rmult_le_compat; try lra; [apply Rmult_le_pos; lra|apply Rmult_le_compat_l; lra]. }
  apply Rabs_le. lra.
Qed.

(** the brake *)
Lemma brake_ap L r R : expm1_accurate L -> ap r R 0 -> 0 <= R < 1300 ->
  let b := l_expm1 L (Bdiv mode_NE (Bminus mode_NE (b64_of_Z 1300) r) (b64_of_Z 150)) in
  ap b (exp ((1300 - R) / 150) - 1) (4 / 10 ^ 11) /\ 0 < ext b /\ 0 <= exp ((1300 - R) / 150) - 1 <= 9000.
Proof.
  intros HE Ar BR b. assert (U0 : 0 < u0 <= 12 / 10 ^ 17) by ulra.
  assert (ER : ext r = R) by (destruct Ar as [_ A]; apply Rabs_le_inv in A; lra). pose proof (below1300 r (ap_fin _ _ _ Ar) ltac:(lra)) as G. rewrite ER in G.
  assert (AM : ap (Bminus mode_NE (b64_of_Z 1300) r) (1300 - R) (u0 * (1300 - R))).
  { rewrite <- (Rplus_0_l (u0 * _)). replace (0 + u0 * (1300 - R)) with (0 + 0 + u0 * (1300 - R)) by ring. apply ap_sub; [apply ap_Z; vm_compute; discriminate|exact Ar|rewrite Rabs_pos_eq; lra|okb]. }
  assert (BD : 1300 - R <= 1300) by lra. set (D := 1300 - R) in *. assert (uD : 0 < u0 * D <= 12 / 10 ^ 17 * D) by (split; [apply Rmult_lt_0_compat; lra|apply Rmult_le_compat_r; lra]).
  pose proof (ap_div _ _ _ _ _ _ 150 (D / 150) (D / 149) AM (ap_Z 150 ltac:(vm_compute; discriminate)) ltac:(lra) ltac:(rewrite Rabs_pos_eq; lra) ltac:(rewrite Rabs_pos_eq; lra) ltac:(lra) ltac:(okb)) as AX.
  apply (ap_weak _ _ _ (25 / 10 ^ 17 * (D / 150))) in AX; [|lra].
  set (x := Bdiv mode_NE _ _) in *. set (X := D / 150) in *. assert (BX : / 10 ^ 16 <= X <= 9) by (unfold X; lra). pose proof (ap_int _ _ _ AX) as IX.
  destruct (HE x (ap_fin _ _ _ AX)) as [Fb Ab]. { rewrite <- (ext_fin x (ap_fin _ _ _ AX)). lra. }
  rewrite <- (ext_fin x (ap_fin _ _ _ AX)) in Ab. fold b in Fb, Ab. rewrite <- (ext_fin b Fb) in Ab.
  assert (EX : 1 + X <= exp X <= 9000) by (split; [apply exp_ineq1_le|]; apply Rle_trans with (2 := exp_9); destruct (proj2 BX) as [Q|Q]; [left; apply exp_increasing; exact Q|rewrite Q; lra]).
  assert (Ex : 1 + ext x <= exp (ext x)) by apply exp_ineq1_le.
  assert (DX : Rabs (exp (ext x) - exp X) <= 11000 * Rabs (ext x - X)).
  { assert (B : Rabs (ext x - X) <= / 10) by (destruct AX as [_ Q]; lra). replace (exp (ext x)) with (exp X * exp (ext x - X)) by (rewrite <- exp_plus; f_equal; ring). replace (exp X * exp (ext x - X) - exp X) with (exp X * (exp (ext x - X) - 1)) by ring.
    rewrite Rabs_mult, (Rabs_pos_eq (exp X)) by (left; apply exp_pos). apply Rle_trans with (9000 * (1.2 * Rabs (ext x - X))); [apply Rmult_le_compat; [left; apply exp_pos|apply Rabs_pos|lra|]|pose proof (Rabs_pos (ext x - X)); lra].
    apply expm1_small. exact B. }
  destruct AX as [_ AX]. apply Rabs_le_inv in DX, Ab. split; [split; [exact Fb|apply Rabs_le]|repeat split]; lra.
Qed.

(** ** The development coefficient is accurate when the two comparisons are decided *)
Lemma j_ap age : ap (jB age) (dwz_J age) 0 /\ 5 <= dwz_J age <= 15.
Proof. unfold jB, dwz_J. destruct (age <=? 20)%N; [|destruct (age <=? 25)%N]; (split; [apply ap_Z; vm_compute; discriminate|lra]). Qed.
Lemma p4_ap r R : ap r R 0 -> 0 <= R <= 4000 -> ap (p4B r) ((R / 1000) ^ 4) (3 / 10 ^ 13) /\ 0 <= (R / 1000) ^ 4 <= 256.
Proof.
  intros Ar BR. assert (U0 : 0 < u0 <= 12 / 10 ^ 17) by ulra.
  pose proof (ap_div _ _ _ _ _ _ 1000 4 4 Ar (ap_Z 1000 ltac:(vm_compute; discriminate)) ltac:(lra) ltac:(rewrite Rabs_pos_eq; lra) ltac:(rewrite Rabs_pos_eq; lra) ltac:(lra) ltac:(okb)) as D.
  apply (ap_weak _ _ _ (5 / 10 ^ 16)) in D; [|lra]. set (q := R / 1000) in *. assert (BQ : 0 <= q <= 4) by (unfold q; lra).
  assert (Q2 : 0 <= q * q <= 16) by nra.
  pose proof (ap_mul _ _ _ _ _ _ 4 4 17 D D ltac:(bd) ltac:(bd) ltac:(lra) ltac:(okb)) as M. apply (ap_weak _ _ _ (7 / 10 ^ 15)) in M; [|lra].
  set (s := q * q) in *. assert (Q4 : 0 <= s * s <= 256) by nra.
  pose proof (ap_mul _ _ _ _ _ _ 16 16 257 M M ltac:(bd) ltac:(bd) ltac:(lra) ltac:(okb)) as M4. apply (ap_weak _ _ _ (3 / 10 ^ 13)) in M4; [|lra].
  replace (q ^ 4) with (s * s) by (unfold s; ring). split; auto.
Qed.
Lemma e_ap L r R0 age s S x W i d1 d2 : expm1_accurate L -> ap r R0 0 -> 0 <= R0 <= 4000 -> ap s S d1 -> ap x W d2 -> d1 + d2 < Rabs (S - W) -> (1 <= i)%N ->
  ap (dwz_e_value (A := B64A L) r age s x i) (dwz_E R0 age S W (IZR (Z.of_N i))) (/ 10 ^ 10).
Proof.
  intros HE Ar BR As Ax Hd Hi. rewrite fold_e. assert (U0 : 0 < u0 <= 12 / 10 ^ 17) by ulra.
  pose proof (ap_int _ _ _ As) as Is. pose proof (ap_int _ _ _ Ax) as Ix. pose proof (fin_nn _ (ap_fin _ _ _ As)) as Ns. pose proof (fin_nn _ (ap_fin _ _ _ Ax)) as Nx.
  assert (C1 : Bleb x s = if Rle_dec W S then true else false).
  { rewrite Bleb_ext by assumption. destruct (Rle_dec W S); [apply Rle_bool_true; rewrite Rabs_pos_eq in Hd by lra|apply Rle_bool_false; rewrite Rabs_left in Hd by lra]; lra. }
  assert (C2 : Bleb s x = if Rle_dec S W then true else false).
  { rewrite Bleb_ext by assumption. destruct (Rle_dec S W); [apply Rle_bool_true; rewrite Rabs_left1 in Hd by lra|apply Rle_bool_false; rewrite Rabs_pos_eq in Hd by lra]; lra. }
  destruct (j_ap age) as [Aj Bj]. destruct (p4_ap r R0 Ar BR) as [A4 B4].
  pose proof (ap_add _ _ _ _ _ _ 300 A4 Aj ltac:(rewrite Rabs_pos_eq; lra) ltac:(okb)) as A0. apply (ap_weak _ _ _ (4 / 10 ^ 13)) in A0; [|lra].
  set (e0 := Bplus mode_NE (p4B r) (jB age)) in *. set (E0 := (R0 / 1000) ^ 4 + dwz_J age) in *. assert (BE0 : 0 <= E0 <= 271) by (unfold E0; lra).
  assert (Aa : ap (aB r age s x) (dwz_acc R0 age S W) (/ 10 ^ 15) /\ 0 <= dwz_acc R0 age S W <= 2).
  { assert (A1 : ap (b64_of_Z 1) 1 (/ 10 ^ 15)) by (apply (ap_weak _ _ 0); [apply (ap_Z 1); vm_compute; discriminate|lra]).
    unfold aB, dwz_acc. rewrite C1. destruct (age <? 20)%N; cbn [andb]; [|split; [exact A1|lra]]. destruct (Rle_dec W S); [|split; [exact A1|lra]]. split; [|lra].
    pose proof (ap_div _ _ _ _ _ _ 2000 2 2 Ar (ap_Z 2000 ltac:(vm_compute; discriminate)) ltac:(lra) ltac:(rewrite Rabs_pos_eq; lra) ltac:(rewrite Rabs_pos_eq; lra) ltac:(lra) ltac:(okb)) as D. apply (ap_weak _ _ _ _ D). lra. }
  destruct Aa as [Aa Ba]. assert (ER : ext r = R0) by (destruct Ar as [_ A]; apply Rabs_le_inv in A; lra). destruct (ext_ofZ 1300 ltac:(vm_compute; discriminate)) as [F13 E13].
  assert (Bb : ap (bB L r s x) (dwz_brake R0 S W) (5 / 10 ^ 11) /\ 0 <= dwz_brake R0 S W <= 9000 /\ Beqb (bB L r s x) (b64_of_Z 0) = negb (if Rlt_dec R0 1300 then if Rle_dec S W then true else false else false)).
  { unfold bB, dwz_brake. rewrite C2, (Bltb_ext _ _ (fin_nn _ (ap_fin _ _ _ Ar)) (fin_nn _ F13)). rewrite ER, E13.
    assert (A0' : ap (b64_of_Z 0) 0 (5 / 10 ^ 11)) by (apply (ap_weak _ _ 0); [apply (ap_Z 0); vm_compute; discriminate|lra]).
    destruct (Rlt_dec R0 1300) as [C|C]; [rewrite Rlt_bool_true by exact C|rewrite Rlt_bool_false by lra]; cbn [andb negb]; [|split; [exact A0'|split; [lra|reflexivity]]].
    destruct (Rle_dec S W); cbn [negb]; [|split; [exact A0'|split; [lra|reflexivity]]].
    destruct (brake_ap L r R0 HE Ar ltac:(lra)) as [Bk [P Bk']]. split; [apply (ap_weak _ _ _ _ Bk); lra|]. split; [exact Bk'|]. rewrite Beqb_ext0 by exact (ap_fin _ _ _ Bk). apply Req_bool_false. lra. }
  destruct Bb as [Ab [Bb Eb]]. set (a := aB r age s x) in *. set (b := bB L r s x) in *. set (AA := dwz_acc R0 age S W) in *. set (BB := dwz_brake R0 S W) in *.
  assert (P0 : 0 <= AA * E0 <= 542) by (clear - Ba BE0; nra).
  pose proof (ap_fma _ _ _ _ _ _ _ _ _ 2 271 9600 Aa A0 Ab ltac:(bd) ltac:(bd) ltac:(rewrite Rabs_pos_eq; lra) ltac:(okb)) as Af. apply (ap_weak _ _ _ (/ 10 ^ 10)) in Af; [|lra].
  assert (ERAW : AA * E0 + BB = dwz_raw_E R0 age S W) by reflexivity. rewrite ERAW in Af. clear ERAW. set (raw := dwz_raw_E R0 age S W) in *. set (e := Bfma mode_NE a e0 b) in *.
  assert (CL : forall cap : R, 5 <= cap -> (ext e <= 5 -> Rabs (5 - Rmax 5 (Rmin raw cap)) <= / 10 ^ 10) /\ (5 < ext e -> cap <= ext e -> Rabs (cap - Rmax 5 (Rmin raw cap)) <= / 10 ^ 10) /\ (5 < ext e -> ext e < cap -> Rabs (ext e - Rmax 5 (Rmin raw cap)) <= / 10 ^ 10)).
  { intros cap Hc. pose proof (ap_int _ _ _ Af) as I. unfold Rmax, Rmin. split; [|split]; intros; repeat destruct Rle_dec; apply Rabs_le; lra. }
  pose proof (ap_fin _ _ _ Af) as Fe. destruct (ext_ofZ 5 ltac:(vm_compute; discriminate)) as [F5 E5]. destruct (ext_ofZ 150 ltac:(vm_compute; discriminate)) as [F150 E150].
  pose proof (cap_ap L i Hi) as Ac. cbv zeta in Ac. set (c := b64_min _ _) in *. set (cc := Rmin 30 (5 * IZR (Z.of_N i))) in *.
  assert (Bc : 5 <= cc). { unfold cc. assert (1 <= IZR (Z.of_N i)) by (apply IZR_le; lia). apply Rmin_glb; lra. }
  assert (Ec : ext c = cc) by (destruct Ac as [_ A]; apply Rabs_le_inv in A; lra).
  assert (GC : forall cap capB, 5 <= cap -> fin capB -> ext capB = cap -> ap (if Bleb e (b64_of_Z 5) then b64_of_Z 5 else if Bleb capB e then capB else e) (Rmax 5 (Rmin raw cap)) (/ 10 ^ 10)).
  { intros cap capB Hc Fc Ecap. destruct (CL cap Hc) as [Q1 [Q2 Q3]]. rewrite !Bleb_ext by (apply fin_nn; assumption). rewrite E5, Ecap.
    case Rle_bool_spec; intros G1; [split; [exact F5|rewrite E5; auto]|]. case Rle_bool_spec; intros G2; split; try assumption; [rewrite Ecap|]; auto. }
  unfold clampB, dwz_E. fold raw. fold cc. fold c. cbv zeta. rewrite Eb.
  destruct (Rlt_dec R0 1300); [destruct (Rle_dec S W)|]; cbn [negb].
  - apply GC; [lra|exact F150|exact E150].
  - apply GC; [exact Bc|exact (ap_fin _ _ _ Ac)|exact Ec].
  - apply GC; [exact Bc|exact (ap_fin _ _ _ Ac)|exact Ec].
Qed.

(** ** The new rating *)
Lemma ev_range L r R0 age s x i : expm1_nonneg L -> ap r R0 0 -> 0 <= R0 <= 4000 -> (1 <= i)%N ->
  let e := dwz_e_value (A := B64A L) r age s x i in fin e /\ 5 <= ext e <= 1000.
Proof.
  intros Hm Ar BR Hi e. assert (ER : ext r = R0) by (destruct Ar as [_ A]; apply Rabs_le_inv in A; lra).
  destruct (dwz_ev L r age s x i Hm (ap_fin _ _ _ Ar)) as [N B]. { rewrite ER. apply Rle_trans with (bpow radix2 20); [rewrite Rabs_pos_eq by lra; simpl; lra|apply bpow_le; lia]. }
  fold e in N, B. assert (F : fin e) by (apply (fin_le e 10); [exact N|lia|simpl; lra]). split; [exact F|]. split; [|lra]. clear B F.
  revert N. unfold e. clear e. rewrite fold_e. set (b := bB L r s x). set (e := Bfma _ _ _ _). destruct (ext_ofZ 5 ltac:(vm_compute; discriminate)) as [F5 E5]. destruct (ext_ofZ 150 ltac:(vm_compute; discriminate)) as [F150 E150].
  pose proof (cap_ap L i Hi) as Ac. cbv zeta in Ac. unfold clampB. set (c := b64_min _ _) in *. set (cc := Rmin 30 (5 * IZR (Z.of_N i))) in *.
  assert (Bc : 5 <= cc). { unfold cc. assert (1 <= IZR (Z.of_N i)) by (apply IZR_le; lia). apply Rmin_glb; lra. }
  assert (Ec : ext c = cc) by (destruct Ac as [_ A]; apply Rabs_le_inv in A; lra).
  destruct (Bleb e (b64_of_Z 5)) eqn:L5; [rewrite E5; lra|].
  assert (G : nn e -> 5 <= ext e). { intros N. rewrite Bleb_ext in L5 by (try exact N; apply fin_nn, F5). rewrite E5 in L5. revert L5. case Rle_bool_spec; [discriminate|lra]. }
  destruct (Beqb b (b64_of_Z 0)); cbv zeta; [destruct (Bleb c e); [rewrite Ec; auto|exact G]|destruct (Bleb (b64_of_Z 150) e); [rewrite E150; lra|exact G]].
Qed.
Lemma upd_core e E de nB n s S x W d r R0 : ap e E de -> de <= / 10 ^ 10 -> 5 <= E <= 1000 -> ap nB n 0 -> 1 <= n <= 1000 -> ap s S 0 -> ap x W d -> d <= n * (13 / 10 ^ 14) ->
  0 <= S <= n -> 0 <= W <= n -> ap r R0 0 -> 0 <= R0 <= 4000 ->
  ap (Bfma mode_NE (Bdiv mode_NE (b64_of_Z 800) (Bplus mode_NE e nB)) (Bminus mode_NE s x) r) (R0 + 800 / (E + n) * (S - W)) (9 / 10 ^ 9).
Proof.
  intros Ae Hde BE An Bn As Ax Hd BS BW Ar BR. assert (U0 : 0 < u0 <= 12 / 10 ^ 17) by ulra. pose proof (ap_nonneg _ _ _ Ae) as D0. pose proof (ap_nonneg _ _ _ Ax) as D1.
  pose proof (ap_add _ _ _ _ _ _ 2001 Ae An ltac:(rewrite Rabs_pos_eq; lra) ltac:(okb)) as A1. apply (ap_weak _ _ _ (101 / 10 ^ 12)) in A1; [|lra].
  set (N := E + n) in *. assert (BN : 5 + n <= N <= 2000) by (unfold N; lra). set (q := 800 / N). assert (IN : 0 < / N) by (apply Rinv_0_lt_compat; lra).
  assert (QN : q * N = 800) by (unfold q; field; lra). assert (Bq : 0.4 <= q <= 134). { unfold q, Rdiv. assert (/ 2000 <= / N <= / 6) by (split; apply Rinv_le_contravar; lra). lra. }
  assert (qn : 0 <= q * n <= 800) by (split; [apply Rmult_le_pos; lra|rewrite <- QN; apply Rmult_le_compat_l; lra]).
  assert (qn2 : q * n <= 800 / 17 * (N - 1)). { apply Rmult_le_reg_r with N; [lra|]. replace (q * n * N) with (800 * n) by (rewrite <- QN; ring). clear - Bn BN. assert ((n + 4) * (n + 5) <= (N - 1) * N) by (apply Rmult_le_compat; lra). pose proof (Rle_0_sqr (n - 4)) as Q. unfold Rsqr in Q. lra. }
  assert (I1 : 0 < / (N - 1)) by (apply Rinv_0_lt_compat; lra).
  assert (DQ : q * (101 / 10 ^ 12) / (N - 1) <= / 10 ^ 8). { unfold Rdiv at 1. assert (/ (N - 1) <= / 5) by (apply Rinv_le_contravar; lra). apply Rle_trans with (134 * (101 / 10 ^ 12) * / 5); [apply Rmult_le_compat; lra|lra]. }
  assert (uq : 0 <= u0 * (1.01 * q) <= 13 / 10 ^ 17 * q) by (split; [apply Rmult_le_pos; lra|clear - U0 Bq; nra]).
  pose proof (ap_div _ _ _ _ _ _ (N - 1) q (1.01 * q) (ap_Z 800 ltac:(vm_compute; discriminate)) A1 ltac:(lra) ltac:(rewrite Rabs_pos_eq; lra) ltac:(fold q; rewrite Rabs_pos_eq; lra) ltac:(rewrite Rplus_0_l; lra) ltac:(okb)) as A2. fold q in A2. rewrite Rplus_0_l in A2.
  set (t := q * (101 / 10 ^ 12) / (N - 1)) in *. assert (T0 : 0 <= t) by (unfold t, Rdiv; apply Rmult_le_pos; [lra|lra]).
  assert (TN : t * n <= 800 / 17 * (101 / 10 ^ 12)). { replace (t * n) with (q * n * / (N - 1) * (101 / 10 ^ 12)) by (unfold t; field; lra). apply Rmult_le_compat_r; [lra|]. apply Rmult_le_reg_r with (N - 1); [lra|]. rewrite Rmult_assoc, Rinv_l by lra. lra. }
  apply (ap_weak _ _ _ (t + 13 / 10 ^ 17 * q)) in A2; [|lra].
  pose proof (ap_sub _ _ _ _ _ _ (1.01 * n) As Ax ltac:(apply Rle_trans with (n + (0 + d)); [apply Rplus_le_compat_r, Rabs_le; lra|lra]) ltac:(okb)) as A3.
  assert (un : 0 <= u0 * (1.01 * n) <= 13 / 10 ^ 17 * n) by (split; [apply Rmult_le_pos; lra|clear - U0 Bn; nra]).
  apply (ap_weak _ _ _ (132 / 10 ^ 15 * n)) in A3; [|lra]. set (del := 13 / 10 ^ 17 * q) in *.
  assert (P1 : q * (132 / 10 ^ 15 * n) <= 800 * (132 / 10 ^ 15)) by lra.
  assert (P2 : n * (t + del) <= 800 / 17 * (101 / 10 ^ 12) + 800 * (13 / 10 ^ 17)) by (unfold del; lra).
  assert (P3 : (t + del) * (132 / 10 ^ 15 * n) <= / 10 ^ 12). { replace ((t + del) * (132 / 10 ^ 15 * n)) with (n * (t + del) * (132 / 10 ^ 15)) by ring. lra. }
  assert (P4 : - 800 <= q * (S - W) <= 800). { assert (- n <= S - W <= n) by lra. clear - H qn Bq. nra. }
  pose proof (ap_fma _ _ _ _ _ _ _ _ _ q n 4900 A2 A3 Ar ltac:(rewrite Rabs_pos_eq; lra) ltac:(apply Rabs_le; lra) ltac:(apply Rle_trans with (4800 + / 10 ^ 3); [apply Rplus_le_compat; [apply Rabs_le; lra|lra]|lra]) ltac:(okb)) as A4.
  rewrite (Rplus_comm R0). apply (ap_weak _ _ _ _ A4). lra.
Qed.
Lemma E_range R0 age S W i : 5 <= dwz_E R0 age S W i.
Proof. unfold dwz_E. apply Rmax_l. Qed.
Lemma E_upper R0 age S W i : 1 <= i -> dwz_E R0 age S W i <= 150.
Proof. intros H. unfold dwz_E. apply Rmax_lub; [lra|]. eapply Rle_trans; [apply Rmin_r|]. pose proof (Rmin_l 30 (5 * i)). destruct (Rlt_dec R0 1300); [destruct (Rle_dec S W)|]; lra. Qed.
Lemma dwz_upd_ap L r R0 age s S x W i nB n d : expm1_accurate L -> expm1_nonneg L -> ap r R0 0 -> 0 <= R0 <= 4000 -> (1 <= i)%N -> ap nB n 0 -> 1 <= n <= 1000 ->
  ap s S 0 -> ap x W d -> d <= n * (13 / 10 ^ 14) -> 0 <= S <= n -> 0 <= W <= n ->
  near (dwz_new_rating (A := B64A L) r (dwz_e_value (A := B64A L) r age s x i) s x nB) (dwz_upd R0 (dwz_E R0 age S W (IZR (Z.of_N i))) n S W) (/ 10 ^ 8).
Proof.
  intros HE Hm Ar BR Hi An Bn As Ax Hd BS BW. set (e := dwz_e_value (A := B64A L) r age s x i). set (E := dwz_E R0 age S W (IZR (Z.of_N i))). apply ap_near.
  change (dwz_new_rating (A := B64A L) r e s x nB) with (Bfma mode_NE (Bdiv mode_NE (b64_of_Z 800) (Bplus mode_NE e nB)) (Bminus mode_NE s x) r). unfold dwz_upd.
  assert (I1 : 1 <= IZR (Z.of_N i)) by (apply IZR_le; lia). assert (BE : 5 <= E <= 150) by (unfold E; split; [apply E_range|apply E_upper; exact I1]).
  destruct (Rlt_or_le (0 + d) (Rabs (S - W))) as [C|C].
  - pose proof (e_ap L r R0 age s S x W i 0 d HE Ar BR As Ax C Hi) as Ae. fold e in Ae. fold E in Ae. apply (ap_weak _ _ (9 / 10 ^ 9)); [|lra]. apply (upd_core e E (/ 10 ^ 10) nB n s S x W d); auto; lra.
  - destruct (ev_range L r R0 age s x i Hm Ar BR Hi) as [Fe Be]. fold e in Fe, Be.
    pose proof (upd_core e (ext e) 0 nB n s S x W d r R0 (ap_self _ Fe) ltac:(lra) Be An Bn As Ax Hd BS BW Ar BR) as [F A]. split; [exact F|].
    assert (H : forall y, 5 <= y -> Rabs (800 / (y + n) * (S - W)) <= / 10 ^ 9 / 4).
    { intros y Hy. rewrite Rabs_mult. assert (0 < / (y + n)) by (apply Rinv_0_lt_compat; lra). assert (/ (y + n) <= / n) by (apply Rinv_le_contravar; lra). rewrite Rabs_pos_eq by (unfold Rdiv; lra).
      apply Rle_trans with (800 * / n * (n * (13 / 10 ^ 14))); [apply Rmult_le_compat; [unfold Rdiv; lra|apply Rabs_pos|unfold Rdiv; lra|lra]|]. replace (800 * / n * (n * (13 / 10 ^ 14))) with (800 * (13 / 10 ^ 14)) by (field; lra). lra. }
    pose proof (H (ext e) ltac:(lra)) as H1. pose proof (H E ltac:(lra)) as H2. apply Rabs_le_inv in H1, H2, A. apply Rabs_le. lra.
Qed.

(** ** One game and one rating period *)
Lemma num_ap lo hi x : num_in lo hi x -> ap x (B2R x) 0 /\ lo <= B2R x <= hi.
Proof. intros [F B]. split; [apply ap_exact; [exact F|apply ext_fin; exact F]|exact B]. Qed.
Lemma elo_E_sym a b : elo_E b a = 1 - elo_E a b.
Proof.
  unfold elo_E. replace ((a - b) / 400) with (- ((b - a) / 400)) by field. rewrite Rpower_Ropp. pose proof (Rpower10_pos ((b - a) / 400)) as P. field. lra.
Qed.
Lemma C105_game_proof : forall L r1 i1 a1 r2 i2 a2 o, pow10_accurate L -> expm1_accurate L -> expm1_nonneg L -> num_in 0 4000 r1 -> num_in 0 4000 r2 -> (1 <= i1)%N -> (1 <= i2)%N ->
  let '(q1, q2) := dwz (A := B64A L) (mkDwz r1 i1 a1) (mkDwz r2 i2 a2) o in
  let R1 := B2R r1 in let R2 := B2R r2 in
  near (dwz_rating q1) (dwz_upd R1 (dwz_E R1 a1 (points o) (elo_E R1 R2) (IZR (Z.of_N i1))) 1 (points o) (elo_E R1 R2)) (/ 10 ^ 8) /\
  near (dwz_rating q2) (dwz_upd R2 (dwz_E R2 a2 (points (invert o)) (elo_E R2 R1) (IZR (Z.of_N i2))) 1 (points (invert o)) (elo_E R2 R1)) (/ 10 ^ 8).
Proof.
  intros L r1 i1 a1 r2 i2 a2 o HP HE Hm N1 N2 I1 I2. destruct (num_ap _ _ _ N1) as [A1 B1]. destruct (num_ap _ _ _ N2) as [A2 B2].
  unfold dwz. cbn [dwz_rating dwz_index dwz_age]. set (R1 := B2R r1) in *. set (R2 := B2R r2) in *.
  change (dwz_expected_score (A := B64A L) (mkDwz r1 i1 a1) (mkDwz r2 i2 a2)) with (dxB L r1 r2, Bminus mode_NE one64 (dxB L r1 r2)). cbv beta iota zeta. cbn [dwz_rating].
  destruct (dx_ap L r1 r2 R1 R2 HP A1 A2 B1 B2) as [_ [AE BE]]. pose proof (one_minus_ap _ _ _ AE BE ltac:(lra)) as AE2.
  rewrite (elo_E_sym R1 R2). set (s := to_chess_points (A := B64A L) o).
  assert (As : ap s (points o) 0) by (destruct (ext_points L o) as [F E]; apply ap_exact; auto).
  assert (As2 : ap (Bminus mode_NE one64 s) (points (invert o)) 0).
  { destruct (ext_points2 L o) as [F E]. cbv zeta in F, E. apply ap_exact; [exact F|]. unfold s. rewrite E. destruct o; simpl; lra. }
  assert (BS : 0 <= points o <= 1) by (destruct o; simpl; lra). assert (BS2 : 0 <= points (invert o) <= 1) by (destruct o; simpl; lra).
  split.
  - apply (dwz_upd_ap L r1 R1 a1 s (points o) (dxB L r1 r2) (elo_E R1 R2) i1 (b64_of_Z 1) 1 (4 / 10 ^ 15)); auto; try lra. apply (ap_Z 1). vm_compute. discriminate.
  - apply (dwz_upd_ap L r2 R2 a2 (Bminus mode_NE one64 s) (points (invert o)) (Bminus mode_NE one64 (dxB L r1 r2)) (1 - elo_E R1 R2) i2 (b64_of_Z 1) 1 (4 / 10 ^ 15 + 13 / 10 ^ 17)); auto; try lra. apply (ap_Z 1). vm_compute. discriminate.
Qed.
Lemma C105_period_proof : forall L r i a (rs : list (DWZRating B64 * Outcomes)), pow10_accurate L -> expm1_accurate L -> expm1_nonneg L -> num_in 0 4000 r -> (1 <= i)%N ->
  Forall (fun g => num_in 0 4000 (dwz_rating (fst g))) rs -> (1 <= length rs <= 1000)%nat ->
  let R0 := B2R r in
  let S := Rsum (map (fun g => points (snd g)) rs) in
  let We := Rsum (map (fun g => elo_E R0 (B2R (dwz_rating (fst g)))) rs) in
  near (dwz_rating (dwz_rating_period (A := B64A L) (mkDwz r i a) rs)) (dwz_upd R0 (dwz_E R0 a S We (IZR (Z.of_N i))) (INR (length rs)) S We) (/ 10 ^ 8).
Proof.
  intros L r i a rs HP HE Hm N1 I1 HF Hn R0 S We. destruct (num_ap _ _ _ N1) as [A1 B1]. fold R0 in A1, B1. assert (U0 : 0 < u0 <= 12 / 10 ^ 17) by ulra.
  unfold dwz_rating_period. cbn [dwz_rating dwz_index dwz_age].
  set (s := fsum (A := B64A L) (map (fun g => to_chess_points (A := B64A L) (snd g)) rs)).
  set (x := fsum (A := B64A L) (map (fun g => fst (dwz_expected_score (A := B64A L) (mkDwz r i a) (fst g))) rs)).
  assert (Bn : 1 <= INR (length rs) <= 1000). { rewrite INR_IZR_INZ. split; apply IZR_le; lia. }
  assert (As : ap s S 0). { replace S with (IZR (hsum (map snd rs)) / 2); [apply pts_sum; lia|]. rewrite <- hsum_psum. unfold psum, S. rewrite map_map. reflexivity. }
  destruct (fsum_apM _ L (fun g : DWZRating B64 * Outcomes => fst (dwz_expected_score (A := B64A L) (mkDwz r i a) (fst g))) (fun g => elo_E R0 (B2R (dwz_rating (fst g)))) 1 (4 / 10 ^ 15) rs ltac:(lra) ltac:(lra)) as [Ax _]; [|lia|].
  { apply Forall_impl with (2 := HF). intros [[r2 i2 a2] o] N2. cbn [fst dwz_rating] in *. destruct (num_ap _ _ _ N2) as [A2 B2]. rewrite fold_dx. destruct (dx_ap L r r2 R0 (B2R r2) HP A1 A2 B1 B2) as [_ [AE BE]]. split; [exact AE|]. rewrite Rabs_pos_eq; lra. }
  fold x in Ax. fold We in Ax. apply (ap_weak _ _ _ (INR (length rs) * (13 / 10 ^ 14))) in Ax; [|apply Rmult_le_compat_l; lra].
  assert (RS : forall (F : DWZRating B64 * Outcomes -> R), (forall g, In g rs -> 0 <= F g <= 1) -> 0 <= Rsum (map F rs) <= INR (length rs)).
  { clear. intros F. induction rs as [|g rs IH]; intros H; [simpl; unfold Rsum; simpl; lra|]. cbn [map]. rewrite Rsum_cons. change (length (g :: rs)) with (Datatypes.S (length rs)). rewrite S_INR. pose proof (H g (or_introl eq_refl)). specialize (IH (fun g0 Hg => H g0 (or_intror Hg))). lra. }
  apply (dwz_upd_ap L r R0 a s S x We i (flen (A := B64A L) rs) (INR (length rs)) (INR (length rs) * (13 / 10 ^ 14))); auto; try lra.
  - rewrite INR_IZR_INZ. apply ap_Z. lia.
  - apply RS. intros [q o] _. destruct o; simpl; lra.
  - apply RS. intros g Hg. rewrite Forall_forall in HF. destruct (num_ap _ _ _ (HF g Hg)) as [A2 B2]. apply (dx_ap L r _ R0 _ HP A1 A2 B1 B2).
Qed.
Lemma libm_expm1_accurate : expm1_accurate libm_rounded.
Proof.
  intros x F B. destruct (real_fun_fin (fun r => exp r - 1) (B754_infinity false) (b64_of_Z (-1)) x F) as [N H]. rewrite (ext_fin x F) in H.
  apply (libm_acc _ _ N H). apply small_bpow. apply okB. pose proof (exp_ineq1_le (B2R x)) as E. assert (T : exp (B2R x) <= 3 ^ 10). { apply Rle_trans with (exp (INR 10)); [destruct (proj2 B) as [Q|Q]; [left; apply exp_increasing; rewrite INR_IZR_INZ; simpl; lra|rewrite Q; right; f_equal; rewrite INR_IZR_INZ; simpl; lra]|]. rewrite <- (Rmult_1_r (INR 10)), exp_INR. apply pow_incr. pose proof exp_1_bounds. lra. }
  split; [|lra]. apply Rle_trans with (/ 10 ^ 20); [lra|lra].
Qed.
