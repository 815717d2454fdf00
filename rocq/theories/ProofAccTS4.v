(** Accuracy in double precision: drawn TrueSkill games and expected scores. *)
From Coq Require Import ZArith List Bool Reals Lra Lia Psatz.
From Flocq Require Import Core.Core IEEE754.BinarySingleNaN.
From Verif Require Import Arith XR B64 ModelLib ModelTS Spec SpecTS SpecNormal SpecTSN SpecB64 SpecAcc Tac MathB64 ProofB64 ProofB64b ProofB64c MathB64b ProofB64f MathAcc MathAcc2 MathAccR MathTS MathTSW MathTSInv MathTSStart MathTSAcc MathTSDraw MathTSNorm MathTSNorm2 MathTSLip MathTSLip2 ProofBoost2 ProofTS ProofTSAcc ProofTSDraw ProofTSNorm ProofAcc ProofAcc2 ProofAcc3 ProofAccTS ProofAccTS2 ProofAccTS3.
Import ListNotations.
Local Open Scope R_scope.
#[local] Opaque Bplus Bminus Bmult Bdiv Bfma Bsqrt Bopp Babs b64_max b64_min b64_of_Z b64_lit.
Notation mB := MathTSDraw.mB.

(** ** The corrections of a drawn game *)
Definition x1B (t e : B64) : B64 := Bminus mode_NE e (Babs t).
Definition x2B (t e : B64) : B64 := Bminus mode_NE (Bopp e) (Babs t).
Definition dnB (L : Libm) (t e : B64) : B64 := Bminus mode_NE (cdfB L (x1B t e)) (cdfB L (x2B t e)).
Definition vdB (L : Libm) (t e : B64) : B64 :=
  if Bltb (dnB L t e) tinyB then (if Bltb t (b64_of_Z 0) then Bminus mode_NE (Bopp t) e else Bplus mode_NE (Bopp t) e)
  else let x := Bminus mode_NE (pdfB L (x2B t e)) (pdfB L (x1B t e)) in
    if Bltb t (b64_of_Z 0) then Bdiv mode_NE (Bopp x) (dnB L t e) else Bdiv mode_NE x (dnB L t e).
Definition wdB (L : Libm) (t e : B64) : B64 :=
  if Bltb (dnB L t e) tinyB then b64_of_Z 1
  else Bfma mode_NE (vdB L t e) (vdB L t e)
    (Bdiv mode_NE (Bfma mode_NE (x1B t e) (pdfB L (x1B t e)) (Bmult mode_NE (Bopp (x2B t e)) (pdfB L (x2B t e)))) (dnB L t e)).
Lemma fold_vd L d m c : v_draw (A := B64A L) d m c = vdB L (Bdiv mode_NE d c) (Bdiv mode_NE m c). Proof. reflexivity. Qed.
Lemma fold_wd L d m c : w_draw (A := B64A L) d m c = wdB L (Bdiv mode_NE d c) (Bdiv mode_NE m c). Proof. reflexivity. Qed.
Lemma big200 v : / 10 ^ 160 <= v <= 10 ^ 30 -> / 10 ^ 200 <= v <= 10 ^ 200.
Proof.
  intros H. assert (10 ^ 30 <= 10 ^ 200) by (apply Rle_pow; [lra|lia]). assert (/ 10 ^ 200 <= / 10 ^ 160) by (apply Rinv_le_contravar; [apply pow_lt; lra|apply Rle_pow; [lra|lia]]). lra.
Qed.
(** one side of the interval: its cdf and its density *)
Lemma side_ap L x X : exp_accurate L -> ap x X (3 / 10 ^ 15) -> Rabs X <= 14 -> exists a, Rabs (a + X) <= 3 / 10 ^ 14 /\
  rp (cdfB L x) (Phi (- a)) (31 / 10 ^ 14) /\ rp (pdfB L x) (phi a) (12 / 10 ^ 13) /\ ap x (- a) (2 / 10 ^ 14) /\ / 10 ^ 157 <= phi a.
Proof.
  intros HE A B. pose proof (ap_int _ _ _ A) as I. apply Rabs_le_inv in B. assert (BX : Rabs (ext x) <= 25.5) by (apply Rabs_le; lra). pose proof (ap_fin _ _ _ A) as F.
  destruct (cdf_rp L x HE F BX) as (xi & D & RC & BC). destruct (pdf_rp L x HE F BX) as [RP BP]. exists (- xi). rewrite Ropp_involutive, phi_even. apply Rabs_le_inv in D.
  split; [apply Rabs_le; lra|]. split; [exact RC|]. pose proof (phi_shift xi (ext x) ltac:(apply Rabs_le; lra) ltac:(apply Rabs_le; lra)) as PS.
  pose proof (rp_trans _ _ _ _ _ RP (phi_pos xi) PS ltac:(lra)) as RP'. split; [apply (rp_weak _ _ _ _ RP'); lra|]. split.
  - split; [exact F|]. apply Rabs_le. lra.
  - assert (X2 : xi ^ 2 <= 680) by (assert (Z : -15 <= xi <= 15) by lra; clear - Z; nra). pose proof (phi_far xi X2) as Q. change 157%nat with (1 + 156)%nat. rewrite pow_add, Rinv_mult. assert (0 < / 10 ^ 156) by (apply Rinv_0_lt_compat, pow_lt; lra). unfold Rdiv in Q. lra.
Qed.
Lemma vwd_ap L t e : exp_accurate L -> fin t -> fin e -> Rabs (ext t) <= 10.05 -> 1 / 30.9 <= ext e <= 2.8 ->
  exists a b, Rabs (a - (Rabs (ext t) - ext e)) <= 3 / 10 ^ 14 /\ Rabs (b - (ext e + Rabs (ext t))) <= 3 / 10 ^ 14 /\ okab a b /\
    let N := mN a b in let B := mB a b in let D := Phi (- a) - Phi (- b) in
    ap (vdB L t e) ((if Rlt_dec (ext t) 0 then 1 else -1) * (N / D)) (12 / 10 ^ 10) /\ ap (wdB L t e) ((N / D) ^ 2 + B / D) (5 / 10 ^ 8).
Proof.
  intros HE Ft Fe BT BE. pose proof (abs_ap t Ft) as AT. pose proof (Rabs_pos (ext t)) as T0. set (T := Rabs (ext t)) in *. set (E := ext e) in *.
  assert (A1 : ap (x1B t e) (E - T) (3 / 10 ^ 15)).
  { unfold x1B. step (ap_sub _ _ _ _ _ _ 14 (ap_self e Fe) AT ltac:(fold E; rewrite !Rplus_0_r; apply Rabs_le; lra) ltac:(okb)) (3 / 10 ^ 15). exact S. }
  assert (A2 : ap (x2B t e) (- E - T) (3 / 10 ^ 15)).
  { unfold x2B. step (ap_sub _ _ _ _ _ _ 14 (ap_opp _ _ _ (ap_self e Fe)) AT ltac:(fold E; rewrite !Rplus_0_r; apply Rabs_le; lra) ltac:(okb)) (3 / 10 ^ 15). exact S. }
  destruct (side_ap L _ _ HE A1 ltac:(apply Rabs_le; lra)) as (a & Ha & C1 & P1 & X1 & L1). destruct (side_ap L _ _ HE A2 ltac:(apply Rabs_le; lra)) as (b & Hb & C2 & P2 & X2 & L2).
  exists a, b. replace (a - (T - E)) with (a + (E - T)) by ring. replace (b - (E + T)) with (b + (- E - T)) by ring. split; [exact Ha|]. split; [exact Hb|]. pose proof (Rabs_le_inv _ _ Ha) as Ia. pose proof (Rabs_le_inv _ _ Hb) as Ib.
  assert (OK : okab a b) by (unfold okab; lra). split; [exact OK|]. intros N B D.
  destruct (ab_T a b OK) as [TP _]. destruct (ab_phi a b OK) as [PH PC]. destruct (ab_near a b OK) as (DP & VD & WD & NT & WT). fold D N in VD. fold D N B in WD. fold N in NT. fold N B in WT. fold D in DP. set (T1 := mT a b) in *.
  pose proof (ab_D2 a b OK) as D2. fold D T1 in D2. assert (U0 : 0 < u0 <= 12 / 10 ^ 17) by ulra. pose proof (phi_pos a) as Pa. pose proof (phi_pos b) as Pb.
  assert (I157 : 0 < / 10 ^ 157) by (apply Rinv_0_lt_compat, pow_lt; lra). assert (P160 : 1000 * / 10 ^ 160 = / 10 ^ 157) by (change 160%nat with (3 + 157)%nat; rewrite pow_add; field; apply pow_nonzero; lra).
  assert (TL : 5 * / 10 ^ 160 <= T1) by lra. assert (TU : T1 <= 1) by (unfold T1, mT; pose proof (Ncdf_range a); pose proof (Ncdf_range b); lra).
  assert (uT : 0 <= u0 * T1 <= 12 / 10 ^ 17 * T1) by (split; [apply Rmult_le_pos; lra|apply Rmult_le_compat_r; lra]). apply Rabs_le_inv in D2.
  (* the normaliser *)
  pose proof (ap_sub _ _ _ _ _ _ (1.01 * T1) (rp_ap _ _ _ C1) (rp_ap _ _ _ C2) ltac:(fold D; rewrite (Rabs_pos_eq D) by lra; lra) ltac:(apply big200; lra)) as AN. fold D in AN. apply (ap_weak _ _ _ (63 / 10 ^ 12 * T1)) in AN; [|lra].
  change (ap (dnB L t e) D (63 / 10 ^ 12 * T1)) in AN. pose proof (ap_int _ _ _ AN) as IN. destruct tiny_ap as [Ftn Etn].
  assert (P161 : 10 * / 10 ^ 161 = / 10 ^ 160) by (change 161%nat with (1 + 160)%nat; rewrite pow_add; field; apply pow_nonzero; lra).
  assert (HB : Bltb (dnB L t e) tinyB = false). { rewrite Bltb_ext by (apply fin_nn; [apply AN||exact Ftn]). apply Rlt_bool_false. unfold Rdiv in Etn. lra. }
  assert (EN : forall k, k * T1 / (0.999 * T1) = k / 0.999) by (intros; field; lra). assert (AD : Rabs D = D) by (apply Rabs_pos_eq; lra).
  assert (ND : Rabs (N / D) <= 11.3). { apply Rabs_le_inv in VD. pose proof (Rabs_le_inv _ _ NT). apply Rabs_le. lra. }
  (* v *)
  assert (AV : ap (vdB L t e) ((if Rlt_dec (ext t) 0 then 1 else -1) * (N / D)) (12 / 10 ^ 10)).
  { unfold vdB. rewrite HB. assert (NB : Rabs (phi b - phi a) <= 11.2 * T1). { rewrite Rabs_minus_sym. apply (ab_N a b OK). }
    pose proof (ap_sub _ _ _ _ _ _ (12 * T1) (rp_ap _ _ _ P2) (rp_ap _ _ _ P1) ltac:(lra) ltac:(apply big200; lra)) as AX. apply (ap_weak _ _ _ (44 / 10 ^ 11 * T1)) in AX; [|lra].
    assert (EQ : (44 / 10 ^ 11 * T1 + 11.3 * (63 / 10 ^ 12 * T1)) / (0.999 * T1) = (44 / 10 ^ 11 + 11.3 * (63 / 10 ^ 12)) / 0.999) by (rewrite <- EN; f_equal; ring).
    assert (Lt : Bltb t (b64_of_Z 0) = Rlt_bool (ext t) 0). { rewrite Bltb_ext; [|apply fin_nn; exact Ft|reflexivity]. f_equal. }
    cbv zeta. rewrite Lt. unfold Rlt_bool. destruct (Rlt_dec (ext t) 0) as [Q|Q].
    - rewrite Rcompare_Lt by auto. pose proof (ap_opp _ _ _ AX) as AX'. replace (- (phi b - phi a)) with N in AX' by (unfold N, mN; ring).
      pose proof (ap_div _ _ _ _ _ _ (0.999 * T1) 11.3 12 AX' AN ltac:(lra) ltac:(rewrite AD; lra) ND ltac:(rewrite EQ; lra) ltac:(okb)) as A. rewrite EQ in A. rewrite Rmult_1_l. apply (ap_weak _ _ _ _ A). lra.
    - replace (match Rcompare (ext t) 0 with Lt => true | _ => false end) with false by (destruct (Rcompare_spec (ext t) 0); auto; lra).
      replace (-1 * (N / D)) with ((phi b - phi a) / D) by (unfold N, mN, Rdiv; ring). assert (ND' : Rabs ((phi b - phi a) / D) <= 11.3). { replace ((phi b - phi a) / D) with (- (N / D)) by (unfold N, mN, Rdiv; ring). rewrite Rabs_Ropp. exact ND. }
      pose proof (ap_div _ _ _ _ _ _ (0.999 * T1) 11.3 12 AX AN ltac:(lra) ltac:(rewrite AD; lra) ND' ltac:(rewrite EQ; lra) ltac:(okb)) as A. rewrite EQ in A. apply (ap_weak _ _ _ _ A). lra. }
  split; [exact AV|].
  (* w *)
  unfold wdB. rewrite HB. set (v := vdB L t e) in *. clearbody v. set (sg := if Rlt_dec (ext t) 0 then 1 else -1) in *. assert (SG : sg * sg = 1) by (unfold sg; destruct (Rlt_dec (ext t) 0); ring). assert (SA : Rabs sg = 1) by (unfold sg; destruct (Rlt_dec (ext t) 0); [apply Rabs_R1|rewrite Rabs_left; lra]).
  assert (Bb : 0 < b <= 13) by lra. assert (Ba : Rabs (- a) <= 13) by (apply Rabs_le; lra).
  assert (ub : 0 <= u0 * phi b <= 12 / 10 ^ 17 * phi b) by (split; [apply Rmult_le_pos; lra|apply Rmult_le_compat_r; lra]). assert (ua : 0 <= u0 * phi a <= 12 / 10 ^ 17 * phi a) by (split; [apply Rmult_le_pos; lra|apply Rmult_le_compat_r; lra]).
  pose proof (phi_le a). pose proof (phi_le b). pose proof (ap_opp _ _ _ X2) as X2'. rewrite Ropp_involutive in X2'.
  assert (bp : 0 < b * phi b <= 13 * phi b) by (split; [apply Rmult_lt_0_compat; lra|apply Rmult_le_compat_r; lra]).
  pose proof (ap_mul _ _ _ _ _ _ 13 (phi b) (13.1 * phi b) X2' (rp_ap _ _ _ P2) ltac:(rewrite Rabs_pos_eq; lra) ltac:(rewrite Rabs_pos_eq; lra) ltac:(lra) ltac:(apply big200; lra)) as M2. apply (ap_weak _ _ _ (18 / 10 ^ 12 * phi b)) in M2; [|lra].
  assert (EB : - a * phi a + b * phi b = B) by (unfold B, MathTSDraw.mB; ring).
  assert (AB : Rabs B <= 13 * phi a + 13 * phi b). { rewrite <- EB. eapply Rle_trans; [apply Rabs_triang|]. rewrite Rabs_mult, (Rabs_pos_eq (phi a)), (Rabs_pos_eq (b * phi b)) by lra. apply Rplus_le_compat; [apply Rmult_le_compat_r; lra|lra]. }
  pose proof (ap_fma _ _ _ _ _ _ _ _ _ 13 (phi a) (13.2 * (phi a + phi b)) X1 (rp_ap _ _ _ P1) M2 Ba ltac:(rewrite Rabs_pos_eq; lra) ltac:(rewrite EB; lra) ltac:(apply big200; lra)) as F2. rewrite EB in F2.
  apply (ap_weak _ _ _ (72 / 10 ^ 10 * T1)) in F2; [|lra].
  assert (BDs : Rabs (B / D) <= 130). { apply Rabs_le_inv in WD. assert (Q : (N / D) ^ 2 <= 11.3 ^ 2) by (rewrite <- pow2_abs; apply pow_incr; split; [apply Rabs_pos|auto]). pose proof (pow2_ge_0 (N / D)). apply Rabs_le. lra. }
  assert (EQ : (72 / 10 ^ 10 * T1 + 130 * (63 / 10 ^ 12 * T1)) / (0.999 * T1) = (72 / 10 ^ 10 + 130 * (63 / 10 ^ 12)) / 0.999) by (rewrite <- EN; f_equal; ring).
  pose proof (ap_div _ _ _ _ _ _ (0.999 * T1) 130 131 F2 AN ltac:(lra) ltac:(rewrite AD; lra) BDs ltac:(rewrite EQ; lra) ltac:(okb)) as A3. rewrite EQ in A3. apply (ap_weak _ _ _ (16 / 10 ^ 9)) in A3; [|lra].
  assert (V1 : Rabs (sg * (N / D)) <= 11.3) by (rewrite Rabs_mult, SA, Rmult_1_l; exact ND).
  assert (EV : sg * (N / D) * (sg * (N / D)) + B / D = (N / D) ^ 2 + B / D) by (replace (sg * (N / D) * (sg * (N / D))) with (sg * sg * (N / D) ^ 2) by ring; rewrite SG; ring).
  apply Rabs_le_inv in WD.
  pose proof (ap_fma _ _ _ _ _ _ _ _ _ 11.3 11.3 2 AV AV A3 V1 V1 ltac:(rewrite EV; apply Rle_trans with (1.1 + (11.3 * (12 / 10 ^ 10) + 11.3 * (12 / 10 ^ 10) + 12 / 10 ^ 10 * (12 / 10 ^ 10) + 16 / 10 ^ 9)); [apply Rplus_le_compat_r; apply Rabs_le; lra|lra]) ltac:(okb)) as A4.
  rewrite EV in A4. apply (ap_weak _ _ _ _ A4). lra.
Qed.
Lemma draw_vw L t e T X d : exp_accurate L -> ap t T d -> ap e X d -> / 10 ^ 13 <= d <= / 10 ^ 10 -> Rabs T <= 10 -> 1 / 30.5 <= X <= 2.75 ->
  exists V W, ap (vdB L t e) V (12 / 10 ^ 10) /\ ap (wdB L t e) W (5 / 10 ^ 8) /\ Rabs V <= 11.4 /\ - 0.0002 <= W <= 1.0002 /\
    Rabs (V - vdrawN T X) <= 0.0000186 * Rabs (vdrawN T X) + 40000 * d /\ Rabs (W - wdrawN T X) <= 0.0002 + 920000 * d.
Proof.
  intros HE At Ae Bd BT BX. pose proof (ap_int _ _ _ At) as It. pose proof (ap_int _ _ _ Ae) as Ie. pose proof (Rabs_le_inv _ _ BT) as BT'.
  assert (Ft : Rabs (ext t) <= 10.05) by (apply Rabs_le; lra). destruct (vwd_ap L t e HE (proj1 At) (proj1 Ae) Ft ltac:(lra)) as (a & b & Ha & Hb & OK & H). cbv zeta in H. destruct H as [HV HW].
  set (sg := if Rlt_dec (ext t) 0 then 1 else -1) in *. exists (sg * (mN a b / (Phi (- a) - Phi (- b)))), ((mN a b / (Phi (- a) - Phi (- b))) ^ 2 + mB a b / (Phi (- a) - Phi (- b))).
  split; [exact HV|]. split; [exact HW|]. destruct (ab_near a b OK) as (DP & VD & WD & NT & WT). set (v := mN a b / mT a b) in *. set (vD := mN a b / (Phi (- a) - Phi (- b))) in *. set (w := v ^ 2 + mB a b / mT a b) in *. set (wD := vD ^ 2 + mB a b / (Phi (- a) - Phi (- b))) in *.
  assert (SA : Rabs sg = 1) by (unfold sg; destruct (Rlt_dec (ext t) 0); [apply Rabs_R1|rewrite Rabs_left; lra]).
  assert (VB : Rabs vD <= 11.4) by (apply Rabs_le_inv in VD; pose proof (Rabs_le_inv _ _ NT); apply Rabs_le; lra).
  split; [rewrite Rabs_mult, SA, Rmult_1_l; exact VB|]. pose proof (Rabs_le_inv _ _ WD) as WI. split; [lra|].
  destruct (draw_sides T X) as (E1 & E2 & E3 & _). set (a0 := Rabs T - X) in *. set (b0 := X + Rabs T) in *. set (s0 := if Rlt_dec T 0 then 1 else -1) in *.
  assert (SA0 : Rabs s0 = 1) by (unfold s0; destruct (Rlt_dec T 0); [apply Rabs_R1|rewrite Rabs_left; lra]). assert (S2 : s0 ^ 2 = 1) by (unfold s0; destruct (Rlt_dec T 0); ring).
  set (v0 := mN a0 b0 / mT a0 b0). set (w0 := v0 ^ 2 + mB a0 b0 / mT a0 b0). assert (EV : vdrawN T X = s0 * v0) by (unfold vdrawN, v0; rewrite E1, E2; unfold Rdiv; ring).
  assert (EW : wdrawN T X = w0) by (unfold wdrawN; rewrite EV, E1, E3; unfold w0; rewrite Rpow_mult_distr, S2; ring). rewrite EV, EW. pose proof (Rabs_pos T) as T0.
  assert (OK0 : okab a0 b0) by (unfold okab, a0, b0; lra).
  assert (TT : Rabs (Rabs (ext t) - Rabs T) <= d) by (eapply Rle_trans; [apply Rabs_triang_inv2|apply At]). apply Rabs_le_inv in TT. pose proof (Rabs_le_inv _ _ Ha) as Ia. pose proof (Rabs_le_inv _ _ Hb) as Ib.
  assert (La : Rabs (a - a0) <= 2.3 * d) by (unfold a0; apply Rabs_le; lra). assert (Lb : Rabs (b - b0) <= 2.3 * d) by (unfold b0; apply Rabs_le; lra).
  destruct (ab_lip a0 b0 a b (2.3 * d) OK0 La Lb ltac:(lra)) as (TP & L1 & L2). fold v v0 in L1. fold v w v0 w0 in L2. apply Rabs_le_inv in L2.
  split; [|apply Rabs_le; lra]. rewrite (Rabs_mult s0), SA0, Rmult_1_l.
  destruct (Req_dec sg s0) as [ES|ES].
  - rewrite ES. replace (s0 * vD - s0 * v0) with (s0 * (vD - v0)) by ring. rewrite Rabs_mult, SA0, Rmult_1_l.
    assert (VV : Rabs v <= Rabs v0 + 11000 * (2.3 * d)). { replace v with (v0 + (v - v0)) by ring. eapply Rle_trans; [apply Rabs_triang|]. lra. }
    replace (vD - v0) with ((vD - v) + (v - v0)) by ring. eapply Rle_trans; [apply Rabs_triang|]. lra.
  - assert (ST : Rabs T <= d /\ Rabs (ext t) <= d).
    { clear - ES It. unfold sg, s0 in ES. destruct (Rlt_dec (ext t) 0), (Rlt_dec T 0); try congruence; split; apply Rabs_le; lra. }
    assert (OKZ : okab (- X) X) by (unfold okab; lra). assert (NZ : mN (- X) X = 0) by (unfold mN; rewrite phi_even; ring). assert (QZ : mN (- X) X / mT (- X) X = 0) by (rewrite NZ; unfold Rdiv; ring).
    destruct (ab_lip (- X) X a b (2.3 * d) OKZ ltac:(apply Rabs_le; lra) ltac:(apply Rabs_le; lra) ltac:(lra)) as (_ & Z1 & _). destruct (ab_lip (- X) X a0 b0 d OKZ ltac:(unfold a0; apply Rabs_le; lra) ltac:(unfold b0; apply Rabs_le; lra) ltac:(lra)) as (_ & Z2 & _).
    fold v in Z1. fold v0 in Z2. rewrite QZ, Rminus_0_r in Z1, Z2. pose proof (Rabs_pos v). assert (VV : Rabs vD <= 1.0001 * Rabs v). { replace vD with (v + (vD - v)) by ring. eapply Rle_trans; [apply Rabs_triang|]. lra. }
    pose proof (Rabs_pos v0). eapply Rle_trans; [apply Rabs_triang|]. rewrite Rabs_Ropp, !Rabs_mult, SA, SA0. lra.
Qed.

(** ** Drawn games *)
Lemma C103_draw_proof : forall L (r1 u1 r2 u2 dp beta tau : B64), exp_accurate L -> lnp_accurate L ->
  num_in (- 10 ^ 4) (10 ^ 4) r1 -> num_in (- 10 ^ 4) (10 ^ 4) r2 -> num_in (/ 1000) 100 u1 -> num_in (/ 1000) 100 u2 ->
  num_in 0.01 0.99 dp -> num_in 1 100 beta -> num_in 0 100 tau -> B2R tau <= B2R beta ->
  let m1 := B2R r1 in let m2 := B2R r2 in let s1 := B2R u1 in let s2 := B2R u2 in let b := B2R beta in
  let c := sqrt (s1 ^ 2 + s2 ^ 2 + 2 * b ^ 2) in let t := (m1 - m2) / c in let S1 := s1 ^ 2 + B2R tau ^ 2 in let S2 := s2 ^ 2 + B2R tau ^ 2 in
  Rabs (m1 - m2) <= 10 * c -> s1 ^ 2 + s2 ^ 2 <= 2 * (1400 * B2R dp ^ 2 - 1) * b ^ 2 ->
  let g := trueskill (A := B64A L) (mkTS r1 u1) (mkTS r2 u2) DRAW (mkTSConfig dp beta tau) in
  exists x, 0 <= x /\ Rabs (Ncdf x - Ncdf (- x) - B2R dp) <= 0.0000121 /\
    let e := x * sqrt 2 * b in let v := vdrawN t (e / c) in let w := wdrawN t (e / c) in
    near (ts_rating (fst g)) (m1 + S1 / c * v) (S1 / c * (0.0000187 * Rabs v + 1 / 10 ^ 7) + 3 / 10 ^ 12) /\
    near (ts_rating (snd g)) (m2 - S2 / c * v) (S2 / c * (0.0000187 * Rabs v + 1 / 10 ^ 7) + 3 / 10 ^ 12) /\
    num_in (/ 10 ^ 6) 150 (ts_uncertainty (fst g)) /\ num_in (/ 10 ^ 6) 150 (ts_uncertainty (snd g)) /\
    Rabs (B2R (ts_uncertainty (fst g)) ^ 2 - S1 * (1 - w * S1 / c ^ 2)) <= 0.000203 * (S1 ^ 2 / c ^ 2) + 2 / 10 ^ 15 * S1 /\
    Rabs (B2R (ts_uncertainty (snd g)) ^ 2 - S2 * (1 - w * S2 / c ^ 2)) <= 0.000203 * (S2 ^ 2 / c ^ 2) + 2 / 10 ^ 15 * S2.
Proof.
  intros L r1 u1 r2 u2 dp beta tau HE HL H1 H2 Hu1 Hu2 Hd Hb Ht TB m1 m2 s1 s2 b c t S1 S2 HD HM g.
  destruct (game_common L r1 u1 r2 u2 dp beta tau HE HL H1 H2 Hu1 Hu2 Hd Hb Ht TB) as (Ac & BC & C2 & AD & _ & HS1 & HS2 & x & Am & X0 & XU & X1 & BE).
  fold m1 m2 in AD. fold s1 s2 b in Ac, BC, C2, Am, BE, HS1, HS2. fold c in Ac, BC, C2, BE, HS1, HS2. fold S1 in HS1. fold S2 in HS2.
  exists x. split; [exact X0|]. split; [exact X1|]. intros e v w. fold e in Am, BE. destruct Hb as [Fb Bb]. destruct Hd as [Fd Bd]. fold b in Bb, TB. pose proof (proj2 Hu1) as Bu1. pose proof (proj2 Hu2) as Bu2. pose proof (proj2 Ht) as Bt. fold s1 in Bu1. fold s2 in Bu2.
  assert (E30 : 1 / 30 <= unit_margin (B2R dp) * sqrt 2 * b / c) by (unfold c; rewrite (Rplus_comm _ (2 * b ^ 2)); apply margin_30; [lra|lra|lra|split; [clear; nra|exact HM]]).
  pose proof sqrt2_15 as S215. assert (SC : sqrt 2 * b <= c). { unfold c. replace (sqrt 2 * b) with (sqrt (2 * b ^ 2)); [apply sqrt_le_1; clear; nra|]. rewrite sqrt_mult by (clear; nra). rewrite sqrt_pow2 by lra. reflexivity. }
  assert (IC : 0 < / c <= 1) by (split; [apply Rinv_0_lt_compat; lra|rewrite <- Rinv_1; apply Rinv_le_contravar; lra]). assert (CC : c * / c = 1) by (apply Rinv_r; lra).
  assert (SB : 0 < sqrt 2 * b / c <= 1). { split; [apply Rdiv_lt_0_compat; [apply Rmult_lt_0_compat|]; lra|]. rewrite <- CC. apply Rmult_le_compat_r; lra. }
  assert (EX : 1 / 30.4 <= e / c <= 2.73).
  { split.
    - unfold e. replace (x * sqrt 2 * b / c) with (unit_margin (B2R dp) * sqrt 2 * b / c + (x - unit_margin (B2R dp)) * (sqrt 2 * b / c)) by (unfold Rdiv; ring).
      assert (Q : - (2 / 10 ^ 10) <= (x - unit_margin (B2R dp)) * (sqrt 2 * b / c)). { apply Rabs_le_inv in XU. clear - XU SB. nra. } lra.
    - unfold Rdiv. apply Rle_trans with (2.73 * c * / c); [apply Rmult_le_compat_r; lra|rewrite Rmult_assoc, CC; lra]. }
  assert (BT : Rabs t <= 10). { unfold t, Rdiv. rewrite Rabs_mult, (Rabs_pos_eq (/ c)) by lra. apply Rle_trans with (10 * c * / c); [apply Rmult_le_compat_r; lra|rewrite Rmult_assoc, CC; lra]. }
  assert (U0 : 0 < u0 <= 12 / 10 ^ 17) by ulra. assert (AC : Rabs c = c) by (apply Rabs_pos_eq; lra).
  assert (I99 : 0 < / (0.99 * c)) by (apply Rinv_0_lt_compat; lra). assert (QC : forall k, k * c / (0.99 * c) = k / 0.99) by (intros; field; lra).
  assert (Q1 : (25 / 10 ^ 13 + 10 * (8 / 10 ^ 16 * c)) / (0.99 * c) <= 18 / 10 ^ 13 / 0.99). { rewrite <- QC. unfold Rdiv at 1 3. apply Rmult_le_compat_r; lra. }
  assert (Q2 : (0 + 2.73 * (8 / 10 ^ 16 * c)) / (0.99 * c) <= 1 / 10 ^ 13 / 0.99). { rewrite <- QC. unfold Rdiv at 1 3. apply Rmult_le_compat_r; lra. }
  pose proof (ap_div _ _ _ _ _ _ (0.99 * c) 10 11 AD Ac ltac:(lra) ltac:(rewrite AC; lra) BT ltac:(lra) ltac:(okb)) as At. apply (ap_weak _ _ _ (2 / 10 ^ 12)) in At; [|lra]. fold t in At.
  pose proof (ap_div _ _ _ _ _ _ (0.99 * c) 2.73 3 Am Ac ltac:(lra) ltac:(rewrite AC; lra) ltac:(rewrite Rabs_pos_eq; lra) ltac:(lra) ltac:(okb)) as Ae. apply (ap_weak _ _ _ (2 / 10 ^ 12)) in Ae; [|lra].
  destruct (draw_vw L _ _ t (e / c) (2 / 10 ^ 12) HE At Ae ltac:(lra) BT ltac:(lra)) as (V & W & Av & Aw & BV & BW & HV & HW). fold v in HV. fold w in HW. rewrite <- fold_vd in Av. rewrite <- fold_wd in Aw.
  apply (ap_weak _ _ _ (1 / 10 ^ 12 * c)) in Ac; [|lra].
  assert (P1 : ap (b64_of_Z 1) 1 0) by (apply ap_Z; vm_compute; discriminate). assert (P2 : ap (b64_of_Z (-1)) (-1) 0) by (apply ap_Z; vm_compute; discriminate).
  assert (TB2 : B2R tau ^ 2 <= b ^ 2) by (apply pow_incr; lra). assert (Q3 : 0 < s1 ^ 2) by (apply pow_lt; lra). assert (Q4 : 0 < s2 ^ 2) by (apply pow_lt; lra). pose proof (pow2_ge_0 (B2R tau)) as Q5.
  assert (D2 : B2R dp ^ 2 <= 0.9801). { clear - Bd. nra. } assert (b2 : 1 <= b ^ 2) by (clear - Bb; nra). assert (CU : c ^ 2 <= 2745 * b ^ 2). { rewrite C2. assert (2 * (1400 * B2R dp ^ 2 - 1) * b ^ 2 <= 2 * (1400 * 0.9801 - 1) * b ^ 2) by (apply Rmult_le_compat_r; lra). lra. }
  assert (QW : forall S, 0 < S -> S + b ^ 2 <= c ^ 2 -> 0.0001 <= 1 - W * S / c ^ 2).
  { intros S HS HSC. assert (C0 : 0 < c ^ 2) by lra. assert (DM : S / c ^ 2 <= 1 - 1 / 2745). { apply Rmult_le_reg_r with (c ^ 2); [lra|]. unfold Rdiv at 1. rewrite Rmult_assoc, Rinv_l by lra. lra. }
    assert (DM0 : 0 < S / c ^ 2) by (apply Rdiv_lt_0_compat; lra). replace (W * S / c ^ 2) with (W * (S / c ^ 2)) by (unfold Rdiv; ring).
    assert (W * (S / c ^ 2) <= 1.0002 * (S / c ^ 2)) by (apply Rmult_le_compat_r; lra). lra. }
  pose proof (QW S1 ltac:(unfold S1; lra) ltac:(unfold S1; lra)) as QW1. pose proof (QW S2 ltac:(unfold S2; lra) ltac:(unfold S2; lra)) as QW2.
  pose proof (side_ts L r1 u1 _ (wcB beta u1 u2) _ tau _ V c W 1 v w (12 / 10 ^ 10) (5 / 10 ^ 8) _ _ H1 Hu1 Ht P1 Rabs_R1 Ac ltac:(lra) Av Aw ltac:(lra) ltac:(lra) HS1 ltac:(lra) ltac:(fold s1 S1; lra) ltac:(fold s1 S1; lra) HV HW) as (Y1 & Y2 & Y3).
  pose proof (side_ts L r2 u2 _ (wcB beta u1 u2) _ tau _ V c W (-1) v w (12 / 10 ^ 10) (5 / 10 ^ 8) _ _ H2 Hu2 Ht P2 ltac:(rewrite Rabs_left; lra) Ac ltac:(lra) Av Aw ltac:(lra) ltac:(lra) HS2 ltac:(lra) ltac:(fold s2 S2; lra) ltac:(fold s2 S2; lra) HV HW) as (Z1 & Z2 & Z3).
  fold s1 in Y1, Y3. fold s2 in Z1, Z3. fold S1 in Y1, Y3. fold S2 in Z1, Z3.
  assert (NR : forall y S (z : R), 0 < S -> near y z (S / c * (0.0000186 * Rabs v + 40000 * (2 / 10 ^ 12) + 1.01 * (12 / 10 ^ 10) + 12 / 10 ^ 13 * Rabs V) + 21 / 10 ^ 13) -> near y z (S / c * (0.0000187 * Rabs v + 1 / 10 ^ 7) + 3 / 10 ^ 12)).
  { intros y S z HS [F A]. split; [exact F|]. eapply Rle_trans; [exact A|]. pose proof (Rabs_pos v). apply Rplus_le_compat; [|lra]. apply Rmult_le_compat_l; [left; apply Rdiv_lt_0_compat; lra|lra]. }
  assert (SU : forall y S, 0 < S -> Rabs y <= (0.0002 + 920000 * (2 / 10 ^ 12) + 2.1 * (5 / 10 ^ 8) + 5 / 10 ^ 12) * (S ^ 2 / c ^ 2) + 2 / 10 ^ 15 * S -> Rabs y <= 0.000203 * (S ^ 2 / c ^ 2) + 2 / 10 ^ 15 * S).
  { intros y S HS A. eapply Rle_trans; [exact A|]. apply Rplus_le_compat_r. apply Rmult_le_compat_r; [|lra]. left. apply Rdiv_lt_0_compat; [apply pow_lt; auto|lra]. }
  split; [apply NR; [unfold S1; lra|]; replace (m1 + S1 / c * v) with (B2R r1 + 1 * (S1 / c * v)) by (unfold m1; ring); exact Y1|].
  split; [apply NR; [unfold S2; lra|]; replace (m2 - S2 / c * v) with (B2R r2 + -1 * (S2 / c * v)) by (unfold m2; ring); exact Z1|].
  split; [exact Y2|]. split; [exact Z2|]. split; [apply SU; [unfold S1; lra|exact Y3]|apply SU; [unfold S2; lra|exact Z3]].
Qed.

(** ** Expected scores *)
Lemma denom_ap L b u1 u2 BT S1 S2 : ap b BT 0 -> ap u1 S1 0 -> ap u2 S2 0 -> 1 <= BT <= 100 -> / 1000 <= S1 <= 100 -> / 1000 <= S2 <= 100 ->
  let C := sqrt (S1 ^ 2 + S2 ^ 2 + 2 * BT ^ 2) in ap (ts_denom (A := B64A L) b u1 u2) C (8 / 10 ^ 16 * C) /\ 1.41 <= C <= 250.
Proof.
  intros Ab A1 A2 Bb B1 B2 C. set (X := S1 ^ 2 + S2 ^ 2 + 2 * BT ^ 2).
  assert (Q1 : 0 <= S1 * S1 <= 10000) by nra. assert (Q2 : 0 <= S2 * S2 <= 10000) by nra. assert (Q3 : 1 <= BT * BT <= 10000) by nra.
  assert (EX : X = S1 * S1 + S2 * S2 + 2 * (BT * BT)) by (unfold X; ring). assert (BX : 2 <= X <= 40000) by lra. assert (U0 : 0 < u0 <= 12 / 10 ^ 17) by ulra.
  assert (uX : 0 <= u0 * X <= 12 / 10 ^ 17 * X) by (split; [apply Rmult_le_pos; lra|apply Rmult_le_compat_r; lra]).
  step (ap_mul _ _ _ _ _ _ S1 S1 (1.01 * X) A1 A1 ltac:(rewrite Rabs_pos_eq; lra) ltac:(rewrite Rabs_pos_eq; lra) ltac:(lra) ltac:(okb)) (u0 * (1.01 * X)).
  step (ap_mul _ _ _ _ _ _ BT BT (1.01 * X) Ab Ab ltac:(rewrite Rabs_pos_eq; lra) ltac:(rewrite Rabs_pos_eq; lra) ltac:(lra) ltac:(okb)) (u0 * (1.01 * X)).
  pose proof (ap_fma _ _ _ _ _ _ _ _ _ 2 (BT * BT) (1.01 * X) (ap_Z 2 ltac:(vm_compute; discriminate)) S0 S ltac:(rewrite Rabs_pos_eq; lra) ltac:(rewrite Rabs_pos_eq; lra) ltac:(rewrite Rabs_pos_eq; lra) ltac:(okb)) as T1.
  pose proof (ap_fma _ _ _ _ _ _ _ _ _ S2 S2 (1.01 * X) A2 A2 T1 ltac:(rewrite Rabs_pos_eq; lra) ltac:(rewrite Rabs_pos_eq; lra) ltac:(rewrite Rabs_pos_eq; lra) ltac:(okb)) as T2.
  apply (ap_eq _ _ X) in T2; [|lra]. apply (ap_weak _ _ _ (64 / 10 ^ 17 * X)) in T2; [|lra].
  assert (EC : C = sqrt X) by reflexivity. rewrite EC. clear C EC. set (C := sqrt X).
  assert (CC : C * C = X) by (apply sqrt_sqrt; lra). assert (C0 : 0 < C) by (apply sqrt_lt_R0; lra).
  assert (BC : 1.41 <= C <= 250) by (split; apply Rsqr_incr_0_var; unfold Rsqr; lra).
  assert (uC : 0 <= u0 * C <= 12 / 10 ^ 17 * C) by (split; [apply Rmult_le_pos; lra|apply Rmult_le_compat_r; lra]).
  assert (Ez : 64 / 10 ^ 17 * X / C = 64 / 10 ^ 17 * C) by (rewrite <- CC; field; lra).
  pose proof (ap_sqrt _ _ _ C C (1.01 * C) T2 C0 ltac:(fold C; lra) ltac:(fold C; lra) ltac:(lra) ltac:(rewrite Ez; lra) ltac:(okb)) as T3. rewrite Ez in T3. fold C in T3.
  split; [|exact BC]. change (ts_denom (A := B64A L) b u1 u2) with (Bsqrt mode_NE (Bfma mode_NE u2 u2 (Bfma mode_NE (b64_of_Z 2) (Bmult mode_NE b b) (Bmult mode_NE u1 u1)))).
  apply (ap_weak _ _ _ _ T3); lra.
Qed.
(** the distribution function at a computed argument *)
Lemma cdf_shift L x T d : exp_accurate L -> ap x T d -> d <= / 10 ^ 11 -> Rabs T <= 22 ->
  ap (cdfB L x) (Ncdf T) (0.0000103 * Ncdf T + 28 * d * Ncdf T + 1 / 10 ^ 12 * Ncdf T) /\
  ap (Bminus mode_NE (b64_of_Z 1) (cdfB L x)) (1 - Ncdf T) (0.0000103 * (1 - Ncdf T) + 2 * d + 6 / 10 ^ 13).
Proof.
  intros HE A Hd BT. pose proof (ap_int _ _ _ A) as I. pose proof (ap_nonneg _ _ _ A) as D0. pose proof (Rabs_le_inv _ _ BT) as BT'.
  destruct (cdf_rp L x HE (proj1 A) ltac:(apply Rabs_le; lra)) as (xi & D & RC & BC). apply Rabs_le_inv in D. destruct RC as (FC & PC & RC). set (y := ext (cdfB L x)) in *.
  assert (DX : Rabs (xi - T) <= d + 2 / 10 ^ 14) by (apply Rabs_le; lra).
  assert (DX' : Rabs (- xi - - T) <= d + 2 / 10 ^ 14) by (replace (- xi - - T) with (- (xi - T)) by ring; rewrite Rabs_Ropp; exact DX).
  pose proof (Ncdf_lip2 (- xi) (- T) 26 (d + 2 / 10 ^ 14) ltac:(lra) ltac:(rewrite Rabs_Ropp; lra) DX' ltac:(lra)) as H2. rewrite !Ncdf_neg, phi_even in H2. replace (1 - Ncdf xi - (1 - Ncdf T)) with (- (Ncdf xi - Ncdf T)) in H2 by ring. rewrite Rabs_Ropp in H2.
  pose proof (hz_range (- T) ltac:(rewrite Rabs_Ropp; lra)) as HZ. pose proof (Ntl_pos (- T)) as NP. assert (E : phi T = hz (- T) * Ntl (- T)) by (unfold hz; rewrite phi_even; field; lra).
  unfold Ntl in E, NP. rewrite Ncdf_neg in E, NP. replace (1 - (1 - Ncdf T)) with (Ncdf T) in E, NP by ring. pose proof (phi_le T) as PL. pose proof (phi_pos T) as PP.
  assert (PN : phi T <= 27 * Ncdf T) by (rewrite E; apply Rmult_le_compat_r; lra). pose proof (Ncdf_range T) as NR. pose proof (Ncdf_range xi) as NX.
  pose proof (Phi_rel xi) as P1. pose proof (Phi_relc xi) as P2. apply Rabs_le_inv in H2, RC, P1, P2. set (q := phi T) in *. clearbody q.
  assert (DP : 0 <= d * q <= 27 * (d * Ncdf T)) by (split; [apply Rmult_le_pos; lra|]; rewrite <- Rmult_assoc, (Rmult_comm 27), Rmult_assoc; apply Rmult_le_compat_l; lra).
  assert (DN : 0 <= d * Ncdf T <= / 10 ^ 11 * Ncdf T) by (split; [apply Rmult_le_pos; lra|apply Rmult_le_compat_r; lra]).
  assert (DQ : 0 <= d * q <= 0.4 * d) by (split; [apply Rmult_le_pos; lra|]; rewrite Rmult_comm; apply Rmult_le_compat_r; lra).
  assert (A1 : ap (cdfB L x) (Ncdf T) (0.0000103 * Ncdf T + 28 * d * Ncdf T + 1 / 10 ^ 12 * Ncdf T)) by (split; [exact FC|]; fold y; apply Rabs_le; lra).
  split; [exact A1|]. assert (A2 : ap (cdfB L x) y 0) by (apply ap_self; exact FC). assert (U0 : 0 < u0 <= 12 / 10 ^ 17) by ulra.
  pose proof (ap_sub _ _ _ _ _ _ 2 (ap_Z 1 ltac:(vm_compute; discriminate)) A2 ltac:(apply Rle_trans with (1.5 + (0 + 0)); [apply Rplus_le_compat_r; apply Rabs_le|]; lra) ltac:(okb)) as A3.
  pose proof (ap_int _ _ _ A3) as I3. split; [apply A3|]. apply Rabs_le. lra.
Qed.
Lemma C103_expected_proof : forall L (r1 u1 r2 u2 dp beta tau : B64), exp_accurate L ->
  num_in (- 10 ^ 4) (10 ^ 4) r1 -> num_in (- 10 ^ 4) (10 ^ 4) r2 -> num_in (/ 1000) 100 u1 -> num_in (/ 1000) 100 u2 -> num_in 1 100 beta ->
  let m1 := B2R r1 in let m2 := B2R r2 in let c := sqrt (B2R u1 ^ 2 + B2R u2 ^ 2 + 2 * B2R beta ^ 2) in let p := Ncdf ((m1 - m2) / c) in
  Rabs (m1 - m2) <= 22 * c ->
  let e := ts_expected_score (A := B64A L) (mkTS r1 u1) (mkTS r2 u2) (mkTSConfig dp beta tau) in
  near (fst e) p (0.0000104 * p) /\ near (snd e) (1 - p) (0.0000104 * (1 - p) + 5 / 10 ^ 12).
Proof.
  intros L r1 u1 r2 u2 dp beta tau HE H1 H2 Hu1 Hu2 Hb m1 m2 c p HD e.
  destruct (num_ap _ _ _ H1) as [A1 B1]. destruct (num_ap _ _ _ H2) as [A2 B2]. destruct (num_ap _ _ _ Hu1) as [Au1 Bu1]. destruct (num_ap _ _ _ Hu2) as [Au2 Bu2]. destruct (num_ap _ _ _ Hb) as [Ab Bb]. fold m1 in A1, B1. fold m2 in A2, B2.
  destruct (denom_ap L _ _ _ _ _ _ Ab Au1 Au2 Bb Bu1 Bu2) as [Ac BC]. fold c in Ac, BC. assert (U0 : 0 < u0 <= 12 / 10 ^ 17) by ulra.
  assert (AD : ap (Bminus mode_NE r1 r2) (m1 - m2) (25 / 10 ^ 13)). { apply (ap_weak _ _ (0 + 0 + u0 * 20001)); [|lra]. apply (ap_sub _ _ _ _ _ _ 20001 A1 A2); [|okb]. apply Rle_trans with (20000 + (0 + 0)); [apply Rplus_le_compat_r; apply Rabs_le; lra|lra]. }
  assert (IC : 0 < / c) by (apply Rinv_0_lt_compat; lra). assert (CC : c * / c = 1) by (apply Rinv_r; lra). assert (AC : Rabs c = c) by (apply Rabs_pos_eq; lra).
  assert (BT : Rabs ((m1 - m2) / c) <= 22). { unfold Rdiv. rewrite Rabs_mult, (Rabs_pos_eq (/ c)) by lra. apply Rle_trans with (22 * c * / c); [apply Rmult_le_compat_r; lra|rewrite Rmult_assoc, CC; lra]. }
  assert (I99 : 0 < / (0.99 * c)) by (apply Rinv_0_lt_compat; lra). assert (QC : forall k, k * c / (0.99 * c) = k / 0.99) by (intros; field; lra).
  assert (Q1 : (25 / 10 ^ 13 + 22 * (8 / 10 ^ 16 * c)) / (0.99 * c) <= 18 / 10 ^ 13 / 0.99). { rewrite <- QC. unfold Rdiv at 1 3. apply Rmult_le_compat_r; lra. }
  pose proof (ap_div _ _ _ _ _ _ (0.99 * c) 22 23 AD Ac ltac:(lra) ltac:(rewrite AC; lra) BT ltac:(lra) ltac:(okb)) as At. apply (ap_weak _ _ _ (2 / 10 ^ 12)) in At; [|lra].
  destruct (cdf_shift L _ _ _ HE At ltac:(lra) BT) as [X1 X2]. fold p in X1, X2. pose proof (Ncdf_range ((m1 - m2) / c)) as NR. fold p in NR.
  split; apply ap_near; [apply (ap_weak _ _ _ _ X1)|apply (ap_weak _ _ _ _ X2)]; lra.
Qed.

(** ** The correctly rounded libm meets the contract *)
Lemma libm_lnp_accurate : lnp_accurate libm_rounded.
Proof.
  intros x F B. destruct (real_fun_fin ln (B754_infinity false) B754_nan x F) as [N H]. rewrite (ext_fin x F) in H. change (real_fun ln (B754_infinity false) B754_nan x) with (l_ln libm_rounded x) in N, H.
  set (y := l_ln libm_rounded x) in *. clearbody y.
  assert (LB : / 10 <= - ln (B2R x) <= 10).
  { pose proof ln10_close as LN. split.
    - assert (ln (B2R x) <= ln (1 / 2)) by (destruct (proj2 B) as [G|<-]; [left; apply ln_increasing; lra|lra]). assert (E2 : ln (1 / 2) <= 1 / 2 - 1); [|lra]. rewrite <- (ln_exp (1 / 2 - 1)). pose proof (exp_ineq1_le (1 / 2 - 1)) as [G|G]; [left; apply ln_increasing; lra|right; f_equal; lra].
    - assert (E : ln (/ 1000) = - (3 * ln 10)) by (rewrite ln_Rinv by lra; replace 1000 with (10 ^ 3) by lra; rewrite (ln_pow 10 ltac:(lra) 3); simpl; lra). assert (ln (/ 1000) <= ln (B2R x)) by (destruct (proj1 B) as [G|<-]; [left; apply ln_increasing; lra|lra]). lra. }
  destruct (ext_opp y N) as [N' E']. assert (RO : - rnd (ln (B2R x)) = rnd (- ln (B2R x))).
  { unfold rnd, rnd0. rewrite round_NE_opp. set (q := round _ _ _ _). pose proof M64_pos. unfold Rmax, Rmin. repeat destruct Rle_dec; lra. }
  rewrite H, RO in E'.
  destruct (libm_acc _ _ N' E') as [F' A]. { apply small_bpow. okb. }
  rewrite B2R_Bopp in A. assert (FY : finite y) by (destruct y; auto). split; [exact FY|]. replace (B2R y - ln (B2R x)) with (- (- B2R y - - ln (B2R x))) by ring. rewrite Rabs_Ropp. exact A.
Qed.
