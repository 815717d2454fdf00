(** Accuracy in double precision: TrueSkill games and expected scores. *)
From Coq Require Import ZArith List Bool Reals Lra Lia Psatz.
From Flocq Require Import Core.Core IEEE754.BinarySingleNaN.
From Verif Require Import Arith XR B64 ModelLib ModelTS Spec SpecTS SpecNormal SpecTSN SpecB64 SpecAcc Tac MathB64 ProofB64 ProofB64b ProofB64c MathB64b ProofB64f MathAcc MathAcc2 MathAccR MathTS MathTSW MathTSInv MathTSStart MathTSAcc MathTSNorm MathTSNorm2 MathTSLip ProofBoost2 ProofTS ProofTSAcc ProofAcc ProofAcc2 ProofAcc3 ProofAccTS ProofAccTS2.
Import ListNotations.
Local Open Scope R_scope.
#[local] Opaque Bplus Bminus Bmult Bdiv Bfma Bsqrt Bopp Babs b64_max b64_min b64_of_Z b64_lit.

(** ** New rating and uncertainty *)
Definition varB (u tau : B64) : B64 := Bfma mode_NE u u (Bmult mode_NE tau tau).
Definition nrB (r u v c tau rm : B64) : B64 := Bfma mode_NE (Bmult mode_NE rm (Bdiv mode_NE (varB u tau) c)) v r.
Definition nuB (u c w tau : B64) : B64 :=
  Bsqrt mode_NE (Bmult mode_NE (varB u tau) (Bfma mode_NE w (Bopp (Bdiv mode_NE (varB u tau) (Bmult mode_NE c c))) (b64_of_Z 1))).
Lemma fold_nr L r u v c tau rm : ts_new_rating (A := B64A L) r u v c tau rm = nrB r u v c tau rm. Proof. reflexivity. Qed.
Lemma fold_nu L u c w tau : ts_new_uncertainty (A := B64A L) u c w tau = nuB u c w tau. Proof. reflexivity. Qed.
Lemma big190 v : / 10 ^ 30 <= v <= 10 ^ 30 -> / 10 ^ 190 <= v <= 10 ^ 190.
Proof.
  intros H. assert (10 ^ 30 <= 10 ^ 190) by (apply Rle_pow; [lra|lia]). assert (/ 10 ^ 190 <= / 10 ^ 30) by (apply Rinv_le_contravar; [apply pow_lt; lra|auto]). lra.
Qed.
Lemma var_rp u tau U T : ap u U 0 -> ap tau T 0 -> / 1000 <= U <= 1000 -> 0 <= T <= 1000 -> rp (varB u tau) (U ^ 2 + T ^ 2) (25 / 10 ^ 17) /\ / 10 ^ 6 <= U ^ 2 + T ^ 2.
Proof.
  intros Au At BU BT. assert (UU : / 10 ^ 6 <= U * U <= 10 ^ 6) by nra. assert (TT : 0 <= T * T <= 10 ^ 6) by nra.
  assert (U0 : 0 < u0 <= 12 / 10 ^ 17) by ulra. set (S := U * U + T * T). assert (ES : U ^ 2 + T ^ 2 = S) by (unfold S; ring). rewrite ES.
  assert (uS : 0 <= u0 * S <= 12 / 10 ^ 17 * S) by (split; [apply Rmult_le_pos; unfold S; lra|apply Rmult_le_compat_r; unfold S; lra]).
  assert (BS : / 10 ^ 6 <= S <= 3 * 10 ^ 6) by (unfold S; lra). unfold varB. split; [|lra].
  pose proof (ap_mul _ _ _ _ _ _ T T (1.01 * S) At At ltac:(rewrite Rabs_pos_eq; lra) ltac:(rewrite Rabs_pos_eq; lra) ltac:(unfold S in *; lra) ltac:(okb)) as A1. apply (ap_weak _ _ _ (u0 * (1.01 * S))) in A1; [|lra].
  pose proof (ap_fma _ _ _ _ _ _ _ _ _ U U (1.02 * S) Au Au A1 ltac:(rewrite Rabs_pos_eq; lra) ltac:(rewrite Rabs_pos_eq; lra) ltac:(rewrite Rabs_pos_eq; unfold S in *; lra) ltac:(okb)) as A2.
  fold S in A2. apply (ap_rp _ _ _ _ A2); lra.
Qed.
Lemma half_ts r u v c w tau rm R0 U V C W T s dv dw : ap r R0 0 -> ap u U 0 -> ap tau T 0 -> ap rm s 0 -> ap c C (1 / 10 ^ 12 * C) -> ap v V dv -> ap w W dw ->
  Rabs R0 <= 10 ^ 4 -> / 1000 <= U <= 100 -> 0 <= T <= 100 -> Rabs s = 1 -> 1.41 <= C <= 10 ^ 6 -> Rabs V <= 27 -> 0 <= dv <= / 100 ->
  let S := U ^ 2 + T ^ 2 in S + 1 <= C ^ 2 -> - / 100 <= W <= 1.01 -> / 10 ^ 5 <= 1 - W * S / C ^ 2 -> 0 <= dw <= / 1000 * (1 - W * S / C ^ 2) ->
  ap (nrB r u v c tau rm) (R0 + s * (S / C) * V) (S / C * (1.01 * dv + 12 / 10 ^ 13 * Rabs V) + 21 / 10 ^ 13) /\
  fin (nuB u c w tau) /\ / 10 ^ 6 <= ext (nuB u c w tau) <= 150 /\ Rabs (ext (nuB u c w tau) ^ 2 - S * (1 - W * S / C ^ 2)) <= (2.1 * dw + 5 / 10 ^ 12) * (S ^ 2 / C ^ 2) + 2 / 10 ^ 15 * S.
Proof.
  intros Ar Au At As Ac Av Aw BR BU BT Hs BC BV Bdv S HS BW Bq0 Bdw. destruct (var_rp u tau U T Au At ltac:(lra) ltac:(lra)) as [RS SL]. fold S in RS, SL.
  assert (Rc : rp c C (1 / 10 ^ 12)) by (apply (ap_rp _ _ _ _ Ac); lra). assert (U0 : 0 < u0 <= 12 / 10 ^ 17) by ulra.
  assert (C2 : 1.98 <= C ^ 2 <= 10 ^ 12) by (clear - BC; nra). assert (S6 : S <= 20000) by (clear - BU BT; unfold S; nra). assert (IC : / 10 ^ 6 <= / C <= 0.71) by (split; [apply Rle_trans with (/ 10 ^ 6); [lra|apply Rinv_le_contravar; lra]|apply Rle_trans with (/ 1.41); [apply Rinv_le_contravar; lra|lra]]).
  assert (S0 : 0 < S) by lra. set (K := S / C). assert (BK : / 10 ^ 12 <= K <= 150).
  { unfold K, Rdiv. split; [apply Rle_trans with (/ 10 ^ 6 * / 10 ^ 6); [lra|apply Rmult_le_compat; lra]|]. apply Rmult_le_reg_r with C; [lra|]. rewrite Rmult_assoc, Rinv_l by lra. clear - HS S6 BC; destruct (Rle_dec C 150); [nra|lra]. }
  split.
  - unfold nrB. pose proof (rp_div _ _ _ _ _ _ RS Rc ltac:(lra) ltac:(lra) (big190 (S / C) ltac:(fold K; lra))) as RK. fold K in RK. apply (rp_weak _ _ _ (102 / 10 ^ 14)) in RK; [|lra].
    assert (uK : 0 <= u0 * K <= 12 / 10 ^ 17 * K) by (split; [apply Rmult_le_pos; lra|apply Rmult_le_compat_r; lra]).
    pose proof (ap_mul _ _ _ _ _ _ 1 K (1.01 * K) As (rp_ap _ _ _ RK) ltac:(lra) ltac:(rewrite Rabs_pos_eq; lra) ltac:(lra) ltac:(okb)) as AK. apply (ap_weak _ _ _ (103 / 10 ^ 14 * K)) in AK; [|lra].
    assert (AB : Rabs (s * K) = K) by (rewrite Rabs_mult, Hs, (Rabs_pos_eq K) by lra; ring). pose proof (Rabs_pos V) as V0.
    assert (KV : 0 <= K * Rabs V <= 4050) by (split; [apply Rmult_le_pos; lra|apply Rle_trans with (150 * 27); [apply Rmult_le_compat; lra|lra]]).
    assert (Kd : 0 <= K * dv <= 1.5) by (split; [apply Rmult_le_pos; lra|apply Rle_trans with (150 * / 100); [apply Rmult_le_compat; lra|lra]]).
    assert (AV : Rabs (s * K * V + R0) <= 16750). { eapply Rle_trans; [apply Rabs_triang|]. rewrite Rabs_mult, AB. lra. }
    pose proof (ap_fma _ _ _ _ _ _ _ _ _ K (Rabs V) 17000 AK Av Ar ltac:(lra) ltac:(lra) ltac:(lra) ltac:(okb)) as A.
    rewrite (Rplus_comm R0). apply (ap_weak _ _ _ _ A). lra.
  - pose proof (rp_mul _ _ _ _ _ _ Rc Rc ltac:(lra) ltac:(lra) (big190 (C * C) ltac:(nra))) as RCC. apply (rp_weak _ _ _ (203 / 10 ^ 14)) in RCC; [|lra]. apply (rp_eq _ _ (C ^ 2)) in RCC; [|ring].
    set (DM := S / C ^ 2). assert (BDM : / 10 ^ 18 <= DM <= 1).
    { unfold DM. split; apply Rmult_le_reg_r with (C ^ 2); try lra; unfold Rdiv; rewrite Rmult_assoc, Rinv_l by lra; lra. }
    replace (W * S / C ^ 2) with (W * DM) in * by (unfold DM, Rdiv; ring).
    pose proof (rp_div _ _ _ _ _ _ RS RCC ltac:(lra) ltac:(lra) (big190 (S / C ^ 2) ltac:(fold DM; lra))) as RD. fold DM in RD. apply (rp_weak _ _ _ (206 / 10 ^ 14)) in RD; [|lra].
    set (q := W * - DM + 1). assert (Eq : 1 - W * DM = q) by (unfold q; ring). rewrite Eq in *. assert (WD : - / 100 <= W * DM). { clear - BW BDM. destruct (Rle_dec 0 W); nra. } assert (Bq : / 10 ^ 5 <= q <= 1.02) by (unfold q in *; lra).
    assert (dD : 0 <= dw * DM <= dw) by (split; [apply Rmult_le_pos; lra|rewrite <- (Rmult_1_r dw) at 2; apply Rmult_le_compat_l; lra]).
    assert (AW1 : Rabs W <= 1.01) by (apply Rabs_le; lra).
    pose proof (ap_fma _ _ _ _ _ _ _ _ _ 1.01 DM 1.03 Aw (ap_opp _ _ _ (rp_ap _ _ _ RD)) (ap_Z 1 ltac:(vm_compute; discriminate)) AW1 ltac:(rewrite Rabs_Ropp, Rabs_pos_eq; lra)
      ltac:(fold q; rewrite (Rabs_pos_eq q) by lra; lra) ltac:(okb)) as AQ. fold q in AQ.
    set (dq := 1.001 * (dw * DM) + 209 / 10 ^ 14 * DM + 13 / 10 ^ 17). assert (dq0 : 0 <= dq) by (unfold dq; lra). apply (ap_weak _ _ _ dq) in AQ; [|unfold dq; lra].
    assert (uS : 0 <= u0 * S <= 12 / 10 ^ 17 * S) by (split; [apply Rmult_le_pos; lra|apply Rmult_le_compat_r; lra]).
    assert (SD : 0 < S * DM <= S) by (split; [apply Rmult_lt_0_compat; lra|rewrite <- (Rmult_1_r S) at 2; apply Rmult_le_compat_l; lra]).
    assert (SqD : S * dq = 1.001 * (dw * (S * DM)) + 209 / 10 ^ 14 * (S * DM) + 13 / 10 ^ 17 * S) by (unfold dq; ring).
    assert (Sdw : 0 <= dw * (S * DM) <= dw * S) by (split; [apply Rmult_le_pos; lra|apply Rmult_le_compat_l; lra]).
    assert (Sq : / 10 ^ 5 * S <= S * q <= 1.02 * S) by (split; [rewrite Rmult_comm; apply Rmult_le_compat_l; lra|rewrite (Rmult_comm 1.02); apply Rmult_le_compat_l; lra]).
    assert (Sd2 : dw * S <= / 1000 * (S * q)) by (replace (/ 1000 * (S * q)) with (/ 1000 * q * S) by ring; apply Rmult_le_compat_r; lra).
    pose proof (ap_mul _ _ _ _ _ _ S 1.02 (1.05 * S) (rp_ap _ _ _ RS) AQ ltac:(rewrite Rabs_pos_eq; lra) ltac:(rewrite Rabs_pos_eq; lra) ltac:(lra) ltac:(okb)) as AV.
    set (d := 1.002 * (dw * (S * DM)) + 21 / 10 ^ 13 * (S * DM) + 6 / 10 ^ 16 * S). apply (ap_weak _ _ _ d) in AV; [|unfold d; lra].
    set (rho := sqrt (S * q)). assert (RR : rho * rho = S * q) by (apply sqrt_sqrt; lra). assert (R1 : 0 < rho) by (apply sqrt_lt_R0; lra).
    assert (Brho : 3 / 10 ^ 6 <= rho <= 143) by (split; apply Rsqr_incr_0_var; unfold Rsqr; lra).
    assert (dS : 0 <= d) by (unfold d; lra). assert (dq1 : d <= 11 / 10 ^ 4 * (S * q)) by (unfold d; lra).
    assert (dr : d / rho <= 11 / 10 ^ 4 * rho). { apply Rmult_le_reg_r with rho; auto. unfold Rdiv. rewrite Rmult_assoc, Rinv_l, Rmult_1_r by lra. lra. }
    assert (dr0 : 0 <= d / rho) by (unfold Rdiv; apply Rmult_le_pos; [lra|apply Rlt_le, Rinv_0_lt_compat; auto]).
    assert (u0r : 0 <= u0 * rho <= 12 / 10 ^ 17 * rho) by (split; [apply Rmult_le_pos; lra|apply Rmult_le_compat_r; lra]).
    pose proof (ap_sqrt _ _ _ rho rho (1.01 * rho) AV R1 ltac:(fold rho; lra) ltac:(fold rho; lra) ltac:(lra) ltac:(lra) ltac:(okb)) as A. fold rho in A. change (ap (nuB u c w tau) rho (d / rho + u0 * (1.01 * rho))) in A.
    pose proof (ap_int _ _ _ A) as IA. split; [apply A|]. set (x := ext (nuB u c w tau)) in *. split; [lra|]. destruct A as [_ A]. fold x in A.
    replace (S ^ 2 / C ^ 2) with (S * DM) by (unfold DM; field; lra). rewrite <- RR.
    replace (x ^ 2 - rho * rho) with ((x - rho) * (x + rho)) by ring. rewrite Rabs_mult, (Rabs_pos_eq (x + rho)) by lra.
    apply Rle_trans with ((d / rho + u0 * (1.01 * rho)) * (2.002 * rho)); [apply Rmult_le_compat; try lra; apply Rabs_pos|].
    replace ((d / rho + u0 * (1.01 * rho)) * (2.002 * rho)) with (2.002 * d + u0 * 1.01 * 2.002 * (rho * rho)) by (field; lra). rewrite RR.
    assert (u0 * 1.01 * 2.002 * (S * q) <= 12 / 10 ^ 17 * 1.01 * 2.002 * (1.02 * S)). { apply Rmult_le_compat; try lra; nra. } unfold d. lra.
Qed.

(** ** The corrections of a decided game *)
Lemma dec_vw L d m c D E C : exp_accurate L -> ap d D (1 / 10 ^ 11 * C) -> ap m E 0 -> ap c C (1 / 10 ^ 12 * C) ->
  1 <= C <= 10 ^ 6 -> Rabs D <= 22 * C -> 0 <= E <= 2.73 * C ->
  exists V W, rp (v_non_draw (A := B64A L) d m c) V (2 / 10 ^ 12) /\ ap (w_non_draw (A := B64A L) d m c) W (5 / 10 ^ 9) /\ 0 < V <= 27 /\ 0 < W < 1 /\
    Rabs (V - vwinN (D / C) (E / C)) <= 0.00001041 * vwinN (D / C) (E / C) /\ Rabs (W - wwinN (D / C) (E / C)) <= 0.000202 /\ 0 < vwinN (D / C) (E / C).
Proof.
  intros HE Ad Am Ac BC BD BE. rewrite fold_v, fold_w. assert (U0 : 0 < u0 <= 12 / 10 ^ 17) by ulra.
  assert (IC : 0 < / C <= 1) by (split; [apply Rinv_0_lt_compat; lra|rewrite <- Rinv_1; apply Rinv_le_contravar; lra]).
  assert (CC : C * / C = 1) by (apply Rinv_r; lra).
  assert (BT : Rabs (D / C) <= 22). { unfold Rdiv. rewrite Rabs_mult, (Rabs_pos_eq (/ C)) by lra. apply Rle_trans with (22 * C * / C); [apply Rmult_le_compat_r; lra|rewrite Rmult_assoc, CC; lra]. }
  assert (BX : 0 <= E / C <= 2.73). { unfold Rdiv. split; [apply Rmult_le_pos; lra|]. apply Rle_trans with (2.73 * C * / C); [apply Rmult_le_compat_r; lra|rewrite Rmult_assoc, CC; lra]. }
  assert (QC : forall k, k * C / (0.99 * C) = k / 0.99) by (intros; field; lra).
  assert (Q1 : (1 / 10 ^ 11 * C + 22 * (1 / 10 ^ 12 * C)) / (0.99 * C) = 32 / 10 ^ 12 / 0.99) by (rewrite <- QC; f_equal; lra).
  assert (Q2 : (0 + 2.73 * (1 / 10 ^ 12 * C)) / (0.99 * C) = 2.73 / 10 ^ 12 / 0.99).
  { rewrite <- QC. f_equal. lra. }
  assert (AC : Rabs C = C) by (apply Rabs_pos_eq; lra).
  pose proof (ap_div _ _ _ _ _ _ (0.99 * C) 22 23 Ad Ac ltac:(lra) ltac:(rewrite AC; lra) BT ltac:(rewrite Q1; lra) ltac:(okb)) as At. apply (ap_weak _ _ _ (34 / 10 ^ 12)) in At; [|rewrite Q1; lra].
  pose proof (ap_div _ _ _ _ _ _ (0.99 * C) 2.73 3 Am Ac ltac:(lra) ltac:(rewrite AC; lra) ltac:(rewrite Rabs_pos_eq; lra) ltac:(rewrite Q2; lra) ltac:(okb)) as Ae. apply (ap_weak _ _ _ (3 / 10 ^ 12)) in Ae; [|rewrite Q2; lra].
  set (t := Bdiv mode_NE d c) in *. set (e := Bdiv mode_NE m c) in *. pose proof (ap_int _ _ _ At) as It. pose proof (ap_int _ _ _ Ae) as Ie. apply Rabs_le_inv in BT.
  destruct (vw_ap L t e HE (proj1 At) (proj1 Ae) ltac:(apply Rabs_le; lra) ltac:(apply Rabs_le; lra)) as [xi [Hxi H]]. cbv zeta in H. destruct H as (Rv & Aw & BV & BW).
  exists (phi xi / Phi xi), (phi xi / Phi xi * (phi xi / Phi xi + xi)). split; [exact Rv|]. split; [exact Aw|]. split; [exact BV|]. split; [exact BW|].
  rewrite vwinN_hz, wwinN_hz. set (b := E / C - D / C) in *. apply Rabs_le_inv in Hxi. assert (Hb : Rabs b <= 26) by (unfold b; apply Rabs_le; lra).
  assert (Hd : Rabs (- xi - b) <= 38 / 10 ^ 12) by (unfold b; apply Rabs_le; lra).
  pose proof (hz_lip _ _ _ Hb Hd ltac:(lra)) as H1. pose proof (hw_lip _ _ _ Hb Hd ltac:(lra)) as H2. destruct (hz_range b Hb) as [P1 P2].
  assert (Hm : - 26 <= xi) by (unfold b in *; lra). destruct (win_close xi Hm) as [W1 W2]. set (V := phi xi / Phi xi) in *. apply Rabs_le_inv in H1, H2, W1, W2.
  split; [apply Rabs_le; lra|]. split; [apply Rabs_le; lra|exact P1].
Qed.

(** ** Decided games *)
Lemma fold_wc L b u1 u2 : ts_c_players (A := B64A L) b u1 u2 = wcB b u1 u2. Proof. reflexivity. Qed.
(** One player's side of a game, against the corrections [vN], [wN] of the specification. *)
Lemma side_ts L r u v c w tau rm V C W sg vN wN dv dw ev ew : num_in (- 10 ^ 4) (10 ^ 4) r -> num_in (/ 1000) 100 u -> num_in 0 100 tau -> ap rm sg 0 -> Rabs sg = 1 ->
  ap c C (1 / 10 ^ 12 * C) -> 1.41 <= C <= 10 ^ 6 -> ap v V dv -> ap w W dw -> Rabs V <= 27 -> 0 <= dv <= / 100 ->
  let S := B2R u ^ 2 + B2R tau ^ 2 in S + 1 <= C ^ 2 -> - / 100 <= W <= 1.01 -> / 10 ^ 5 <= 1 - W * S / C ^ 2 -> 0 <= dw <= / 1000 * (1 - W * S / C ^ 2) ->
  Rabs (V - vN) <= ev -> Rabs (W - wN) <= ew ->
  near (ts_new_rating (A := B64A L) r u v c tau rm) (B2R r + sg * (S / C * vN)) (S / C * (ev + 1.01 * dv + 12 / 10 ^ 13 * Rabs V) + 21 / 10 ^ 13) /\
  num_in (/ 10 ^ 6) 150 (ts_new_uncertainty (A := B64A L) u c w tau) /\
  Rabs (B2R (ts_new_uncertainty (A := B64A L) u c w tau) ^ 2 - S * (1 - wN * S / C ^ 2)) <= (ew + 2.1 * dw + 5 / 10 ^ 12) * (S ^ 2 / C ^ 2) + 2 / 10 ^ 15 * S.
Proof.
  intros Hr Hu Ht Arm Hs Ac BC Av Aw BV Bdv S HS BW Bq Bdw HV HW. destruct (num_ap _ _ _ Hr) as [Ar Br]. destruct (num_ap _ _ _ Hu) as [Au Bu]. destruct (num_ap _ _ _ Ht) as [At Bt].
  destruct (half_ts r u v c w tau rm _ _ V C W _ sg dv dw Ar Au At Arm Ac Av Aw ltac:(apply Rabs_le; lra) Bu Bt Hs BC BV Bdv HS BW Bq Bdw) as (A1 & F2 & B2 & A2). fold S in A1, A2.
  rewrite fold_nr, fold_nu. assert (S0 : 0 < S) by (unfold S; clear - Bu; nra). assert (C2 : 1.98 <= C ^ 2) by (clear - BC; nra).
  set (K := S / C) in *. assert (K0 : 0 < K) by (apply Rdiv_lt_0_compat; lra).
  assert (KV : Rabs (sg * (K * V - K * vN)) <= K * ev).
  { rewrite Rabs_mult, Hs, Rmult_1_l. replace (K * V - K * vN) with (K * (V - vN)) by ring. rewrite Rabs_mult, (Rabs_pos_eq K) by lra. apply Rmult_le_compat_l; lra. }
  split.
  - apply ap_near. destruct A1 as [F1 A1]. split; [exact F1|]. apply Rabs_le_inv in A1, KV. apply Rabs_le. lra.
  - rewrite (ext_fin _ F2) in B2, A2. split; [split; [exact F2|exact B2]|]. set (Q := S ^ 2 / C ^ 2) in *. assert (Q0 : 0 < Q) by (unfold Q; apply Rdiv_lt_0_compat; [apply pow_lt; auto|lra]).
    assert (E : forall z, S * (1 - z * S / C ^ 2) = S - z * Q) by (intros; unfold Q; field; lra). rewrite E in *. apply Rabs_le_inv in A2, HW. apply Rabs_le.
    assert (HQ : - (ew * Q) <= (W - wN) * Q <= ew * Q) by (split; [rewrite Ropp_mult_distr_l|]; apply Rmult_le_compat_r; lra). lra.
Qed.
Lemma q_low S C W : S + 1 <= C ^ 2 -> 0 < S <= 20000 -> 0 < W < 1 -> / 10 ^ 5 <= 1 - W * S / C ^ 2.
Proof.
  intros H B BW. assert (D : S / C ^ 2 <= 1 - / 10 ^ 5).
  { apply Rmult_le_reg_r with (C ^ 2); [lra|]. unfold Rdiv. rewrite Rmult_assoc, Rinv_l by lra. destruct (Rle_dec (C ^ 2) 40000); lra. }
  assert (D0 : 0 < S / C ^ 2) by (apply Rdiv_lt_0_compat; lra). replace (W * S / C ^ 2) with (W * (S / C ^ 2)) by (unfold Rdiv; ring).
  assert (W * (S / C ^ 2) <= 1 * (S / C ^ 2)) by (apply Rmult_le_compat_r; lra). lra.
Qed.
Lemma side_dec L r u v c w tau rm V C W sg vN wN : num_in (- 10 ^ 4) (10 ^ 4) r -> num_in (/ 1000) 100 u -> num_in 0 100 tau -> ap rm sg 0 -> Rabs sg = 1 ->
  ap c C (1 / 10 ^ 12 * C) -> 1.41 <= C <= 10 ^ 6 -> rp v V (2 / 10 ^ 12) -> ap w W (5 / 10 ^ 9) -> V <= 27 -> 0 < W < 1 ->
  let S := B2R u ^ 2 + B2R tau ^ 2 in S + 1 <= C ^ 2 ->
  Rabs (V - vN) <= 0.00001041 * vN -> Rabs (W - wN) <= 0.000202 -> 0 < vN ->
  near (ts_new_rating (A := B64A L) r u v c tau rm) (B2R r + sg * (S / C * vN)) (0.0000105 * Rabs (S / C * vN) + 3 / 10 ^ 12) /\
  num_in (/ 10 ^ 6) 150 (ts_new_uncertainty (A := B64A L) u c w tau) /\
  Rabs (B2R (ts_new_uncertainty (A := B64A L) u c w tau) ^ 2 - S * (1 - wN * S / C ^ 2)) <= 0.000203 * (S ^ 2 / C ^ 2) + 2 / 10 ^ 15 * S.
Proof.
  intros Hr Hu Ht Arm Hs Ac BC Rv Aw BV BW S HS HV HW HN. pose proof (proj1 (proj2 Rv)) as V0. destruct Hu as [Fu Bu]. destruct Ht as [Ft Bt].
  assert (S0 : 0 < S <= 20000) by (unfold S; clear - Bu Bt; nra). pose proof (q_low S C W HS S0 BW) as Q.
  destruct (side_ts L r u v c w tau rm V C W sg vN wN (2 / 10 ^ 12 * V) (5 / 10 ^ 9) _ _ Hr (conj Fu Bu) (conj Ft Bt) Arm Hs Ac BC (rp_ap _ _ _ Rv) Aw ltac:(rewrite Rabs_pos_eq; lra) ltac:(lra) HS ltac:(lra) Q ltac:(fold S; lra) HV HW) as (Y1 & Y2 & Y3).
  fold S in Y1, Y3. assert (K0 : 0 < S / C) by (apply Rdiv_lt_0_compat; lra). assert (C2 : 0 < C ^ 2) by lra. assert (Q0 : 0 <= S ^ 2 / C ^ 2) by (left; apply Rdiv_lt_0_compat; [apply pow_lt; lra|lra]).
  assert (KN : 0 < S / C * vN) by (apply Rmult_lt_0_compat; auto).
  split; [|split; [exact Y2|]].
  - destruct Y1 as [F1 Y1]. split; [exact F1|]. eapply Rle_trans; [exact Y1|]. rewrite (Rabs_pos_eq (S / C * vN)), (Rabs_pos_eq V) by lra. apply Rabs_le_inv in HV.
    replace (0.0000105 * (S / C * vN)) with (S / C * (0.0000105 * vN)) by ring. apply Rplus_le_compat; [apply Rmult_le_compat_l; lra|lra].
  - eapply Rle_trans; [exact Y3|]. apply Rplus_le_compat_r. apply Rmult_le_compat_r; [exact Q0|lra].
Qed.
(** What both players of a game share: [c], the margin and the difference of ratings. *)
Lemma game_common L (r1 u1 r2 u2 dp beta tau : B64) : exp_accurate L -> lnp_accurate L ->
  num_in (- 10 ^ 4) (10 ^ 4) r1 -> num_in (- 10 ^ 4) (10 ^ 4) r2 -> num_in (/ 1000) 100 u1 -> num_in (/ 1000) 100 u2 ->
  num_in 0.01 0.99 dp -> num_in 1 100 beta -> num_in 0 100 tau -> B2R tau <= B2R beta ->
  let m1 := B2R r1 in let m2 := B2R r2 in let s1 := B2R u1 in let s2 := B2R u2 in let b := B2R beta in
  let c := sqrt (s1 ^ 2 + s2 ^ 2 + 2 * b ^ 2) in let mg := ts_draw_margin (A := B64A L) dp beta (b64_of_Z 2) in
  ap (wcB beta u1 u2) c (8 / 10 ^ 16 * c) /\ 1.41 <= c <= 250 /\ c ^ 2 = s1 ^ 2 + s2 ^ 2 + 2 * b ^ 2 /\
  ap (Bminus mode_NE r1 r2) (m1 - m2) (25 / 10 ^ 13) /\ ap (Bminus mode_NE r2 r1) (m2 - m1) (25 / 10 ^ 13) /\
  s1 ^ 2 + B2R tau ^ 2 + 1 <= c ^ 2 /\ s2 ^ 2 + B2R tau ^ 2 + 1 <= c ^ 2 /\
  exists x, ap mg (x * sqrt 2 * b) 0 /\ 0 <= x /\ Rabs (x - unit_margin (B2R dp)) <= 2 / 10 ^ 10 /\ Rabs (Ncdf x - Ncdf (- x) - B2R dp) <= 0.0000121 /\ 0 <= x * sqrt 2 * b <= 2.73 * c.
Proof.
  intros HE HL H1 H2 Hu1 Hu2 Hd Hb Ht TB m1 m2 s1 s2 b c mg.
  destruct (num_ap _ _ _ H1) as [A1 B1]. destruct (num_ap _ _ _ H2) as [A2 B2]. destruct (num_ap _ _ _ Hu1) as [Au1 Bu1]. destruct (num_ap _ _ _ Hu2) as [Au2 Bu2].
  destruct (num_ap _ _ _ Hd) as [Ad Bd]. destruct (num_ap _ _ _ Hb) as [Ab Bb]. destruct (num_ap _ _ _ Ht) as [At Bt]. fold m1 in A1, B1. fold m2 in A2, B2. fold s1 in Au1, Bu1. fold s2 in Au2, Bu2. fold b in Ab, Bb, TB.
  destruct (wc_ap _ _ _ _ _ _ Ab Au1 Au2 Bb Bu1 Bu2) as (Ac & BC & _ & _). change (wlc b (s1 ^ 2) (s2 ^ 2)) with c in Ac, BC.
  destruct (margin_ap L dp beta (b64_of_Z 2) _ _ 2 HE HL Ad Ab (ap_Z 2 ltac:(vm_compute; discriminate)) Bd ltac:(lra) ltac:(lra)) as [Am BM]. fold mg in Am.
  assert (C2 : c ^ 2 = s1 ^ 2 + s2 ^ 2 + 2 * b ^ 2) by (unfold c; apply pow2_sqrt; clear; nra). assert (U0 : 0 < u0 <= 12 / 10 ^ 17) by ulra.
  assert (SB : 1.41 * b <= sqrt 2 * b <= 1.42 * b) by (pose proof sqrt2_15; split; apply Rmult_le_compat_r; lra).
  assert (SC : sqrt 2 * b <= c). { unfold c. replace (sqrt 2 * b) with (sqrt (2 * b ^ 2)); [apply sqrt_le_1; clear; nra|]. rewrite sqrt_mult by (clear; nra). rewrite sqrt_pow2 by lra. reflexivity. }
  assert (Bs1 : 0 < s1 ^ 2) by (apply pow_lt; lra). assert (Bs2 : 0 < s2 ^ 2) by (apply pow_lt; lra). assert (TB2 : B2R tau ^ 2 <= b ^ 2) by (apply pow_incr; lra). assert (b2 : 1 <= b ^ 2) by (clear - Bb; nra).
  split; [exact Ac|]. split; [exact BC|]. split; [exact C2|].
  split. { apply (ap_weak _ _ (0 + 0 + u0 * 20001)); [|lra]. apply (ap_sub _ _ _ _ _ _ 20001 A1 A2); [|okb]. apply Rle_trans with (20000 + (0 + 0)); [apply Rplus_le_compat_r; apply Rabs_le; lra|lra]. }
  split. { apply (ap_weak _ _ (0 + 0 + u0 * 20001)); [|lra]. apply (ap_sub _ _ _ _ _ _ 20001 A2 A1); [|okb]. apply Rle_trans with (20000 + (0 + 0)); [apply Rplus_le_compat_r; apply Rabs_le; lra|lra]. }
  split; [lra|]. split; [lra|]. set (um := unit_margin (B2R dp)) in *. set (G := sqrt 2 * b) in *. exists (ext mg / G). rewrite Rmult_assoc. fold G.
  assert (EX : ext mg / G * G = ext mg) by (field; lra). rewrite EX. destruct (unit_margin_acc (B2R dp) ltac:(lra)) as [X0 X1]. fold um in X0, X1.
  assert (MG : Rabs (ext mg / G - um) <= 2 / 10 ^ 10).
  { destruct Am as [_ Am]. rewrite Rmult_assoc in Am. fold G in Am. apply Rmult_le_reg_r with G; [lra|]. rewrite <- (Rabs_pos_eq G) at 2 by lra. rewrite <- Rabs_mult, Rmult_minus_distr_r, EX. exact Am. }
  pose proof (Rabs_le_inv _ _ MG) as MI. split; [apply ap_self; apply Am|]. split; [lra|]. split; [exact MG|].
  pose proof phi_le as Lp.
  pose proof (Ncdf_lip (ext mg / G) um 0.4 (fun z _ => Lp z)) as L1. pose proof (Ncdf_lip (- (ext mg / G)) (- um) 0.4 (fun z _ => Lp z)) as L2.
  replace (- (ext mg / G) - - um) with (- (ext mg / G - um)) in L2 by ring. rewrite Rabs_Ropp in L2. apply Rabs_le_inv in L1, L2, X1.
  split; [apply Rabs_le; lra|]. rewrite <- EX. split; [apply Rmult_le_pos; lra|]. apply Rmult_le_compat; lra.
Qed.
Lemma C103_decided_proof : forall L (r1 u1 r2 u2 dp beta tau : B64) o, exp_accurate L -> lnp_accurate L ->
  num_in (- 10 ^ 4) (10 ^ 4) r1 -> num_in (- 10 ^ 4) (10 ^ 4) r2 -> num_in (/ 1000) 100 u1 -> num_in (/ 1000) 100 u2 ->
  num_in 0.01 0.99 dp -> num_in 1 100 beta -> num_in 0 100 tau -> B2R tau <= B2R beta -> o <> DRAW ->
  let m1 := B2R r1 in let m2 := B2R r2 in let s1 := B2R u1 in let s2 := B2R u2 in let b := B2R beta in
  let c := sqrt (s1 ^ 2 + s2 ^ 2 + 2 * b ^ 2) in let t := (m1 - m2) / c in let S1 := s1 ^ 2 + B2R tau ^ 2 in let S2 := s2 ^ 2 + B2R tau ^ 2 in
  Rabs (m1 - m2) <= 22 * c ->
  let g := trueskill (A := B64A L) (mkTS r1 u1) (mkTS r2 u2) o (mkTSConfig dp beta tau) in
  exists x, 0 <= x /\ Rabs (Ncdf x - Ncdf (- x) - B2R dp) <= 0.0000121 /\
    let e := x * sqrt 2 * b in let v := tsN_v o t (e / c) in let w := tsN_w o t (e / c) in
    near (ts_rating (fst g)) (m1 + S1 / c * v) (0.0000105 * Rabs (S1 / c * v) + 3 / 10 ^ 12) /\
    near (ts_rating (snd g)) (m2 - S2 / c * v) (0.0000105 * Rabs (S2 / c * v) + 3 / 10 ^ 12) /\
    num_in (/ 10 ^ 6) 150 (ts_uncertainty (fst g)) /\ num_in (/ 10 ^ 6) 150 (ts_uncertainty (snd g)) /\
    Rabs (B2R (ts_uncertainty (fst g)) ^ 2 - S1 * (1 - w * S1 / c ^ 2)) <= 0.000203 * (S1 ^ 2 / c ^ 2) + 2 / 10 ^ 15 * S1 /\
    Rabs (B2R (ts_uncertainty (snd g)) ^ 2 - S2 * (1 - w * S2 / c ^ 2)) <= 0.000203 * (S2 ^ 2 / c ^ 2) + 2 / 10 ^ 15 * S2.
Proof.
  intros L r1 u1 r2 u2 dp beta tau o HE HL H1 H2 Hu1 Hu2 Hd Hb Ht TB HO m1 m2 s1 s2 b c t S1 S2 HD g.
  destruct (game_common L r1 u1 r2 u2 dp beta tau HE HL H1 H2 Hu1 Hu2 Hd Hb Ht TB) as (Ac & BC & C2 & AD & AD' & HS1 & HS2 & x & Am & X0 & _ & X1 & BE).
  fold m1 m2 in AD, AD'. fold s1 s2 b in Ac, BC, C2, Am, BE, HS1, HS2. fold c in Ac, BC, C2, BE, HS1, HS2. fold S1 in HS1. fold S2 in HS2.
  exists x. split; [exact X0|]. split; [exact X1|]. intros e v w. fold e in Am, BE.
  apply (ap_weak _ _ _ (1 / 10 ^ 12 * c)) in Ac; [|lra]. apply (ap_weak _ _ _ (1 / 10 ^ 11 * c)) in AD; [|lra]. apply (ap_weak _ _ _ (1 / 10 ^ 11 * c)) in AD'; [|lra].
  assert (P1 : ap (b64_of_Z 1) 1 0) by (apply ap_Z; vm_compute; discriminate). assert (P2 : ap (b64_of_Z (-1)) (-1) 0) by (apply ap_Z; vm_compute; discriminate).
  set (mg := ts_draw_margin (A := B64A L) dp beta (b64_of_Z 2)) in *. set (cc := wcB beta u1 u2) in *.
  assert (HD' : Rabs (m2 - m1) <= 22 * c) by (rewrite Rabs_minus_sym; exact HD).
  destruct o; [| |congruence].
  - destruct (dec_vw L _ mg cc _ e c HE AD Am Ac ltac:(lra) HD BE) as (V & W & Rv & Aw & BV & BW & HV & HW & VN).
    pose proof (side_dec L r1 u1 _ cc _ tau _ V c W 1 _ _ H1 Hu1 Ht P1 Rabs_R1 Ac ltac:(lra) Rv Aw (proj2 BV) BW HS1 HV HW VN) as (Y1 & Y2 & Y3).
    pose proof (side_dec L r2 u2 _ cc _ tau _ V c W (-1) _ _ H2 Hu2 Ht P2 ltac:(rewrite Rabs_left; lra) Ac ltac:(lra) Rv Aw (proj2 BV) BW HS2 HV HW VN) as (Z1 & Z2 & Z3).
    fold S1 in Y1, Y3. fold S2 in Z1, Z3. fold t in Y1, Y3, Z1, Z3. split; [replace (m1 + S1 / c * v) with (B2R r1 + 1 * (S1 / c * v)) by (unfold m1; ring); exact Y1|].
    split; [replace (m2 - S2 / c * v) with (B2R r2 + -1 * (S2 / c * v)) by (unfold m2; ring); exact Z1|].
    split; [exact Y2|]. split; [exact Z2|]. split; [exact Y3|exact Z3].
  - destruct (dec_vw L _ mg cc _ e c HE AD' Am Ac ltac:(lra) HD' BE) as (V & W & Rv & Aw & BV & BW & HV & HW & VN).
    assert (ET : (m2 - m1) / c = - t) by (unfold t; field; lra). rewrite ET in *.
    pose proof (side_dec L r1 u1 _ cc _ tau _ V c W (-1) _ _ H1 Hu1 Ht P2 ltac:(rewrite Rabs_left; lra) Ac ltac:(lra) Rv Aw (proj2 BV) BW HS1 HV HW VN) as (Y1 & Y2 & Y3).
    pose proof (side_dec L r2 u2 _ cc _ tau _ V c W 1 _ _ H2 Hu2 Ht P1 Rabs_R1 Ac ltac:(lra) Rv Aw (proj2 BV) BW HS2 HV HW VN) as (Z1 & Z2 & Z3).
    fold S1 in Y1, Y3. fold S2 in Z1, Z3. unfold v, tsN_v. rewrite <- !Ropp_mult_distr_r, !Rabs_Ropp.
    split; [replace (m1 + - (S1 / c * vwinN (- t) (e / c))) with (B2R r1 + -1 * (S1 / c * vwinN (- t) (e / c))) by (unfold m1; ring); exact Y1|].
    split; [replace (m2 - - (S2 / c * vwinN (- t) (e / c))) with (B2R r2 + 1 * (S2 / c * vwinN (- t) (e / c))) by (unfold m2; ring); exact Z1|].
    split; [exact Y2|]. split; [exact Z2|]. split; [exact Y3|exact Z3].
Qed.
