(** Proofs of C121 for Weng-Lin: a better result can hurt in the long run. *)
From Coq Require Import ZArith NArith List Bool Reals Lra Lia.
From Verif Require Import Arith XR Tac ModelLib ModelWengLin Spec ProofElo ProofWengLin.
Import Spec ListNotations.
Local Open Scope R_scope.

Section W.
Variables (so beta kappa : R).
Definition wc (v : R) : R := sqrt (v + so ^ 2 + 2 * beta ^ 2).
Definition wh (v : R) : R := v / wc v.
Definition wpr (m R0 c : R) : R := / (1 + exp ((R0 - m) / c)).
Definition wstep (x : R * R) (g : R * Outcomes) : R * R :=
  let '(m, s) := x in let c := wc (s ^ 2) in let p := wpr m (fst g) c in
  (m + wh (s ^ 2) * (points (snd g) - p), s * sqrt (Rmax (1 - (s / c) ^ 3 * p * (1 - p)) kappa)).
Hypothesis (Hso : 0 < so) (Hk : 0 < kappa <= 1).
Definition wgames (gs : list (R * Outcomes)) : list (WengLinRating XR * Outcomes) := map (fun g => (mkWL (Fin (fst g)) (Fin so), snd g)) gs.

Lemma wpr_swap a b c : / (1 + exp ((a - b) / c)) = 1 - wpr a b c.
Proof.
  unfold wpr. replace ((b - a) / c) with (- ((a - b) / c)) by (unfold Rdiv; ring). rewrite exp_Ropp. pose proof (exp_pos ((a - b) / c)). field. lra.
Qed.
Lemma wl_step m s g : 0 < s -> exists s', wstep (m, s) g = (fst (wstep (m, s) g), s') /\ 0 < s' <= s /\
  fst (weng_lin (mkWL (Fin m) (Fin s)) (mkWL (Fin (fst g)) (Fin so)) (snd g) (mkWLConfig (Fin beta) (Fin kappa))) = mkWL (Fin (fst (wstep (m, s) g))) (Fin s').
Proof.
  intro Hs. destruct (C42_proof m s (fst g) so (snd g) beta kappa Hs Hso Hk) as (m1 & s1 & m2 & s2 & E & M1 & _ & S1 & _ & P1 & _). rewrite E. cbn [fst].
  exists s1. unfold wstep, wh, wc. cbn [fst]. rewrite (wpr_swap m (fst g)) in S1. unfold wpr in *. rewrite <- M1. split; [|split; [exact P1|reflexivity]]. f_equal. rewrite S1. reflexivity.
Qed.
Lemma wl_period gs : forall m s, 0 < s -> let '(m', s') := fold_left wstep gs (m, s) in 0 < s' <= s /\
  weng_lin_rating_period (mkWL (Fin m) (Fin s)) (wgames gs) (mkWLConfig (Fin beta) (Fin kappa)) = mkWL (Fin m') (Fin s').
Proof.
  intros m s Hs. destruct (C48_proof _ _ (mkWL (Fin m) (Fin s)) (wgames gs) [] (mkWLConfig (Fin beta) (Fin kappa))) as [-> _]. revert m s Hs.
  induction gs as [|g gs IH]; intros m s Hs; cbn [fold_left wgames map]; [split; [lra|reflexivity]|]. destruct (wl_step m s g Hs) as (s1 & E & P & F). cbn [fst snd] in *. rewrite F, E.
  specialize (IH (fst (wstep (m, s) g)) s1 ltac:(lra)). destruct (fold_left wstep gs _) as [m' s']. destruct IH as [P' IH]. split; [lra|exact IH].
Qed.

Lemma wc_pos v : 0 <= v -> 0 < wc v.
Proof. intro H. apply sqrt_lt_R0. pose proof (pow_lt so 2 Hso). pose proof (pow2_ge_0 beta). lra. Qed.
Lemma wc_mono v w : v <= w -> wc v <= wc w. Proof. intro H. apply sqrt_le_1_alt. lra. Qed.
Lemma wh_lt v w : 0 <= v < w -> wh v < wh w.
Proof.
  intros [H0 H]. pose proof (wc_pos v H0) as C1. pose proof (wc_pos w ltac:(lra)) as C2. unfold wh. apply (Rmult_lt_reg_r (wc v * wc w)); [apply Rmult_lt_0_compat; assumption|].
  replace (v / wc v * (wc v * wc w)) with (v * wc w) by (field; lra). replace (w / wc w * (wc v * wc w)) with (w * wc v) by (field; lra).
  assert (S1 : wc v * wc v = v + so ^ 2 + 2 * beta ^ 2) by (apply sqrt_sqrt; pose proof (pow2_ge_0 so); pose proof (pow2_ge_0 beta); lra).
  assert (S2 : wc w * wc w = w + so ^ 2 + 2 * beta ^ 2) by (apply sqrt_sqrt; pose proof (pow2_ge_0 so); pose proof (pow2_ge_0 beta); lra).
  set (k := so ^ 2 + 2 * beta ^ 2) in *. assert (Hk' : 0 < k) by (unfold k; pose proof (pow_lt so 2 Hso); pose proof (pow2_ge_0 beta); lra).
  apply Rnot_le_lt. intro N. assert (w * wc v * (w * wc v) <= v * wc w * (v * wc w)) by (apply Rmult_le_compat; try exact N; apply Rmult_le_pos; lra).
  assert (T : w * w * (v + k) <= v * v * (w + k)). { replace (v + k) with (wc v * wc v) by (unfold k in *; lra). replace (w + k) with (wc w * wc w) by (unfold k in *; lra). lra. }
  assert (0 <= v * w * (w - v)) by (repeat apply Rmult_le_pos; lra). assert (0 < k * ((w - v) * (w + v))) by (repeat apply Rmult_lt_0_compat; lra). lra.
Qed.
Lemma wh_le v w : 0 <= v <= w -> wh v <= wh w.
Proof. intros [H0 H]. destruct (Req_dec v w) as [->|]; [lra|]. apply Rlt_le, wh_lt. lra. Qed.
Lemma wpr_01 m R0 c : 0 < wpr m R0 c < 1.
Proof. unfold wpr. pose proof (exp_pos ((R0 - m) / c)). split; [apply Rinv_0_lt_compat; lra|]. rewrite <- Rinv_1. apply Rinv_lt_contravar; lra. Qed.
Lemma wpr_small m R0 c L eps : 0 < c -> m + c * L <= R0 -> exp (- L) <= eps -> wpr m R0 c <= eps.
Proof.
  intros Hc H He. apply Rle_trans with (exp (- L)); [|exact He]. unfold wpr. rewrite exp_Ropp. apply Rinv_le_contravar; [apply exp_pos|]. assert (L <= (R0 - m) / c).
  { apply (Rmult_le_reg_r c); [exact Hc|]. replace ((R0 - m) / c * c) with (R0 - m) by (field; lra). lra. }
  assert (exp L <= exp ((R0 - m) / c)) by (destruct (Req_dec L ((R0 - m) / c)) as [->|]; [lra|apply Rlt_le, exp_increasing; lra]). lra.
Qed.
Lemma wpr_lt m m' R0 c : 0 < c -> m < m' -> wpr m R0 c < wpr m' R0 c.
Proof.
  intros Hc H. unfold wpr. pose proof (exp_pos ((R0 - m) / c)). pose proof (exp_pos ((R0 - m') / c)). apply Rinv_lt_contravar; [apply Rmult_lt_0_compat; lra|]. apply Rplus_lt_compat_l, exp_increasing.
  apply Rmult_lt_compat_r; [apply Rinv_0_lt_compat, Hc|lra].
Qed.
Lemma sc_01 s : 0 < s -> 0 < (s / wc (s ^ 2)) ^ 3 <= 1.
Proof.
  intro Hs. pose proof (wc_pos (s ^ 2) (pow2_ge_0 s)) as C. assert (B : s <= wc (s ^ 2)). { rewrite <- (sqrt_pow2 s) at 1 by lra. apply sqrt_le_1_alt. pose proof (pow2_ge_0 so). pose proof (pow2_ge_0 beta). lra. }
  assert (Q : 0 < s / wc (s ^ 2) <= 1). { split; [apply Rmult_lt_0_compat; [exact Hs|apply Rinv_0_lt_compat, C]|]. apply (Rmult_le_reg_r (wc (s ^ 2))); [exact C|]. replace (s / wc (s ^ 2) * wc (s ^ 2)) with s by (field; lra). lra. }
  split; [apply pow_lt; lra|]. rewrite <- (pow1 3). apply pow_incr. lra.
Qed.
Lemma wstep_s2 m s g : 0 < s -> snd (wstep (m, s) g) ^ 2 = s ^ 2 * Rmax (1 - (s / wc (s ^ 2)) ^ 3 * wpr m (fst g) (wc (s ^ 2)) * (1 - wpr m (fst g) (wc (s ^ 2)))) kappa.
Proof. intro Hs. unfold wstep. cbn [snd]. rewrite Rpow_mult_distr, pow2_sqrt; [reflexivity|]. eapply Rle_trans; [|apply Rmax_r]. lra. Qed.

(** [n] wins over an opponent rated [R0] *)
Lemma w_upper R0 n : forall m s, 0 < s -> fst (fold_left wstep (repeat (R0, WIN) n) (m, s)) <= m + INR n * wh (s ^ 2).
Proof.
  induction n as [|n IH]; intros m s Hs; [cbn; lra|]. cbn [repeat fold_left]. destruct (wl_step m s (R0, WIN) Hs) as (s1 & E & P & _). rewrite E. rewrite S_INR. specialize (IH (fst (wstep (m, s) (R0, WIN))) s1 ltac:(lra)).
  assert (M1 : fst (wstep (m, s) (R0, WIN)) = m + wh (s ^ 2) * (1 - wpr m R0 (wc (s ^ 2)))) by reflexivity. pose proof (wpr_01 m R0 (wc (s ^ 2))) as B. assert (0 <= wh (s ^ 2)) by (apply Rmult_le_pos; [apply pow2_ge_0|apply Rlt_le, Rinv_0_lt_compat, wc_pos, pow2_ge_0]).
  assert (wh (s1 ^ 2) <= wh (s ^ 2)) by (apply wh_le; split; [apply pow2_ge_0|apply pow_incr; lra]). assert (INR n * wh (s1 ^ 2) <= INR n * wh (s ^ 2)) by (apply Rmult_le_compat_l; [apply pos_INR|assumption]).
  assert (wh (s ^ 2) * (1 - wpr m R0 (wc (s ^ 2))) <= wh (s ^ 2) * 1) by (apply Rmult_le_compat_l; lra). lra.
Qed.
Lemma w_lower R0 L eps v n : 0 <= eps <= 1 -> 0 <= v -> 0 <= L -> exp (- L) <= eps -> forall m s, 0 < s -> m + INR n * wh (s ^ 2) + wc (s ^ 2) * L <= R0 -> v <= s ^ 2 * (1 - eps) ^ n ->
  m + INR n * ((1 - eps) * wh v) <= fst (fold_left wstep (repeat (R0, WIN) n) (m, s)).
Proof.
  intros He Hv HL0 HL. induction n as [|n IH]; intros m s Hs HR HV; [cbn; lra|]. cbn [repeat fold_left]. destruct (wl_step m s (R0, WIN) Hs) as (s1 & E & P & _). pose proof (wstep_s2 m s (R0, WIN) Hs) as S2. rewrite E in S2. rewrite E. cbn [snd fst] in S2. rewrite S_INR in *.
  set (c := wc (s ^ 2)) in *. set (p := wpr m R0 c) in *. pose proof (wc_pos (s ^ 2) (pow2_ge_0 s)) as Cp. fold c in Cp. pose proof (pos_INR n) as Pn.
  assert (H0 : 0 <= wh (s ^ 2)) by (apply Rmult_le_pos; [apply pow2_ge_0|apply Rlt_le, Rinv_0_lt_compat, Cp]). assert (Q0 : 0 <= INR n * wh (s ^ 2)) by (apply Rmult_le_pos; assumption).
  assert (Bp : p <= eps) by (apply (wpr_small m R0 c L eps Cp); lra). pose proof (wpr_01 m R0 c) as P01. fold p in P01.
  assert (M1 : fst (wstep (m, s) (R0, WIN)) = m + wh (s ^ 2) * (1 - p)) by reflexivity.
  assert (Hle : wh (s1 ^ 2) <= wh (s ^ 2)) by (apply wh_le; split; [apply pow2_ge_0|apply pow_incr; lra]). assert (Q1 : INR n * wh (s1 ^ 2) <= INR n * wh (s ^ 2)) by (apply Rmult_le_compat_l; assumption).
  assert (Q2 : wh (s ^ 2) * (1 - p) <= wh (s ^ 2) * 1) by (apply Rmult_le_compat_l; lra).
  assert (S3 : s ^ 2 * (1 - eps) <= s1 ^ 2). { rewrite S2. apply Rmult_le_compat_l; [apply pow2_ge_0|]. eapply Rle_trans; [|apply Rmax_l]. pose proof (sc_01 s Hs) as T. fold c in T. set (t := (s / c) ^ 3) in *.
    assert (t * p <= 1 * eps) by (apply Rmult_le_compat; lra). assert (t * p * (1 - p) <= t * p * 1) by (apply Rmult_le_compat_l; [apply Rmult_le_pos; lra|lra]). lra. }
  assert (V1 : v <= s1 ^ 2 * (1 - eps) ^ n). { eapply Rle_trans; [exact HV|]. simpl. rewrite <- Rmult_assoc. apply Rmult_le_compat_r; [apply pow_le; lra|]. simpl in S3. exact S3. }
  assert (Cm : wc (s1 ^ 2) * L <= c * L) by (apply Rmult_le_compat_r; [exact HL0|apply wc_mono, pow_incr; lra]).
  specialize (IH (fst (wstep (m, s) (R0, WIN))) s1 ltac:(lra) ltac:(rewrite M1; lra) V1). rewrite M1 in IH at 1. eapply Rle_trans; [|exact IH].
  assert (VS : v <= s ^ 2). { eapply Rle_trans; [exact V1|]. apply Rle_trans with (s1 ^ 2 * 1); [apply Rmult_le_compat_l; [apply pow2_ge_0|]|rewrite Rmult_1_r; apply pow_incr; lra]. apply Rle_trans with (1 ^ n); [apply pow_incr; lra|rewrite pow1; lra]. }
  assert (W : wh v <= wh (s ^ 2)) by (apply wh_le; lra). assert (0 <= wh v) by (apply Rmult_le_pos; [exact Hv|apply Rlt_le, Rinv_0_lt_compat, wc_pos, Hv]).
  assert ((1 - eps) * wh v <= (1 - p) * wh (s ^ 2)) by (apply Rmult_le_compat; lra). lra.
Qed.

Lemma bern eps n : 0 <= eps <= 1 -> 1 - INR n * eps <= (1 - eps) ^ n.
Proof.
  intro H. induction n as [|n IH]; [cbn; lra|]. rewrite S_INR. simpl. destruct (Rle_dec 0 (1 - INR n * eps)) as [G|G].
  - assert ((1 - eps) * (1 - INR n * eps) <= (1 - eps) * (1 - eps) ^ n) by (apply Rmult_le_compat_l; lra). assert (0 <= INR n * eps * eps) by (repeat apply Rmult_le_pos; try lra; apply pos_INR). lra.
  - assert (0 <= (1 - eps) * (1 - eps) ^ n) by (apply Rmult_le_pos; [lra|apply pow_le; lra]). lra.
Qed.
Lemma w_overtake mD mW sD sW : 0 < sW < sD -> exists R0 n, fst (fold_left wstep (repeat (R0, WIN) n) (mW, sW)) < fst (fold_left wstep (repeat (R0, WIN) n) (mD, sD)).
Proof.
  intros [HW HD]. assert (V : sW ^ 2 < sD ^ 2) by (simpl; rewrite !Rmult_1_r; apply Rmult_le_0_lt_compat; lra). pose proof (pow_lt sW 2 HW) as PW. set (vW := sW ^ 2) in *. set (vD := sD ^ 2) in *. set (v := (vW + vD) / 2).
  pose proof (wh_lt vW v ltac:(unfold v; lra)) as Hd. set (d := wh v - wh vW). assert (Pd : 0 < d) by (unfold d; lra). assert (Hv : 0 < wh v) by (apply Rmult_lt_0_compat; [unfold v; lra|apply Rinv_0_lt_compat, wc_pos; unfold v; lra]).
  assert (AR : exists n, Rabs (mW - mD) < INR n * (d / 2)). { destruct (archimed (Rabs (mW - mD) / (d / 2))) as [A _]. exists (Z.to_nat (up (Rabs (mW - mD) / (d / 2)))).
    assert (N : 0 <= Rabs (mW - mD) / (d / 2)) by (apply Rmult_le_pos; [apply Rabs_pos|apply Rlt_le, Rinv_0_lt_compat; lra]). rewrite INR_IZR_INZ, Z2Nat.id by (apply le_IZR; lra).
    apply (Rmult_lt_compat_r (d / 2)) in A; [|lra]. replace (Rabs (mW - mD) / (d / 2) * (d / 2)) with (Rabs (mW - mD)) in A by (field; lra). exact A. }
  destruct AR as [n Hn]. pose proof (pos_INR n) as Pn. set (e1 := (1 - v / vD) / (INR n + 1)). assert (F : 0 < 1 - v / vD). { assert (v / vD < 1); [|lra]. apply (Rmult_lt_reg_r vD); [unfold vD in *; lra|]. replace (v / vD * vD) with v by (field; unfold vD in *; lra). unfold v. lra. }
  assert (P1 : 0 < e1) by (apply Rmult_lt_0_compat; [exact F|apply Rinv_0_lt_compat; lra]). set (e2 := d / 2 / wh v). assert (P2 : 0 < e2) by (apply Rmult_lt_0_compat; [lra|apply Rinv_0_lt_compat, Hv]).
  set (eps := Rmin (Rmin e1 e2) 1). assert (He : 0 < eps <= 1) by (split; [repeat apply Rmin_glb_lt; lra|apply Rmin_r]). assert (E1 : eps <= e1) by (eapply Rle_trans; apply Rmin_l). assert (E2 : eps <= e2) by (eapply Rle_trans; [apply Rmin_l|apply Rmin_r]).
  set (L := - ln eps). assert (HL0 : 0 <= L). { unfold L. assert (ln eps <= ln 1); [|rewrite ln_1 in *; lra]. destruct (Req_dec eps 1) as [->|]; [lra|apply Rlt_le, ln_increasing; lra]. }
  assert (HL : exp (- L) <= eps) by (unfold L; rewrite Ropp_involutive, exp_ln; lra).
  exists (mD + INR n * wh vD + wc vD * L), n. set (R0 := mD + _ + _).
  pose proof (w_upper R0 n mW sW HW) as U. fold vW in U. pose proof (w_lower R0 L eps v n ltac:(lra) ltac:(unfold v; lra) HL0 HL mD sD ltac:(lra)) as Lo. fold vD in Lo. specialize (Lo ltac:(unfold R0; lra)).
  assert (HV : v <= vD * (1 - eps) ^ n). { pose proof (bern eps n ltac:(lra)) as Bn. assert (B2 : INR n * eps <= 1 - v / vD). { apply Rle_trans with (INR n * e1); [apply Rmult_le_compat_l; lra|]. unfold e1. apply (Rmult_le_reg_r (INR n + 1)); [lra|]. replace (INR n * ((1 - v / vD) / (INR n + 1)) * (INR n + 1)) with (INR n * (1 - v / vD)) by (field; unfold vD in *; lra). lra. }
    apply Rle_trans with (vD * (v / vD)); [right; field; unfold vD in *; lra|]. apply Rmult_le_compat_l; [unfold vD in *; lra|lra]. }
  specialize (Lo HV). assert (Q : eps * wh v <= d / 2). { apply Rle_trans with (e2 * wh v); [apply Rmult_le_compat_r; lra|]. unfold e2. right. field. lra. }
  assert (Q2 : INR n * (eps * wh v) <= INR n * (d / 2)) by (apply Rmult_le_compat_l; lra). apply Rabs_def2 in Hn.
  assert (INR n * ((1 - eps) * wh v) = INR n * wh vW + INR n * d - INR n * (eps * wh v)) by (unfold d; ring). lra.
Qed.
Lemma w_split m m' s : kappa < 1 -> 0 < s -> m < m' -> exists R0 mD sD mW sW, wstep (m, s) (R0, WIN) = (mD, sD) /\ wstep (m', s) (R0, WIN) = (mW, sW) /\ 0 < sW < sD.
Proof.
  intros Hk1 Hs Hm. set (c := wc (s ^ 2)). assert (Cp : 0 < c) by (apply wc_pos, pow2_ge_0). set (L := - ln ((1 - kappa) / 2)). exists (m' + c * L).
  destruct (wl_step m s (m' + c * L, WIN) Hs) as (sD & ED & PD & _). destruct (wl_step m' s (m' + c * L, WIN) Hs) as (sW & EW & PW & _).
  exists (fst (wstep (m, s) (m' + c * L, WIN))), sD, (fst (wstep (m', s) (m' + c * L, WIN))), sW. split; [exact ED|split; [exact EW|]]. split; [lra|].
  pose proof (wstep_s2 m s (m' + c * L, WIN) Hs) as SD. pose proof (wstep_s2 m' s (m' + c * L, WIN) Hs) as SW. rewrite ED in SD. rewrite EW in SW. cbn [fst snd] in SD, SW. fold c in SD, SW.
  set (p := wpr m (m' + c * L) c) in *. set (p' := wpr m' (m' + c * L) c) in *. assert (Bp' : p' <= (1 - kappa) / 2). { apply (wpr_small m' _ c L); [exact Cp|lra|]. unfold L. rewrite Ropp_involutive, exp_ln; lra. }
  assert (Lt : p < p') by (apply wpr_lt; assumption). pose proof (wpr_01 m (m' + c * L) c) as P01. fold p in P01. pose proof (wpr_01 m' (m' + c * L) c) as P01'. fold p' in P01'.
  pose proof (sc_01 s Hs) as T. fold c in T. set (t := (s / c) ^ 3) in *. apply Rnot_le_lt. intro N. assert (sD ^ 2 <= sW ^ 2) by (apply pow_incr; lra). rewrite SD, SW in H. pose proof (pow_lt s 2 Hs) as Ps. apply Rmult_le_reg_l in H; [|exact Ps].
  assert (X : t * p * (1 - p) < t * p' * (1 - p')). { rewrite !Rmult_assoc. apply Rmult_lt_compat_l; [lra|]. assert (0 < (p' - p) * (1 - p - p')) by (apply Rmult_lt_0_compat; lra). lra. }
  assert (Y : t * p' * (1 - p') < 1 - kappa). { assert (t * p' <= 1 * ((1 - kappa) / 2)) by (apply Rmult_le_compat; lra). assert (t * p' * (1 - p') <= t * p' * 1) by (apply Rmult_le_compat_l; [apply Rmult_le_pos; lra|lra]). lra. }
  rewrite (Rmax_left (1 - t * p' * (1 - p'))) in H by lra. pose proof (Rmax_l (1 - t * p * (1 - p)) kappa). lra.
Qed.
End W.

Lemma C121_weng_lin_refuted_proof : forall m s mo so beta kappa, 0 < s -> 0 < so -> 0 < kappa < 1 -> exists l a b sa sb, List.Forall (fun g => snd g = WIN) l /\
  let games := map (fun g => (mkWL (Fin (fst g)) (Fin so), snd g)) in let cfg := mkWLConfig (Fin beta) (Fin kappa) in
  weng_lin_rating_period (mkWL (Fin m) (Fin s)) (games ((mo, DRAW) :: l)) cfg = mkWL (Fin a) (Fin sa) /\
  weng_lin_rating_period (mkWL (Fin m) (Fin s)) (games ((mo, WIN) :: l)) cfg = mkWL (Fin b) (Fin sb) /\ b < a.
Proof.
  intros m s mo so beta kappa Hs Hso Hk. assert (Hk' : 0 < kappa <= 1) by lra. pose (st := wstep so beta kappa).
  assert (E1 : exists mD mW s1, st (m, s) (mo, DRAW) = (mD, s1) /\ st (m, s) (mo, WIN) = (mW, s1) /\ mD < mW /\ 0 < s1).
  { destruct (wl_step so beta kappa Hso Hk' m s (mo, DRAW) Hs) as (s1 & E & P & _). do 3 eexists. split; [exact E|]. split; [transitivity (fst (st (m, s) (mo, WIN)), snd (wstep so beta kappa (m, s) (mo, DRAW))); [reflexivity|rewrite E; reflexivity]|]. split; [|lra].
    unfold st, wstep. cbn [fst snd points]. pose proof (pow_lt s 2 Hs). assert (0 < wh so beta (s ^ 2)) by (apply Rmult_lt_0_compat; [assumption|apply Rinv_0_lt_compat, wc_pos; [exact Hso|apply pow2_ge_0]]). apply Rplus_lt_compat_l, Rmult_lt_compat_l; lra. }
  destruct E1 as (mD & mW & s1 & ED & EW & HM & Hs1). destruct (w_split so beta kappa Hso Hk' mD mW s1 ltac:(lra) Hs1 HM) as (R2 & m2 & sD & m3 & sW & F2 & F3 & HS).
  destruct (w_overtake so beta kappa Hso Hk' m2 m3 sD sW HS) as (R0 & n & HO). set (l := (R2, WIN) :: repeat (R0, WIN) n).
  pose proof (wl_period so beta kappa Hso Hk' ((mo, DRAW) :: l) m s Hs) as PD. pose proof (wl_period so beta kappa Hso Hk' ((mo, WIN) :: l) m s Hs) as PW.
  assert (FD : fold_left (wstep so beta kappa) ((mo, DRAW) :: l) (m, s) = fold_left (wstep so beta kappa) (repeat (R0, WIN) n) (m2, sD)) by (change (fold_left (wstep so beta kappa) (repeat (R0, WIN) n) (wstep so beta kappa (st (m, s) (mo, DRAW)) (R2, WIN)) = fold_left (wstep so beta kappa) (repeat (R0, WIN) n) (m2, sD)); rewrite ED, F2; reflexivity).
  assert (FW : fold_left (wstep so beta kappa) ((mo, WIN) :: l) (m, s) = fold_left (wstep so beta kappa) (repeat (R0, WIN) n) (m3, sW)) by (change (fold_left (wstep so beta kappa) (repeat (R0, WIN) n) (wstep so beta kappa (st (m, s) (mo, WIN)) (R2, WIN)) = fold_left (wstep so beta kappa) (repeat (R0, WIN) n) (m3, sW)); rewrite EW, F3; reflexivity).
  rewrite FD in PD. rewrite FW in PW.
  destruct (fold_left _ _ (m2, sD)) as [a sa]. destruct (fold_left _ _ (m3, sW)) as [b sb]. cbn [fst] in HO.
  exists l, a, b, sa, sb. split; [constructor; [reflexivity|]; apply Forall_forall; intros g I; apply repeat_spec in I; rewrite I; reflexivity|]. split; [apply PD|split; [apply PW|exact HO]].
Qed.
