(** Accuracy of the Weng-Lin team formulas in double precision. *)
From Coq Require Import ZArith NArith List Bool Reals Lra Lia Psatz.
From Flocq Require Import Core.Core IEEE754.BinarySingleNaN.
From Verif Require Import Arith XR B64 ModelLib ModelWengLin Spec SpecB64 SpecAcc SpecAcc5 Tac MathB64 ProofB64 ProofB64b ProofB64c MathB64b ProofB64d MathAcc MathAcc2 ProofWengLin ProofAcc ProofAcc2 MathRel.
Import ListNotations.
Local Open Scope R_scope.
#[local] Opaque Bplus Bminus Bmult Bdiv Bfma Bsqrt Bopp Babs b64_max b64_min b64_of_Z b64_lit.

Lemma Rsum_le (X : Type) (F : X -> R) M l : Forall (fun x => F x <= M) l -> Rsum (map F l) <= INR (length l) * M.
Proof. induction 1 as [|x l Hx _ IH]; [simpl; lra|]. cbn [map length]. rewrite S_INR. rewrite Rsum_cons. lra. Qed.
Lemma Rsum_ge1 (X : Type) (F : X -> R) m l : l <> [] -> Forall (fun x => m <= F x /\ 0 < F x) l -> m <= Rsum (map F l).
Proof.
  intros NE H. destruct l as [|x l]; [congruence|]. inversion H as [|? ? [A _] Hl]; subst. cbn [map]. rewrite Rsum_cons. pose proof (Rsum_nonneg _ F l ltac:(eapply Forall_impl; [|exact Hl]; intros ? [_ ?]; auto)). lra.
Qed.
Lemma wl_theta_re t : wl_theta (map wl_re t) = Rsum (map (fun p => B2R (wl_rating p)) t).
Proof. unfold wl_theta. rewrite map_map. reflexivity. Qed.
Lemma wl_s2_re t : wl_s2 (map wl_re t) = Rsum (map (fun p => B2R (wl_uncertainty p) * B2R (wl_uncertainty p)) t).
Proof. unfold wl_s2. rewrite map_map. f_equal. apply map_ext. intros p. change (snd (wl_re p)) with (B2R (wl_uncertainty p)). generalize (B2R (wl_uncertainty p)). intros x. ring. Qed.

Lemma sq_rng S : / 1000 <= S <= 100 -> / 10 ^ 6 <= S * S <= 10 ^ 4.
Proof. intros H. split; [apply Rle_trans with (/ 1000 * / 1000); [lra|apply Rmult_le_compat; lra]|apply Rle_trans with (100 * 100); [apply Rmult_le_compat; lra|lra]]. Qed.
Lemma sq_both S : / 1000 <= S <= 100 -> / 10 ^ 6 <= S * S /\ 0 < S * S. Proof. intros H. pose proof (sq_rng S H). lra. Qed.
Lemma sq_rl u S : ap u S 0 -> / 1000 <= S <= 100 -> rl (Bmult mode_NE u u) (S * S) v0.
Proof.
  intros A B. pose proof (sq_rng S B) as Q. pose proof (rl_exact _ _ A ltac:(lra)) as E. apply (rl_mul _ _ _ _ _ _ _ E E); unfold v0; lra.
Qed.
Lemma BS200 x : / 10 ^ 6 <= x <= 5 * 10 ^ 5 -> / 10 ^ 200 <= 1.01 * x <= 10 ^ 200. Proof. intros H. okb. Qed.
(** a team's sums *)
Lemma team_ap L n t : (1 <= n <= 50)%nat -> wl_usual n t ->
  ap (wl_team_rating (A := B64A L) t) (wl_theta (map wl_re t)) (61 / 10 ^ 15 * INR n ^ 2) /\
  rl (wl_team_uncertainty_sq (A := B64A L) t) (wl_s2 (map wl_re t)) (52 * v0) /\ / 10 ^ 6 <= wl_s2 (map wl_re t) <= 5 * 10 ^ 5 /\
  rl (wl_team_uncertainty_sq (A := B64A L) t) (wl_s2 (map wl_re t)) ((INR n + 1) * v0).
Proof.
  intros Hn [NE [Hl HF]]. assert (BN : 1 <= INR n <= 50). { split; [apply (le_INR 1); lia|]. replace 50 with (INR 50) by (rewrite INR_IZR_INZ; reflexivity). apply le_INR; lia. }
  assert (Hl' : INR (length t) <= INR n) by (apply le_INR; lia). rewrite wl_theta_re, wl_s2_re.
  assert (R2 : forall c, 51 * v0 <= c -> True) by auto.
  assert (BS : / 10 ^ 6 <= Rsum (map (fun p => B2R (wl_uncertainty p) * B2R (wl_uncertainty p)) t) <= 5 * 10 ^ 5).
  { split.
    - apply Rsum_ge1; [exact NE|]. eapply Forall_impl; [|exact HF]. intros p [_ [_ B]]. exact (sq_both _ B).
    - apply Rle_trans with (INR (length t) * 10 ^ 4); [|apply Rle_trans with (50 * 10 ^ 4); [apply Rmult_le_compat_r; lra|lra]]. apply Rsum_le. eapply Forall_impl; [|exact HF]. intros p [_ [_ B]]. exact (proj2 (sq_rng _ B)). }
  assert (RS : rl (wl_team_uncertainty_sq (A := B64A L) t) (Rsum (map (fun p => B2R (wl_uncertainty p) * B2R (wl_uncertainty p)) t)) ((INR n + 1) * v0)).
  { apply (fsumP (WengLinRating B64) L (fun p => Bmult mode_NE (wl_uncertainty p) (wl_uncertainty p)) _ v0 _ (B754_zero true)); [left; reflexivity|unfold v0; lra|exact NE|match type of BS with / 10 ^ 6 <= ?x <= _ => apply (BS200 x BS) end| |lra| |].
    - eapply Forall_impl; [|exact HF]. intros p [_ B]. destruct (num_ap _ _ _ B) as [A B']. apply sq_rl; auto.
    - assert (INR (length t) * v0 <= INR n * v0) by (apply Rmult_le_compat_r; [unfold v0|]; lra). lra.
    - unfold v0. lra. }
  split; [|split; [|split; [exact BS|exact RS]]].
  - pose proof (fsumN (WengLinRating B64) L (fun p => wl_rating p) (fun p => B2R (wl_rating p)) 500 (INR n) t ltac:(lra) ltac:(lra)) as H.
    assert (G : ap (wl_team_rating (A := B64A L) t) (Rsum (map (fun p => B2R (wl_rating p)) t)) (INR n * (u0 * (1.01 * INR n * 500)))).
    { apply H; [|exact Hl']. eapply Forall_impl; [|exact HF]. intros p [B _]. destruct (num_ap _ _ _ B) as [A B']. split; [exact A|apply Rabs_le; lra]. }
    apply (ap_weak _ _ _ _ G). clear - BN. generalize dependent (INR n). intros x BN. assert (H2 : 0 <= x * x) by (apply Rmult_le_pos; lra). unfold u0. replace 1.01 with (101 / 100) by lra. simpl. lra.
  - apply (rl_weak _ _ _ _ RS); [apply Rmult_le_compat_r; unfold v0; lra|unfold v0; lra].
Qed.

Lemma wct_ap L b BT v1 v2 V1 V2 NN : ap b BT 0 -> 1 <= BT <= 100 -> 1 <= NN <= 50 -> rl v1 V1 ((NN + 1) * v0) -> rl v2 V2 ((NN + 1) * v0) ->
  / 10 ^ 6 <= V1 <= 5 * 10 ^ 5 -> / 10 ^ 6 <= V2 <= 5 * 10 ^ 5 ->
  let C := wlc BT V1 V2 in rl (wl_c_teams (A := B64A L) b v1 v2) C ((NN + 4) * v0) /\ 1.41 <= C <= 1100 /\ sqrt V1 <= C /\ sqrt V2 <= C.
Proof.
  intros Ab Bb BN R1 R2 B1 B2 C. assert (Q3 : 1 <= BT * BT <= 10000) by nra. assert (V0 : 0 < v0 < / 10 ^ 15) by (unfold v0; lra).
  assert (HV : 0 <= NN * v0 <= 50 * v0) by (split; [apply Rmult_le_pos; lra|apply Rmult_le_compat_r; lra]).
  pose proof (rl_exact _ _ Ab ltac:(lra)) as Eb. pose proof (rl_mul _ _ _ _ _ _ v0 Eb Eb ltac:(lra) ltac:(lra) ltac:(lra)) as EB.
  pose proof (rl_add _ _ _ _ _ _ ((NN + 2) * v0) R1 R2 ltac:(lra) ltac:(rewrite Rmax_left by lra; lra) ltac:(lra)) as ES.
  pose proof (rl_fma _ _ _ _ _ _ _ _ _ ((NN + 3) * v0) (rl_exact _ _ (ap_Z 2 ltac:(vm_compute; discriminate)) ltac:(lra)) EB ES ltac:(lra) ltac:(lra) ltac:(lra) ltac:(lra)) as EX.
  apply (rl_eq _ _ (V1 + V2 + 2 * BT ^ 2)) in EX; [|ring]. set (X := V1 + V2 + 2 * BT ^ 2) in *. assert (BX : 2 <= X <= 1020000) by (unfold X; lra).
  assert (CC : C * C = X) by (apply sqrt_sqrt; lra). assert (C0 : 0 < C) by (apply sqrt_lt_R0; lra).
  assert (BC : 1.41 <= C <= 1100) by (split; apply Rsqr_incr_0_var; unfold Rsqr; lra).
  assert (SV : forall v, 0 <= v <= X -> sqrt v <= C) by (intros v Hv; change (sqrt v <= sqrt X); apply sqrt_le_1_alt; lra).
  assert (B2P : 0 <= BT ^ 2) by apply pow2_ge_0. split; [|split; [exact BC|split; apply SV; unfold X; lra]].
  assert (BC' : / 10 ^ 29 <= C <= 10 ^ 29) by lra. exact (rl_sqrt _ _ _ ((NN + 4) * v0) EX BC' ltac:(lra) ltac:(lra)).
Qed.

Lemma wlp_compl a b c : 0 < c -> wlp b a c = 1 - wlp a b c.
Proof. intros H. unfold wlp. replace ((a - b) / c) with (- ((b - a) / c)) by (field; lra). rewrite exp_Ropp. set (x := exp _). assert (P : 0 < x) by apply exp_pos. field. lra. Qed.
Lemma wpt_ap L r1 r2 c R1 R2 C NN : exp_accurate L -> 1 <= NN <= 50 -> ap r1 R1 (61 / 10 ^ 15 * NN ^ 2) -> ap r2 R2 (61 / 10 ^ 15 * NN ^ 2) -> rl c C ((NN + 4) * v0) ->
  Rabs R1 <= 400 * C -> Rabs R2 <= 400 * C -> 1.41 <= C <= 1100 ->
  ap (fst (wl_p_value (A := B64A L) r1 r2 c)) (wlp R1 R2 C) (2 * (NN ^ 2 + 3) / 10 ^ 13) /\ 0 < wlp R1 R2 C < 1.
Proof.
  intros HE BN A1 A2 [_ [_ AC]] B1 B2 BC. assert (NS : NN <= NN ^ 2 <= 2500) by nra. set (q := NN ^ 2) in *.
  assert (RC : (NN + 4) * v0 <= (q + 4) * v0) by (apply Rmult_le_compat_r; unfold v0; lra). set (rc := (NN + 4) * v0) in *.
  assert (RC0 : 0 <= rc) by (unfold rc; apply Rmult_le_pos; unfold v0; lra). unfold v0 in RC. assert (RCC : 0 <= rc * C <= / 10 ^ 4 * C) by (split; [apply Rmult_le_pos; lra|apply Rmult_le_compat_r; lra]).
  set (dY := (94 * q + 250) / 10 ^ 15).
  assert (Y : forall r R0, ap r R0 (61 / 10 ^ 15 * q) -> Rabs R0 <= 400 * C -> Rabs (R0 / C) <= 400 /\ ap (Bdiv mode_NE r c) (R0 / C) dY).
  { intros r R0 A B. assert (BY : Rabs (R0 / C) <= 400). { unfold Rdiv. rewrite Rabs_mult, (Rabs_pos_eq (/ C)) by (left; apply Rinv_0_lt_compat; lra). apply Rmult_le_reg_r with C; [lra|]. rewrite Rmult_assoc, Rinv_l by lra. lra. }
    split; [exact BY|].
    assert (Ev : (61 / 10 ^ 15 * q + 400 * (rc * C)) / (99 / 100 * C) <= 44 / 10 ^ 15 * q + 400 * rc * (100 / 99)).
    { apply Rmult_le_reg_r with (99 / 100 * C); [lra|]. unfold Rdiv at 1. rewrite Rmult_assoc, Rinv_l by lra. assert (q * 1.41 <= q * C) by (apply Rmult_le_compat_l; lra). lra. }
    pose proof (ap_div _ _ _ _ _ _ (99 / 100 * C) 400 401 A AC ltac:(lra) ltac:(rewrite Rabs_pos_eq; lra) BY ltac:(lra) ltac:(okb)) as D. apply (ap_weak _ _ _ _ D). unfold dY. ulra. }
  destruct (Y r1 R1 A1 B1) as [Y1 D1]. destruct (Y r2 R2 A2 B2) as [Y2 D2].
  assert (BD : 344 / 10 ^ 15 <= dY <= / 10 ^ 9) by (unfold dY; lra).
  destruct (exp_ap L _ _ _ HE D1 ltac:(lra) ltac:(lra)) as [E1 G1]. destruct (exp_ap L _ _ _ HE D2 ltac:(lra) ltac:(lra)) as [E2 G2].
  set (x1 := exp (R1 / C)) in *. set (x2 := exp (R2 / C)) in *. assert (P180 : 0 < / 10 ^ 180) by (apply Rinv_0_lt_compat, pow_lt; lra).
  set (z := 1.02 * dY) in *. assert (BZ : 344 / 10 ^ 15 <= z <= / 10 ^ 8) by (unfold z; lra).
  apply (ap_weak _ _ _ (z * x1)) in E1; [|apply Rmult_le_compat_r; unfold z; lra]. apply (ap_weak _ _ _ (z * x2)) in E2; [|apply Rmult_le_compat_r; unfold z; lra].
  assert (U0 : 0 < u0 <= 12 / 10 ^ 17) by ulra. set (x := x1 + x2) in *. assert (X0 : 0 < x) by (unfold x; lra). assert (ux : 0 <= u0 * x <= 12 / 10 ^ 17 * x) by (split; [apply Rmult_le_pos; lra|apply Rmult_le_compat_r; lra]).
  assert (Ok : / 10 ^ 200 <= 1.01 * x <= 10 ^ 200).
  { assert (10 ^ 180 * 10 <= 10 ^ 200) by (replace (10 ^ 200) with (10 ^ 180 * 10 ^ 20) by (rewrite <- pow_add; reflexivity); apply Rmult_le_compat_l; [apply pow_le|]; lra).
    assert (/ 10 ^ 200 <= / 10 ^ 180) by (apply Rinv_le_contravar; [apply pow_lt; lra|apply Rle_pow; [lra|lia]]). unfold x. lra. }
  assert (ZX : 344 / 10 ^ 15 * x <= z * x <= / 10 ^ 8 * x) by (split; apply Rmult_le_compat_r; lra). assert (ZE : z * x1 + z * x2 = z * x) by (unfold x; ring).
  pose proof (ap_add _ _ _ _ _ _ (1.01 * x) E1 E2 ltac:(fold x; rewrite Rabs_pos_eq by lra; lra) Ok) as S. fold x in S. apply (ap_weak _ _ _ (1.001 * z * x)) in S; [|lra].
  assert (BP : 0 < x1 / x < 1). { unfold Rdiv. split; [apply Rmult_lt_0_compat; [lra|apply Rinv_0_lt_compat; lra]|]. apply Rmult_lt_reg_r with x; auto. rewrite Rmult_assoc, Rinv_l by lra. unfold x; lra. }
  assert (EW : wlp R1 R2 C = x1 / x).
  { unfold wlp, x. replace ((R2 - R1) / C) with (R2 / C + - (R1 / C)) by (field; lra). rewrite exp_plus, exp_Ropp. fold x1. fold x2. field. unfold x in X0. lra. }
  rewrite EW. split; [|exact BP].
  assert (Zx : z * x1 <= z * x) by (apply Rmult_le_compat_l; unfold x; lra).
  pose proof (ap_div _ _ _ _ _ _ (99 / 100 * x) 1 1.01 E1 S ltac:(lra) ltac:(rewrite Rabs_pos_eq; lra) ltac:(rewrite Rabs_pos_eq; lra)) as D.
  assert (Ev : (z * x1 + 1 * (1.001 * z * x)) / (99 / 100 * x) <= 2.022 * z).
  { apply Rmult_le_reg_r with (99 / 100 * x); [lra|]. unfold Rdiv at 1. rewrite Rmult_assoc, Rinv_l by lra. lra. }
  specialize (D ltac:(lra) ltac:(okb)). apply (ap_weak _ _ _ (2 * (q + 3) / 10 ^ 13)) in D; [exact D|unfold z, dY in *; ulra].
Qed.

(** rating change and shrinking of one side against another *)
Section Pair.
Variables (L : Libm) (v c p s : B64) (V C P s0 e1 : R).
Hypothesis (BE : 8 / 10 ^ 13 <= e1 <= / 10 ^ 8).
Hypothesis (Rv : rl v V (51 * v0)) (Rc : rl c C (54 * v0)) (Ap : ap p P e1) (As : ap s s0 0).
Hypothesis (BV : / 10 ^ 6 <= V <= 5 * 10 ^ 5) (BC : 1.41 <= C <= 1100) (VC : sqrt V <= C) (BP : 0 <= P <= 1) (Bs : 0 <= s0 <= 1).
Lemma W_rng : / 1000 <= sqrt V <= 708 /\ sqrt V * sqrt V = V.
Proof. assert (E : sqrt V * sqrt V = V) by (apply sqrt_sqrt; lra). split; [|exact E]. pose proof (sqrt_pos V). split; apply Rsqr_incr_0_var; unfold Rsqr; lra. Qed.
Lemma delta_ap : ap (wl_small_delta (A := B64A L) v c p s) (V / C * (s0 - P)) (1.1 * e1 * sqrt V) /\ Rabs (V / C * (s0 - P)) <= sqrt V.
Proof.
  destruct W_rng as [BW EW]. set (W := sqrt V) in *. assert (V0 : 0 < v0 < / 10 ^ 15) by (unfold v0; lra).
  assert (KW : V / C <= W). { apply Rmult_le_reg_r with C; [lra|]. unfold Rdiv. rewrite Rmult_assoc, Rinv_l, Rmult_1_r by lra. rewrite <- EW. apply Rmult_le_compat_l; lra. }
  assert (K0 : / 10 ^ 10 <= V / C). { apply Rmult_le_reg_r with C; [lra|]. unfold Rdiv. rewrite Rmult_assoc, Rinv_l, Rmult_1_r by lra. lra. }
  pose proof (rl_div _ _ _ _ _ _ (2 / 10 ^ 14) Rv Rc ltac:(lra) ltac:(unfold v0; lra) ltac:(lra)) as [_ [_ AK]]. set (K := V / C) in *.
  pose proof (pts_minus_ap _ _ _ _ _ As Bs Ap BP ltac:(lra)) as A4. apply (ap_weak _ _ _ (1.001 * e1)) in A4; [|lra].
  assert (Bd : Rabs (s0 - P) <= 1) by (apply Rabs_le; lra). assert (U0 : 0 < u0 <= 12 / 10 ^ 17) by ulra.
  assert (uK : 0 <= u0 * K <= 12 / 10 ^ 17 * K) by (split; [apply Rmult_le_pos; lra|apply Rmult_le_compat_r; lra]).
  assert (eK : 8 / 10 ^ 13 * K <= e1 * K <= / 10 ^ 8 * K) by (split; apply Rmult_le_compat_r; lra).
  assert (eKK : e1 * K * (2 / 10 ^ 14) <= / 10 ^ 8 * K * (2 / 10 ^ 14)) by (apply Rmult_le_compat_r; lra).
  assert (eW : e1 * K <= e1 * W) by (apply Rmult_le_compat_l; lra).
  pose proof (ap_mul _ _ _ _ _ _ K 1 (1.01 * K) AK A4 ltac:(rewrite Rabs_pos_eq; lra) Bd ltac:(lra) ltac:(okb)) as T. split.
  - apply (ap_weak _ _ _ _ T). lra.
  - rewrite Rabs_mult, (Rabs_pos_eq K) by lra. apply Rle_trans with (K * 1); [apply Rmult_le_compat_l; lra|lra].
Qed.
Lemma eta_ap : let G := sqrt V / C * (sqrt V / C) ^ 2 * P * (1 - P) in ap (wl_eta (A := B64A L) v c p (wl_gamma (A := B64A L) v c)) G (2.4 * e1) /\ 0 <= G <= / 4.
Proof.
  intros G. destruct W_rng as [BW EW]. set (W := sqrt V) in *. assert (V0 : 0 < v0 < / 10 ^ 15) by (unfold v0; lra).
  assert (BG : / 10 ^ 7 <= W / C <= 1). { split; apply Rmult_le_reg_r with C; try lra; unfold Rdiv; rewrite Rmult_assoc, Rinv_l, Rmult_1_r by lra; lra. }
  assert (RW : rl (Bsqrt mode_NE v) W (52 * v0)) by (apply (rl_sqrt _ _ _ _ Rv); fold W; lra).
  pose proof (rl_div _ _ _ _ _ _ (108 * v0) RW Rc ltac:(lra) ltac:(lra) ltac:(lra)) as Rg. set (g := W / C) in *.
  assert (BgV : / 10 ^ 13 <= g * V <= 5 * 10 ^ 5) by (split; [apply Rle_trans with (/ 10 ^ 7 * / 10 ^ 6); [lra|apply Rmult_le_compat; lra]|apply Rle_trans with (1 * (5 * 10 ^ 5)); [apply Rmult_le_compat; lra|lra]]).
  assert (HV1 : 108 * v0 * (51 * v0) <= v0). { apply Rle_trans with (1 * v0); [|lra]. rewrite <- Rmult_assoc. apply Rmult_le_compat_r; lra. }
  assert (HV2 : 54 * v0 * (54 * v0) <= v0). { apply Rle_trans with (1 * v0); [|lra]. rewrite <- Rmult_assoc. apply Rmult_le_compat_r; lra. }
  pose proof (rl_mul _ _ _ _ _ _ (161 * v0) Rg Rv ltac:(lra) ltac:(lra) ltac:(lra)) as RgV.
  assert (BCC : 1 <= C * C <= 2 * 10 ^ 6) by (split; [apply Rle_trans with (1 * 1); [lra|apply Rmult_le_compat; lra]|apply Rle_trans with (1100 * 1100); [apply Rmult_le_compat; lra|lra]]).
  pose proof (rl_mul _ _ _ _ _ _ (110 * v0) Rc Rc ltac:(lra) ltac:(lra) ltac:(lra)) as RCC.
  assert (E3 : g * V / (C * C) = g * g ^ 2). { rewrite <- EW. unfold g. field. lra. }
  assert (B2 : / 10 ^ 14 <= g ^ 2 <= 1). { simpl. rewrite Rmult_1_r. split; [apply Rle_trans with (/ 10 ^ 7 * / 10 ^ 7); [lra|apply Rmult_le_compat; lra]|apply Rle_trans with (1 * 1); [apply Rmult_le_compat; lra|lra]]. }
  assert (B3 : / 10 ^ 21 <= g * g ^ 2 <= 1) by (split; [apply Rle_trans with (/ 10 ^ 7 * / 10 ^ 14); [lra|apply Rmult_le_compat; lra]|apply Rle_trans with (1 * 1); [apply Rmult_le_compat; lra|lra]]).
  pose proof (rl_div _ _ _ _ _ _ (274 * v0) RgV RCC ltac:(rewrite E3; lra) ltac:(lra) ltac:(lra)) as R3. rewrite E3 in R3. set (g3 := g * g ^ 2) in *.
  assert (A3 : ap (Bdiv mode_NE (Bmult mode_NE (Bdiv mode_NE (Bsqrt mode_NE v) c) v) (Bmult mode_NE c c)) g3 (4 / 10 ^ 14)).
  { apply (rl_ap _ _ _ _ R3). apply Rle_trans with (274 * v0 * 1); [apply Rmult_le_compat_l; lra|unfold v0; lra]. }
  assert (EE : e1 * e1 <= / 10 ^ 8 * e1) by (apply Rmult_le_compat_r; lra). assert (U0 : 0 < u0 <= 12 / 10 ^ 17) by ulra.
  pose proof (ap_mul _ _ _ _ _ _ 1 1 1.01 A3 Ap ltac:(rewrite Rabs_pos_eq; lra) ltac:(rewrite Rabs_pos_eq; lra) ltac:(lra) ltac:(okb)) as T1. apply (ap_weak _ _ _ (1.1 * e1)) in T1; [|lra].
  pose proof (one_minus_ap _ _ _ Ap BP ltac:(lra)) as T2. apply (ap_weak _ _ _ (1.01 * e1)) in T2; [|lra].
  assert (B4 : 0 <= g3 * P <= P) by (split; [apply Rmult_le_pos; lra|]; rewrite <- (Rmult_1_l P) at 2; apply Rmult_le_compat_r; lra).
  pose proof (ap_mul _ _ _ _ _ _ 1 1 1.01 T1 T2 ltac:(rewrite Rabs_pos_eq; lra) ltac:(rewrite Rabs_pos_eq; lra) ltac:(lra) ltac:(okb)) as T3. apply (ap_weak _ _ _ (2.4 * e1)) in T3; [|lra].
  split; [exact T3|]. unfold G. fold g. fold g3. split; [apply Rmult_le_pos; lra|]. apply Rle_trans with (P * (1 - P)); [apply Rmult_le_compat_r; lra|]. pose proof (pow2_ge_0 (P - / 2)). lra.
Qed.
End Pair.

(** one player of a side, after [m] opponents *)
Lemma player_ap L r u v om de kap R0 S V Om De KP m e1 : 8 / 10 ^ 13 <= e1 <= 2 / 10 ^ 9 -> 0 <= m <= 50 ->
  ap r R0 0 -> ap u S 0 -> rl v V (51 * v0) -> ap om Om (m * (1.2 * e1 * sqrt V)) -> ap de De (m * (2.5 * e1)) -> ap kap KP 0 ->
  Rabs R0 <= 500 -> / 1000 <= S <= 100 -> S * S <= V -> / 10 ^ 6 <= V <= 5 * 10 ^ 5 -> Rabs Om <= m * sqrt V -> 0 <= De <= m / 4 -> 9 / 10 ^ 7 <= KP <= 1 ->
  let usq := Bmult mode_NE u u in let S' := S * sqrt (Rmax (1 - S ^ 2 / V * De) KP) in
  ap (wl_new_rating_teams (A := B64A L) r usq v om) (R0 + S ^ 2 / V * Om) (1.3 * e1 * (m * S + 1)) /\
  ap (wl_new_uncertainty_teams (A := B64A L) usq v kap de) S' (3 * e1 * (m * S / S' + 1) * S).
Proof.
  intros BE Bm Ar Au Rv Ao Ad Ak Br Bu SV BV Bo Bd Bk usq S'. pose proof (sq_rng _ Bu) as Bq. pose proof (sq_rl _ _ Au Bu) as Rq. fold usq in Rq.
  assert (EW : sqrt V * sqrt V = V) by (apply sqrt_sqrt; lra). assert (W0 : 0 < sqrt V) by (apply sqrt_lt_R0; lra). set (W := sqrt V) in *.
  assert (SW : S <= W) by (apply Rsqr_incr_0_var; unfold Rsqr; lra). assert (BW : W <= 708) by (apply Rsqr_incr_0_var; unfold Rsqr; lra).
  assert (V0 : 0 < v0 < / 10 ^ 15) by (unfold v0; lra). assert (U0 : 0 < u0 <= 12 / 10 ^ 17) by ulra.
  assert (Brh : / 10 ^ 12 <= S * S / V <= 1). { split; apply Rmult_le_reg_r with V; try lra; unfold Rdiv; rewrite Rmult_assoc, Rinv_l, Rmult_1_r by lra; lra. }
  pose proof (rl_div _ _ _ _ _ _ (54 * v0) Rq Rv ltac:(lra) ltac:(lra) ltac:(lra)) as [_ [_ Arh]].
  assert (E2 : S ^ 2 / V = S * S / V) by (unfold Rdiv; ring). set (rho := S * S / V) in *. rewrite E2. unfold S'. rewrite E2. clear S'. set (X0 := 1 - rho * De). set (S' := S * sqrt (Rmax X0 KP)).
  assert (rW : rho * W <= S). { unfold rho. replace (S * S / V * W) with (S * (S / W)) by (rewrite <- EW; field; lra). apply Rle_trans with (S * 1); [|lra]. apply Rmult_le_compat_l; [lra|]. apply Rmult_le_reg_r with W; [lra|]. unfold Rdiv. rewrite Rmult_assoc, Rinv_l by lra. lra. }
  assert (rW0 : 0 <= rho * W) by (apply Rmult_le_pos; lra). assert (mS : 0 <= m * S <= 5000) by (split; [apply Rmult_le_pos; lra|apply Rle_trans with (50 * 100); [apply Rmult_le_compat; lra|lra]]).
  assert (mrW : m * (rho * W) <= m * S) by (apply Rmult_le_compat_l; lra). assert (mrW0 : 0 <= m * (rho * W)) by (apply Rmult_le_pos; lra).
  apply (ap_weak _ _ _ (7 / 10 ^ 15 * rho)) in Arh; [|apply Rmult_le_compat_r; unfold v0; lra].
  assert (em : e1 * (m * (rho * W)) <= e1 * (m * S)) by (apply Rmult_le_compat_l; lra). assert (em8 : 8 / 10 ^ 13 * (m * S) <= e1 * (m * S) <= 2 / 10 ^ 9 * (m * S)) by (split; apply Rmult_le_compat_r; lra).
  split.
  - assert (EX : rho * (m * (1.2 * e1 * W)) + m * W * (7 / 10 ^ 15 * rho) + 7 / 10 ^ 15 * rho * (m * (1.2 * e1 * W)) + 0 = 1.2 * (e1 * (m * (rho * W))) * (1 + 7 / 10 ^ 15) + 7 / 10 ^ 15 * (m * (rho * W))) by (field; lra).
    assert (HR : Rabs (rho * Om + R0) <= m * S + 500). { eapply Rle_trans; [apply Rabs_triang|]. rewrite Rabs_mult, (Rabs_pos_eq rho) by lra. assert (rho * Rabs Om <= rho * (m * W)) by (apply Rmult_le_compat_l; lra). lra. }
    pose proof (ap_fma _ _ _ _ _ _ _ _ _ rho (m * W) (1.01 * (m * S + 500)) Arh Ao Ar ltac:(rewrite Rabs_pos_eq; lra) Bo) as T. rewrite EX in T.
    specialize (T ltac:(lra) ltac:(okb)). apply (ap_eq _ _ (R0 + rho * Om)) in T; [|ring].
    assert (uB : u0 * (1.01 * (m * S + 500)) <= 12 / 10 ^ 17 * (1.01 * (m * S + 500))) by (apply Rmult_le_compat_r; lra).
    apply (ap_weak _ _ _ _ T). replace (1.3 * e1 * (m * S + 1)) with (1.3 * (e1 * (m * S)) + 1.3 * e1) by ring. lra.
  - pose proof (ap_opp _ _ _ Ad) as Ad'. assert (me : 0 <= m * e1 <= 50 * (2 / 10 ^ 9)) by (split; [apply Rmult_le_pos; lra|apply Rmult_le_compat; lra]).
    assert (rme : 0 <= rho * (m * e1) <= m * e1) by (split; [apply Rmult_le_pos; lra|]; rewrite <- (Rmult_1_l (m * e1)) at 2; apply Rmult_le_compat_r; lra).
    assert (me8 : 8 / 10 ^ 13 * m <= m * e1) by (rewrite Rmult_comm; apply Rmult_le_compat_l; lra). assert (rm : 0 <= rho * m <= m) by (split; [apply Rmult_le_pos; lra|]; rewrite <- (Rmult_1_l m) at 2; apply Rmult_le_compat_r; lra).
    assert (rD : 0 <= rho * De <= m / 4) by (split; [apply Rmult_le_pos; lra|]; apply Rle_trans with (1 * (m / 4)); [apply Rmult_le_compat; lra|lra]).
    assert (EX : rho * (m * (2.5 * e1)) + m / 4 * (7 / 10 ^ 15 * rho) + 7 / 10 ^ 15 * rho * (m * (2.5 * e1)) + 0 = 2.5 * (rho * (m * e1)) * (1 + 7 / 10 ^ 15) + 7 / 10 ^ 15 * / 4 * (rho * m)) by (field; lra).
    pose proof (ap_fma _ _ _ _ _ _ _ _ _ rho (m / 4) (1.01 * (m / 4 + 1)) Arh Ad' (ap_Z 1 ltac:(vm_compute; discriminate)) ltac:(rewrite Rabs_pos_eq; lra) ltac:(rewrite Rabs_Ropp, Rabs_pos_eq; lra)) as T. rewrite EX in T.
    specialize (T ltac:(assert (Rabs (rho * - De + 1) <= m / 4 + 1) by (apply Rabs_le; lra); lra) ltac:(okb)). apply (ap_eq _ _ X0) in T; [|unfold X0; ring].
    assert (uB : u0 * (1.01 * (m / 4 + 1)) <= 12 / 10 ^ 17 * (1.01 * (m / 4 + 1))) by (apply Rmult_le_compat_r; lra).
    apply (ap_weak _ _ _ (2.6 * (m * e1) + 13 / 10 ^ 17)) in T; [|lra].
    pose proof (max_ap _ _ _ _ _ T Ak) as T4. set (dX := 2.6 * (m * e1) + 13 / 10 ^ 17) in *. assert (BdX : 0 <= dX <= 3 / 10 ^ 7) by (unfold dX; lra).
    assert (BX : 9 / 10 ^ 7 <= Rmax X0 KP <= 1) by (split; [apply Rle_trans with (2 := Rmax_r _ _); lra|apply Rmax_lub; unfold X0; lra]). set (X := Rmax X0 KP) in *.
    destruct Rq as [_ [_ Aq]]. set (Q := S * S) in *.
    assert (vQ : 0 <= v0 * Q <= / 10 ^ 15 * Q) by (split; [apply Rmult_le_pos; lra|apply Rmult_le_compat_r; lra]). assert (dQ : 0 <= dX * Q <= 3 / 10 ^ 7 * Q) by (split; [apply Rmult_le_pos; lra|apply Rmult_le_compat_r; lra]).
    assert (vdQ : v0 * Q * dX <= v0 * Q * 1) by (apply Rmult_le_compat_l; lra). assert (uQ : 0 <= u0 * Q <= 12 / 10 ^ 17 * Q) by (split; [apply Rmult_le_pos; lra|apply Rmult_le_compat_r; lra]).
    pose proof (ap_mul _ _ _ _ _ _ Q 1 (1.01 * Q) Aq T4 ltac:(rewrite Rabs_pos_eq; lra) ltac:(rewrite Rabs_pos_eq; lra) ltac:(lra) ltac:(okb)) as T5.
    apply (ap_weak _ _ _ ((2.6 * (m * e1) + 6 / 10 ^ 16) * Q)) in T5; [|unfold dX, v0 in *; lra]. set (dd := 2.6 * (m * e1) + 6 / 10 ^ 16) in *.
    assert (Bdd : 0 < dd <= 3 / 10 ^ 7) by (unfold dd; lra).
    assert (EV : sqrt (Q * X) = S'). { unfold S'. rewrite sqrt_mult by lra. unfold Q. rewrite sqrt_square by lra. reflexivity. }
    assert (sX : 0 < sqrt X <= 1). { split; [apply sqrt_lt_R0; lra|]. rewrite <- sqrt_1. apply sqrt_le_1_alt. lra. }
    assert (SX : 9 / 10 ^ 4 <= sqrt X). { apply Rsqr_incr_0_var; [unfold Rsqr; rewrite sqrt_sqrt; lra|lra]. }
    assert (BS' : 9 / 10 ^ 4 * S <= S' <= S) by (unfold S'; split; [rewrite Rmult_comm; apply Rmult_le_compat_l; lra|rewrite <- (Rmult_1_r S) at 2; apply Rmult_le_compat_l; lra]).
    assert (dQX : dd * Q <= Q * X) by (rewrite (Rmult_comm Q); apply Rmult_le_compat_r; lra).
    assert (ES : dd * Q / S' = dd * (S / S') * S) by (unfold Q; field; lra).
    assert (B1 : 1 <= S / S'). { apply Rmult_le_reg_r with S'; [lra|]. unfold Rdiv. rewrite Rmult_assoc, Rinv_l by lra. lra. }
    assert (B2 : S / S' <= 2000). { apply Rmult_le_reg_r with S'; [lra|]. unfold Rdiv. rewrite Rmult_assoc, Rinv_l by lra. lra. }
    assert (B3 : 0 < dd * (S / S') <= 3 / 10 ^ 7 * 2000) by (split; [apply Rmult_lt_0_compat; lra|apply Rmult_le_compat; lra]).
    assert (B4 : 0 < dd * (S / S') * S <= 3 / 10 ^ 7 * 2000 * S) by (split; [apply Rmult_lt_0_compat; lra|apply Rmult_le_compat_r; lra]).
    pose proof (ap_sqrt _ _ _ S' S (1.01 * S) T5 ltac:(lra) ltac:(rewrite EV; lra) ltac:(rewrite EV; lra) dQX ltac:(rewrite ES; lra) ltac:(okb)) as T6. rewrite EV, ES in T6.
    apply (ap_weak _ _ _ _ T6). assert (uS : u0 * (1.01 * S) <= 13 / 10 ^ 17 * S) by (rewrite <- Rmult_assoc; apply Rmult_le_compat_r; lra).
    replace (3 * e1 * (m * S / S' + 1) * S) with ((3 * (m * e1) * (S / S') + 3 * e1) * S) by (field; lra).
    apply Rle_trans with ((dd * (S / S') + 13 / 10 ^ 17) * S); [lra|]. apply Rmult_le_compat_r; [lra|].
    assert (H1 : dd * (S / S') = 2.6 * (m * e1 * (S / S')) + 6 / 10 ^ 16 * (S / S')) by (unfold dd; ring). rewrite H1. replace (3 * (m * e1) * (S / S')) with (3 * (m * e1 * (S / S'))) by ring.
    assert (0 <= m * e1 * (S / S')) by (apply Rmult_le_pos; lra). lra.
Qed.
