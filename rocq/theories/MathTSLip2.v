(** The corrections of a drawn game: size of their ingredients, and small changes of the arguments. *)
From Coq Require Import Reals Lra Lia Psatz.
From Flocq Require Import Core.Raux.
From Coquelicot Require Import Coquelicot.
From Verif Require Import XR Spec SpecTS SpecNormal SpecTSN Tac MathTS MathTSW MathTSAcc MathTSInv MathTSDraw MathTSNorm MathTSNorm2 MathTSLip.
Local Open Scope R_scope.

(** The interval between the two margins seen from the stronger side. *)
Definition okab (a b : R) : Prop := a <= 10.1 /\ b <= 16 /\ 2 / 31 <= b - a /\ - / 1000 <= a + b.
Lemma phi_ge z m : Rabs z <= m -> 0.3989 * (1 - m ^ 2 / 2) <= phi z.
Proof.
  intros H. rewrite (phi_ratio 0 z). pose proof phi0_close as P0. pose proof (exp_ineq1_le ((0 ^ 2 - z ^ 2) / 2)) as E. pose proof (exp_pos ((0 ^ 2 - z ^ 2) / 2)) as E0.
  assert (Z : z ^ 2 <= m ^ 2) by (rewrite <- (pow2_abs z); apply pow_incr; split; [apply Rabs_pos|auto]).
  apply Rle_trans with (0.3989 * exp ((0 ^ 2 - z ^ 2) / 2)); [lra|]. apply Rmult_le_compat_r; lra.
Qed.
Lemma ab_T a b : okab a b -> 0 < mT a b /\ (a < 0 -> 0.012 <= mT a b).
Proof.
  intros (A1 & A2 & A3 & A4). split; [apply mT_pos; lra|]. intros A. apply Rle_trans with (mT 0 b); [|unfold mT; pose proof (Ncdf_mono a 0 ltac:(lra)); lra].
  apply Rle_trans with (0.39 * (1 / 32)); [lra|]. apply T_ge; [lra|lra|lra|]. intros c Hc. apply Rle_trans with (2 := phi_ge c (1 / 30) ltac:(apply Rabs_le; lra)). lra.
Qed.
Lemma ab_D a b : okab a b -> let D := Phi (- a) - Phi (- b) in let T := mT a b in
  (2 <= a -> Rabs (D - T) <= 0.0000002 * T) /\ (0 <= a -> Rabs (D - T) <= 0.00001 * T) /\ (a < 0 -> Rabs (D - T) <= 0.0000185 * T).
Proof.
  intros OK D T. destruct (ab_T a b OK) as [TP TL]. fold T in TP, TL. destruct OK as (A1 & A2 & A3 & A4).
  assert (PN : Phi (- b) = 1 - Phip b) by (rewrite Phi_neg by lra; unfold Phip; rewrite Ropp_involutive; field).
  assert (ED : 0 <= a -> D = Phip b - Phip a) by (intros A; unfold D; rewrite PN, Phi_neg by lra; unfold Phip; rewrite Ropp_involutive; field).
  split; [|split].
  - intros A. rewrite ED by lra. pose proof (Phip_tight a b ltac:(lra)) as C. fold (mT a b) in C. fold T in C. apply Rabs_le. lra.
  - intros A. rewrite ED by lra. pose proof (Phip_close a b ltac:(lra)) as C. fold (mT a b) in C. fold T in C. apply Rabs_le. lra.
  - intros A. specialize (TL A). assert (EA : D = Phip (- a) + Phip b - 1) by (unfold D; rewrite PN, Phi_pos by lra; unfold Phip; field).
    pose proof (Phip_close 0 (- a) ltac:(lra)) as C1. pose proof (Phip_close 0 b ltac:(lra)) as C2. rewrite Ncdf_0 in C1, C2. rewrite Ncdf_neg in C1.
    assert (P0 : -0.0000001 < 2 * Phip 0 - 1 < 0). { unfold Phip. replace (0 / sqrt 2) with 0 by (unfold Rdiv; ring). pose proof nr_pos_0. lra. }
    rewrite EA. unfold T, mT in *. apply Rabs_le. lra.
Qed.
Lemma ab_D2 a b : okab a b -> Rabs (Phi (- a) - Phi (- b) - mT a b) <= 0.0000185 * mT a b.
Proof. intros OK. destruct (ab_T a b OK) as [TP _]. destruct (ab_D a b OK) as (_ & D1 & D0). destruct (Rle_dec 0 a) as [A|A]; [specialize (D1 A)|specialize (D0 ltac:(lra))]; lra. Qed.
Lemma ab_phi a b : okab a b -> phi a + phi b <= 360 * mT a b /\ Phi (- a) + Phi (- b) <= 200 * mT a b.
Proof.
  intros OK. destruct (ab_T a b OK) as [TP TL]. destruct OK as (A1 & A2 & A3 & A4). set (T := mT a b) in *.
  assert (PB : forall x, Phi x <= 1.0000103 * Ncdf x /\ Ncdf x < 1). { intro x. pose proof (Phi_rel x) as R. pose proof (Ncdf_range x). apply Rabs_le_inv in R. lra. }
  pose proof (PB (- a)) as [Pa1 Pa2]. pose proof (PB (- b)) as [Pb1 Pb2]. pose proof (phi_le a). pose proof (phi_le b).
  destruct (Rlt_dec a 0) as [A|A]; [specialize (TL A); lra|]. assert (Nba : Ncdf (- b) <= Ncdf (- a)) by (apply Ncdf_mono; lra).
  assert (Nba2 : phi b <= phi a) by (apply phi_dec; lra). destruct (Rlt_dec a 1) as [B|B].
  - assert (T1 : 0.17 * (2 / 31) <= T). { apply T_ge; [lra|lra|lra|]. intros c Hc. apply Rle_trans with (2 := phi_ge c 1.065 ltac:(apply Rabs_le; lra)). lra. }
    assert (Ncdf (- a) <= 1 / 2) by (rewrite <- Ncdf_0; apply Ncdf_mono; lra). lra.
  - pose (h := 1 / (16 * a)). assert (Hh : 0 < h <= 1 / 16). { unfold h. split; [apply Rdiv_lt_0_compat; lra|]. unfold Rdiv. rewrite !Rmult_1_l. apply Rinv_le_contravar; lra. }
    assert (ha : h * a = 1 / 16) by (unfold h; field; lra).
    assert (T1 : 0.93 * phi a * h <= T).
    { pose proof (phi_pos a) as P. apply T_ge; [lra|lra|lra|]. intros c Hc. rewrite (phi_ratio a c), Rmult_comm. apply Rmult_le_compat_l; [lra|].
      pose proof (exp_ineq1_le ((a ^ 2 - c ^ 2) / 2)) as E. assert (c ^ 2 <= a ^ 2 + 1 / 8 + 1 / 256); [|lra]. apply Rle_trans with ((a + h) ^ 2); [apply pow_incr; lra|]. 
      replace ((a + h) ^ 2) with (a ^ 2 + 2 * (h * a) + h * h) by ring. rewrite ha. assert (h * h <= 1 / 16 * (1 / 16)) by (apply Rmult_le_compat; lra). lra. }
    assert (T2 : 0.93 * phi a <= 16 * a * T). { replace (0.93 * phi a) with (16 * a * (0.93 * phi a * h)) by (unfold h; field; lra). apply Rmult_le_compat_l; lra. }
    assert (T4 : 0 < a * T) by (apply Rmult_lt_0_compat; lra). assert (T3 : a * T <= 10.1 * T) by (apply Rmult_le_compat_r; lra). split; [lra|].
    assert (M : Ncdf (- a) <= phi a / a). { pose proof (mills_up a ltac:(lra)) as M. rewrite <- (Ropp_involutive a) in M at 1. rewrite Ntl_neg in M. exact M. }
    assert (M2 : phi a / a <= 17.3 * T). { apply Rmult_le_reg_r with a; [lra|]. unfold Rdiv. rewrite Rmult_assoc, Rinv_l by lra. lra. }
    lra.
Qed.
Lemma mean_k k a b : 0 < k -> a <= k -> a <= b -> mN a b <= (1 + k) * mT a b.
Proof.
  intros K A B. pose (f := fun x => (1 + k) * Ncdf x + phi x). assert (M : forall y, a <= y -> y <= 1 + k -> f a <= f y).
  { intros y H1 H2. apply (mono_of_deriv f (fun x => (1 + k) * phi x + - x * phi x)); [|intros c Hc; pose proof (phi_pos c); nra|auto].
    intros c _. unfold f. apply (is_derive_plus (fun x => (1 + k) * Ncdf x) phi); [apply (is_derive_scal Ncdf c (1 + k)), Ncdf_deriv|]. evar_last; [apply phi_deriv|]. ring. }
  destruct (Rle_dec b k) as [L|L].
  - pose proof (M b B ltac:(lra)) as H. unfold f, mN, mT in *. lra.
  - pose proof (M k A ltac:(lra)) as H. pose proof (mean_1 k b K ltac:(lra)) as H2. unfold f, mN, mT in *. lra.
Qed.
Lemma ab_N a b : okab a b -> Rabs (mN a b) <= 11.2 * mT a b /\ (a < 2 -> Rabs (mN a b) <= 2.5 * mT a b) /\ (a < 0 -> Rabs (mN a b) <= 1.01 * mT a b).
Proof.
  intros OK. destruct (ab_T a b OK) as [TP TL]. destruct OK as (A1 & A2 & A3 & A4).
  assert (Low : - (1.01 * mT a b) <= mN a b).
  { pose proof (mean_k 0.01 (- b) (- a) ltac:(lra) ltac:(lra) ltac:(lra)) as H. assert (E1 : mN (- b) (- a) = - mN a b) by (unfold mN; rewrite !phi_even; ring). assert (E2 : mT (- b) (- a) = mT a b) by (unfold mT; rewrite !Ncdf_neg; ring). rewrite E1, E2 in H. lra. }
  split; [|split].
  - apply Rabs_le. split; [lra|]. destruct (Rle_dec a 10.2) as [Q|Q]; [|lra]. pose proof (mean_k 10.2 a b ltac:(lra) Q ltac:(lra)). lra.
  - intros Q. apply Rabs_le. split; [lra|]. destruct (Rle_dec a 1.5) as [Q2|Q2]; [pose proof (mean_k 1.5 a b ltac:(lra) Q2 ltac:(lra)); lra|].
    pose proof (mean_a a b ltac:(lra) ltac:(lra)) as H. apply Rmult_le_reg_l with a; [lra|].
    assert (Q3 : 1 + a * a <= 2.5 * a) by (clear - Q Q2; nra). apply Rmult_le_compat_r with (r := mT a b) in Q3; [|lra]. lra.
  - intros Q. apply Rabs_le. split; [lra|]. pose proof (mean_k 0.01 a b ltac:(lra) ltac:(lra) ltac:(lra)). lra.
Qed.
(** the code's ratios against the exact ones, same interval *)
Lemma ab_near a b : okab a b -> let N := mN a b in let B := mB a b in let T := mT a b in let D := Phi (- a) - Phi (- b) in
  0 < D /\ Rabs (N / D - N / T) <= 0.0000186 * Rabs (N / T) /\ Rabs ((N / D) ^ 2 + B / D - ((N / T) ^ 2 + B / T)) <= 0.0002 /\ Rabs (N / T) <= 11.2 /\ 0 <= (N / T) ^ 2 + B / T <= 1.
Proof.
  intros OK N B T D. destruct (ab_T a b OK) as [TP _]. destruct (ab_D a b OK) as (D2 & D1 & D0). destruct (ab_N a b OK) as (N2 & N1 & N0). pose proof (ab_D2 a b OK) as D3.
  assert (W : 0 <= N ^ 2 + B * T <= T ^ 2) by (apply w_range; destruct OK; lra). fold T in TP. fold N T in N0, N1, N2. fold D T in D0, D1, D2, D3. clearbody N B T D.
  assert (ABS : forall x, 0 < x -> Rabs (N / x) = Rabs N / x) by (intros x Hx; unfold Rdiv; rewrite Rabs_mult, (Rabs_pos_eq (/ x)); [auto|left; apply Rinv_0_lt_compat; auto]).
  assert (Wa : 0 <= Rabs N ^ 2 + B * T <= T ^ 2) by (rewrite pow2_abs; exact W).
  assert (RB : forall k, Rabs N <= k * T -> Rabs N / T <= k) by (intros k Hk; apply Rmult_le_reg_r with T; [auto|]; unfold Rdiv; rewrite Rmult_assoc, Rinv_l by lra; lra).
  assert (RP : 0 <= Rabs N / T) by (unfold Rdiv; apply Rmult_le_pos; [apply Rabs_pos|left; apply Rinv_0_lt_compat; auto]).
  assert (SQ : forall x, (Rabs N / x) ^ 2 = (N / x) ^ 2) by (intro x; unfold Rdiv; rewrite !Rpow_mult_distr, pow2_abs; reflexivity).
  assert (K : forall d m, 0 <= d <= 1 / 1000 -> Rabs (D - T) <= d * T -> Rabs N <= m * T -> 1.002 * d * (1 + 3.002 * m ^ 2) <= 0.0002 -> Rabs ((N / D) ^ 2 + B / D - ((N / T) ^ 2 + B / T)) <= 0.0002).
  { intros d m Hd H HN Hm. destruct (draw_rel (Rabs N) B T D d TP (Rabs_pos N) Wa Hd H) as (_ & _ & R). rewrite !SQ in R. eapply Rle_trans; [exact R|]. eapply Rle_trans; [|exact Hm].
    apply Rmult_le_compat_l; [lra|]. rewrite <- SQ. assert ((Rabs N / T) ^ 2 <= m ^ 2) by (apply pow_incr; split; [auto|apply RB; auto]). lra. }
  destruct (draw_rel (Rabs N) B T D 0.0000185 TP (Rabs_pos N) Wa ltac:(lra) D3) as (DP & R & _). split; [exact DP|].
  split; [|split; [|split]].
  - rewrite ABS by auto. replace (N / D - N / T) with (N * (/ D - / T)) by (unfold Rdiv; ring). rewrite Rabs_mult. rewrite <- (Rabs_Rabsolu N) at 1. rewrite <- Rabs_mult. replace (Rabs N * (/ D - / T)) with (Rabs N / D - Rabs N / T) by (unfold Rdiv; ring).
    eapply Rle_trans; [exact R|]. apply Rmult_le_compat_r; lra.
  - destruct (Rlt_dec a 0) as [A|A]; [apply (K 0.0000185 1.01); [lra|apply D0; auto|apply N0; auto|lra]|]. destruct (Rlt_dec a 2) as [A'|A'].
    + apply (K 0.00001 2.5); [lra|apply D1; lra|apply N1; auto|lra].
    + apply (K 0.0000002 11.2); [lra|apply D2; lra|auto|lra].
  - rewrite ABS by auto. apply RB. auto.
  - assert (E : (N / T) ^ 2 + B / T = (N ^ 2 + B * T) / T ^ 2) by (field; lra). rewrite E. assert (0 < T ^ 2) by (apply pow_lt; auto). split.
    + unfold Rdiv; apply Rmult_le_pos; [lra|apply Rlt_le, Rinv_0_lt_compat; auto].
    + apply Rmult_le_reg_r with (T ^ 2); auto. unfold Rdiv. rewrite Rmult_assoc, Rinv_l by lra. lra.
Qed.
(** small changes of the interval *)
Lemma quot_lip N N0 T T0 p q m : 0 < T0 -> 0 <= p -> 0 <= q <= / 1000 -> 0 <= m -> Rabs (N - N0) <= p * T0 -> Rabs (T - T0) <= q * T0 -> Rabs N0 <= m * T0 -> 0 < T /\ Rabs (N / T - N0 / T0) <= 1.002 * (p + m * q).
Proof.
  intros HT Hp Hq Hm H1 H2 H3. pose proof (Rabs_le_inv _ _ H2) as I2. assert (qT : q * T0 <= / 1000 * T0) by (apply Rmult_le_compat_r; lra). assert (TT : 0.999 * T0 <= T) by lra. split; [lra|].
  replace (N / T - N0 / T0) with (((N - N0) * T0 - N0 * (T - T0)) * / (T * T0)) by (field; lra). assert (P : 0 < T * T0) by (apply Rmult_lt_0_compat; lra).
  rewrite Rabs_mult, (Rabs_pos_eq (/ (T * T0))) by (left; apply Rinv_0_lt_compat; auto). apply Rmult_le_reg_r with (T * T0); [auto|]. rewrite Rmult_assoc, Rinv_l, Rmult_1_r by lra.
  apply Rle_trans with (p * T0 * T0 + m * T0 * (q * T0)).
  - eapply Rle_trans; [apply Rabs_triang|]. rewrite Rabs_Ropp, !Rabs_mult, (Rabs_pos_eq T0) by lra. apply Rplus_le_compat; [apply Rmult_le_compat_r; lra|]. apply Rmult_le_compat; auto; apply Rabs_pos.
  - replace (p * T0 * T0 + m * T0 * (q * T0)) with ((p + m * q) * (T0 * T0)) by ring. rewrite (Rmult_comm 1.002), Rmult_assoc. apply Rmult_le_compat_l; [apply Rplus_le_le_0_compat; [auto|apply Rmult_le_pos; lra]|].
    rewrite <- Rmult_assoc. apply Rmult_le_compat_r; lra.
Qed.
Lemma ab_lip a0 b0 a b d : okab a0 b0 -> Rabs (a - a0) <= d -> Rabs (b - b0) <= d -> d <= / 10 ^ 9 ->
  0 < mT a b /\ Rabs (mN a b / mT a b - mN a0 b0 / mT a0 b0) <= 11000 * d /\
  Rabs ((mN a b / mT a b) ^ 2 + mB a b / mT a b - ((mN a0 b0 / mT a0 b0) ^ 2 + mB a0 b0 / mT a0 b0)) <= 400000 * d.
Proof.
  intros OK Ha Hb Hd. assert (D0 : 0 <= d) by (eapply Rle_trans; [apply Rabs_pos|exact Ha]). destruct (ab_T _ _ OK) as [TP _]. destruct (ab_phi _ _ OK) as [PH _]. destruct (ab_N _ _ OK) as [NB _].
  destruct (ab_near _ _ OK) as (_ & _ & _ & NT & WT). destruct OK as (A1 & A2 & A3 & A4). assert (Ba : Rabs a0 <= 16.1) by (apply Rabs_le; lra). assert (Bb : Rabs b0 <= 16.1) by (apply Rabs_le; lra).
  pose proof (phi_pos a0) as Pa. pose proof (phi_pos b0) as Pb. set (T0 := mT a0 b0) in *. set (N0 := mN a0 b0) in *.
  pose proof (phi_lip a0 a 16.1 d ltac:(lra) Ba Ha ltac:(lra)) as La. pose proof (phi_lip b0 b 16.1 d ltac:(lra) Bb Hb ltac:(lra)) as Lb.
  pose proof (Ncdf_lip2 a a0 16.1 d ltac:(lra) Ba Ha ltac:(lra)) as Ca. pose proof (Ncdf_lip2 b b0 16.1 d ltac:(lra) Bb Hb ltac:(lra)) as Cb.
  assert (dP : d * (phi a0 + phi b0) <= 360 * d * T0) by (replace (360 * d * T0) with (d * (360 * T0)) by ring; apply Rmult_le_compat_l; lra).
  assert (dPa : 0 <= d * phi a0) by (apply Rmult_le_pos; lra). assert (dPb : 0 <= d * phi b0) by (apply Rmult_le_pos; lra).
  assert (HN : Rabs (mN a b - N0) <= 5976 * d * T0). { unfold N0, mN. apply Rabs_le_inv in La, Lb. apply Rabs_le. lra. }
  assert (HT : Rabs (mT a b - T0) <= 364 * d * T0). { unfold T0 at 1, mT. apply Rabs_le_inv in Ca, Cb. apply Rabs_le. lra. }
  assert (X : forall x x0, Rabs x0 <= 16.1 -> Rabs (x - x0) <= d -> Rabs (phi x - phi x0) <= 1.03 * 16.1 * d * phi x0 -> Rabs (x * phi x - x0 * phi x0) <= 269 * (d * phi x0)).
  { intros x x0 H1 H2 H3. pose proof (phi_pos x0) as P0. replace (x * phi x - x0 * phi x0) with ((x - x0) * phi x + x0 * (phi x - phi x0)) by ring. eapply Rle_trans; [apply Rabs_triang|]. rewrite !Rabs_mult.
    assert (P1 : Rabs (phi x) <= 1.01 * phi x0). { pose proof (phi_pos x). rewrite Rabs_pos_eq by lra. apply Rabs_le_inv in H3. assert (d * phi x0 <= / 10 ^ 9 * phi x0) by (apply Rmult_le_compat_r; lra). lra. }
    assert (Rabs (x - x0) * Rabs (phi x) <= d * (1.01 * phi x0)) by (apply Rmult_le_compat; auto; apply Rabs_pos).
    assert (Rabs x0 * Rabs (phi x - phi x0) <= 16.1 * (1.03 * 16.1 * d * phi x0)) by (apply Rmult_le_compat; auto; apply Rabs_pos). assert (0 <= d * phi x0) by (apply Rmult_le_pos; lra). lra. }
  assert (HB : Rabs (mB a b - mB a0 b0) <= 96840 * d * T0). { unfold mB. pose proof (X a a0 Ba Ha La) as Xa. pose proof (X b b0 Bb Hb Lb) as Xb. apply Rabs_le_inv in Xa, Xb. apply Rabs_le. lra. }
  assert (BB : Rabs (mB a0 b0) <= 127 * T0).
  { assert (E : mB a0 b0 = (mB a0 b0 / T0) * T0) by (field; lra). rewrite E, Rabs_mult, (Rabs_pos_eq T0) by lra. apply Rmult_le_compat_r; [lra|]. assert ((N0 / T0) ^ 2 <= 11.2 ^ 2) by (rewrite <- pow2_abs; apply pow_incr; split; [apply Rabs_pos|auto]). pose proof (pow2_ge_0 (N0 / T0)). apply Rabs_le. lra. }
  destruct (quot_lip _ _ _ _ (5976 * d) (364 * d) 11.2 TP ltac:(lra) ltac:(lra) ltac:(lra) HN HT NB) as [T1 Q1]. destruct (quot_lip _ _ _ _ (96840 * d) (364 * d) 127 TP ltac:(lra) ltac:(lra) ltac:(lra) HB HT BB) as [_ Q2].
  split; [exact T1|]. split; [lra|]. set (v := mN a b / mT a b) in *. set (v0 := N0 / T0) in *. set (k := mB a b / mT a b) in *. set (k0 := mB a0 b0 / T0) in *.
  assert (V : Rabs (v ^ 2 - v0 ^ 2) <= 10100 * d * 22.5). { replace (v ^ 2 - v0 ^ 2) with ((v - v0) * (v + v0)) by ring. rewrite Rabs_mult. apply Rmult_le_compat; try apply Rabs_pos; [lra|]. apply Rabs_le_inv in NT, Q1. apply Rabs_le. lra. }
  apply Rabs_le_inv in V, Q2. apply Rabs_le. lra.
Qed.
