(** Accuracy in double precision: EGF games. *)
From Coq Require Import ZArith List Bool Reals Lra Lia Psatz.
From Flocq Require Import Core.Core IEEE754.BinarySingleNaN.
From Verif Require Import Arith XR B64 ModelLib ModelEgf Spec SpecB64 SpecAcc Tac MathB64 ProofB64 ProofB64b ProofB64c MathB64b ProofB64f MathAcc MathAcc2 ProofBoost2 ProofAcc ProofAcc2.
Import ListNotations.
Local Open Scope R_scope.
#[local] Opaque Bplus Bminus Bmult Bdiv Bfma Bsqrt Bopp b64_max b64_min b64_of_Z b64_lit.

Ltac zz := apply ap_Z; vm_compute; discriminate.
Lemma half_ap : ap (b64_lit 5 10) (1 / 2) 0.
Proof. destruct ext_half as [F E]. apply ap_exact; [exact F|]. rewrite E. lra. Qed.

(** the logistic function from exp *)
Lemma lexp_ap L y Y d : exp_accurate L -> ap y Y d -> Rabs Y <= 400 -> d <= / 10 ^ 6 ->
  ap (Bdiv mode_NE one64 (Bplus mode_NE one64 (l_exp L y))) (/ (1 + exp Y)) (1.03 * d + 3 / 10 ^ 15) /\ 0 < / (1 + exp Y) < 1.
Proof.
  intros HE A BY Hd. pose proof (ap_nonneg _ _ _ A) as D0. destruct (exp_ap L y Y d HE A BY Hd) as [P BE]. set (p := exp Y) in *.
  assert (P0 : 0 < p) by apply exp_pos.
  assert (B : 0 < / (1 + p) < 1). { split; [apply Rinv_0_lt_compat; lra|]. rewrite <- Rinv_1. apply Rinv_lt_contravar; lra. }
  split; [|exact B]. set (r := 1.01 * d + 1.1 / 10 ^ 15) in *. assert (R0 : 0 <= r <= 1.1 / 10 ^ 6) by (unfold r; lra).
  assert (H2 : 2 * 10 ^ 180 <= 10 ^ 190) by (replace (10 ^ 190) with (10 ^ 10 * 10 ^ 180) by (rewrite <- pow_add; reflexivity); apply Rmult_le_compat_r; [apply pow_le; lra|lra]).
  assert (H9 : 10 ^ 190 * 2 <= 10 ^ 200) by (replace (10 ^ 200) with (10 ^ 190 * 10 ^ 10) by (rewrite <- pow_add; reflexivity); apply Rmult_le_compat_l; [apply pow_le; lra|lra]).
  assert (H1 : / 10 ^ 200 <= 1) by (rewrite <- Rinv_1; apply Rinv_le_contravar; [lra|apply pow_R1_Rle; lra]).
  assert (H8 : 1 <= 10 ^ 180) by (apply pow_R1_Rle; lra).
  pose proof (ap_add _ _ _ _ _ _ ((1 + p) * 1.00001) (ap_Z 1 ltac:(vm_compute; discriminate)) P ltac:(rewrite Rabs_pos_eq; nra) ltac:(split; lra)) as S.
  change (b64_of_Z 1) with one64 in S. apply (ap_weak _ _ _ ((r + 1.3 / 10 ^ 16) * (1 + p))) in S; [|unfold u0; nra].
  set (rr := r + 1.3 / 10 ^ 16) in *. assert (RR : 0 <= rr <= 1.2 / 10 ^ 6) by (unfold rr; lra).
  pose proof (ap_div _ _ _ _ _ _ (0.999 * (1 + p)) (/ (1 + p)) 1.1 (ap_Z 1 ltac:(vm_compute; discriminate)) S ltac:(lra)) as T.
  assert (E1 : (0 + / (1 + p) * (rr * (1 + p))) / (0.999 * (1 + p)) = rr / 0.999 * / (1 + p)) by (field; lra).
  rewrite E1 in T. assert (T1 : 0 <= rr / 0.999 * / (1 + p) <= rr / 0.999) by (split; [apply Rmult_le_pos; lra|rewrite <- (Rmult_1_r (rr / 0.999)) at 2; apply Rmult_le_compat_l; lra]).
  assert (E2 : 1 / (1 + p) = / (1 + p)) by (unfold Rdiv; apply Rmult_1_l). rewrite E2 in T.
  change (b64_of_Z 1) with one64 in T.
  eapply ap_weak; [apply T|].
  - rewrite (Rabs_pos_eq (1 + p)) by lra. nra.
  - rewrite Rabs_pos_eq by lra. lra.
  - lra.
  - lra.
  - unfold u0. unfold rr, r in *. lra.
Qed.

Lemma ln_lip x y m : 0 < m -> m <= x -> m <= y -> Rabs (ln x - ln y) <= Rabs (x - y) / m.
Proof.
  intros Hm. assert (W : forall a b, m <= a -> a <= b -> 0 <= ln b - ln a <= (b - a) / m).
  { intros a b Ha Hab. assert (E : ln b - ln a = ln (1 + (b - a) / a)). { replace (1 + (b - a) / a) with (b / a) by (field; lra). unfold Rdiv. rewrite ln_mult, ln_Rinv by (try apply Rinv_0_lt_compat; lra). lra. }
    assert (Q : 0 <= (b - a) / a <= (b - a) / m). { unfold Rdiv. split; [apply Rmult_le_pos; [lra|left; apply Rinv_0_lt_compat; lra]|apply Rmult_le_compat_l; [lra|apply Rinv_le_contravar; lra]]. }
    rewrite E. set (t := (b - a) / a) in *. split; [rewrite <- ln_1; destruct (proj1 Q) as [H|<-]; [left; apply ln_increasing; lra|rewrite Rplus_0_r; lra]|].
    apply Rle_trans with t; [|lra]. rewrite <- (ln_exp t) at 2. pose proof (exp_ineq1_le t) as X. destruct X as [X|<-]; [left; apply ln_increasing; lra|lra]. }
  intros Hx Hy. destruct (Rle_dec x y) as [H|H].
  - pose proof (W x y Hx H). rewrite (Rabs_left1 (x - y)) by lra. rewrite Rabs_left1 by lra. replace (- (x - y) / m) with ((y - x) / m) by (unfold Rdiv; ring). lra.
  - pose proof (W y x Hy ltac:(lra)). rewrite (Rabs_pos_eq (x - y)) by lra. rewrite Rabs_pos_eq by lra. lra.
Qed.

(** logarithms of numbers between 100 and 5000 *)
Lemma ln_rng x : 100 <= x <= 5000 -> 4 <= ln x <= 9.
Proof.
  intros H. pose proof ln10_close as LN. assert (E : forall n, ln (10 ^ n) = INR n * ln 10) by (intro n; apply ln_pow; lra).
  split.
  - apply Rle_trans with (ln (10 ^ 2)); [rewrite E; simpl; lra|]. destruct (proj1 H) as [G|<-]; [left; apply ln_increasing; lra|right; f_equal; lra].
  - apply Rle_trans with (ln (10 ^ 3 * exp 2)).
    + left. apply ln_increasing; [lra|]. pose proof (exp_ineq1_le 1) as X. assert (exp 2 = exp 1 * exp 1) by (rewrite <- exp_plus; f_equal; lra). 
      apply Rle_lt_trans with (10 ^ 3 * 5); [lra|]. apply Rmult_lt_compat_l; [lra|].
      assert (E5 : 1 + 0.5 <= exp 0.5) by apply exp_ineq1_le. assert (exp 1 = exp 0.5 * exp 0.5) by (rewrite <- exp_plus; f_equal; lra). assert (2.25 <= exp 1) by nra. nra.
    + rewrite ln_mult, E, ln_exp by (try apply exp_pos; lra). simpl. lra.
Qed.
Lemma ln_ap L m M d : ln_accurate L -> ap m M d -> 100 <= M <= 4300 -> d <= / 10 ^ 6 -> ap (l_ln L m) (ln M) (d / 99 + 91 / 10 ^ 16).
Proof.
  intros HL [F A] B D. pose proof (Rabs_le_inv _ _ A) as A'. destruct (HL m F) as [Fl Al]; [rewrite <- (ext_fin _ F); lra|]. rewrite <- (ext_fin _ F), <- (ext_fin _ Fl) in Al.
  split; [exact Fl|]. pose proof (ln_lip (ext m) M 99 ltac:(lra) ltac:(lra) ltac:(lra)) as LL. assert (Rabs (ext m - M) / 99 <= d / 99) by (apply Rmult_le_compat_r; lra).
  assert (B2 : ln (ext m) <= 9). { destruct (Rle_dec 100 (ext m)); [apply ln_rng; lra|]. apply Rle_trans with (ln 100); [left; apply ln_increasing; lra|apply ln_rng; lra]. }
  assert (B3 : 0 <= ln (ext m)) by (rewrite <- ln_1; left; apply ln_increasing; lra). pose proof i50.
  assert (/ 2 ^ 50 * ln (ext m) <= / 10 ^ 15 * 9) by (apply Rmult_le_compat; lra).
  apply Rabs_le_inv in Al, LL. apply Rabs_le. lra.
Qed.

Definition okA (R0 H : R) : Prop := -900 <= R0 <= 3200 /\ 0 <= H <= 20 /\ egf_adj H R0 <= 3200.
Lemma beta_ap L r h R0 H : ln_accurate L -> ap r R0 0 -> ap h H 0 -> okA R0 H ->
  ap (egf_beta (A := B64A L) r h) (egf_B (egf_adj H R0)) (22 / 10 ^ 14) /\ -63 <= egf_B (egf_adj H R0) <= -28.
Proof.
  intros HL Ar Ah [BR [BH BA]].
  assert (U : egf_beta (A := B64A L) r h = Bmult mode_NE (b64_of_Z (-7)) (l_ln L (Bminus mode_NE (Bminus mode_NE (b64_of_Z 3300)
      (if Beqb h (b64_of_Z 0) then b64_of_Z 0 else Bmult mode_NE (b64_of_Z 100) (Bminus mode_NE h (b64_lit 5 10)))) r))) by reflexivity.
  rewrite U. clear U.
  assert (Q : ap (Bminus mode_NE (Bminus mode_NE (b64_of_Z 3300)
      (if Beqb h (b64_of_Z 0) then b64_of_Z 0 else Bmult mode_NE (b64_of_Z 100) (Bminus mode_NE h (b64_lit 5 10)))) r) (3300 - egf_adj H R0) (2 / 10 ^ 12) /\ -950 <= egf_adj H R0).
  { assert (BE : Beqb h (b64_of_Z 0) = Req_bool H 0).
    { destruct Ah as [Fh Eh]. destruct (ext_ofZ 0 ltac:(vm_compute; discriminate)) as [F0 E0]. assert (EH : ext h = H) by (apply Rabs_le_inv in Eh; lra).
      rewrite Beqb_correct by assumption. rewrite <- (ext_fin _ Fh), <- (ext_fin _ F0), EH, E0. reflexivity. }
    rewrite BE. unfold egf_adj in *. destruct (Req_EM_T H 0) as [->|NE].
    - rewrite Req_bool_true by reflexivity. split; [|lra].
      step (ap_sub _ _ _ _ _ _ 3301 (ap_Z 3300 ltac:(vm_compute; discriminate)) (ap_Z 0 ltac:(vm_compute; discriminate)) ltac:(rewrite Rabs_pos_eq; lra) ltac:(okb)) (5 / 10 ^ 13).
      step (ap_sub _ _ _ _ _ _ 4301 S Ar ltac:(rewrite Rabs_pos_eq; lra) ltac:(okb)) (2 / 10 ^ 12). apply (ap_eq _ _ _ _ S0). lra.
    - rewrite Req_bool_false by assumption. split; [|lra].
      step (ap_sub _ _ _ _ _ _ 21 Ah half_ap ltac:(rewrite !Rplus_0_r; apply Rabs_le; lra) ltac:(okb)) (3 / 10 ^ 15).
      step (ap_mul _ _ _ _ _ _ 100 20 2001 (ap_Z 100 ltac:(vm_compute; discriminate)) S ltac:(rewrite Rabs_pos_eq; lra) ltac:(apply Rabs_le; lra) ltac:(lra) ltac:(okb)) (6 / 10 ^ 13).
      step (ap_sub _ _ _ _ _ _ 3400 (ap_Z 3300 ltac:(vm_compute; discriminate)) S0 ltac:(rewrite Rabs_pos_eq; lra) ltac:(okb)) (11 / 10 ^ 13).
      step (ap_sub _ _ _ _ _ _ 4301 S1 Ar ltac:(rewrite Rabs_pos_eq; lra) ltac:(okb)) (2 / 10 ^ 12). apply (ap_eq _ _ _ _ S2). lra. }
  destruct Q as [Q BA']. unfold egf_B. set (M := 3300 - egf_adj H R0) in *. pose proof (ln_rng M ltac:(unfold M; lra)) as BL.
  pose proof (ln_ap L _ M _ HL Q ltac:(unfold M; lra) ltac:(lra)) as S. apply (ap_weak _ _ _ (3 / 10 ^ 14)) in S; [|lra]. split; [|lra].
  pose proof (ap_mul _ _ _ _ _ _ 7 9 64 (ap_Z (-7) ltac:(vm_compute; discriminate)) S ltac:(apply Rabs_le; lra) ltac:(rewrite Rabs_pos_eq; lra) ltac:(lra) ltac:(okb)) as S1.
  apply (ap_weak _ _ _ (22 / 10 ^ 14)) in S1; [|ulra]. exact S1.
Qed.
Lemma E_ap L r1 h1 r2 h2 R1 H1 R2 H2 : ln_accurate L -> exp_accurate L -> ap r1 R1 0 -> ap h1 H1 0 -> ap r2 R2 0 -> ap h2 H2 0 -> okA R1 H1 -> okA R2 H2 ->
  let E := egf_E (egf_adj H1 R1) (egf_adj H2 R2) in
  ap (Bdiv mode_NE one64 (Bplus mode_NE one64 (l_exp L (Bminus mode_NE (egf_beta (A := B64A L) r2 h2) (egf_beta (A := B64A L) r1 h1))))) E (48 / 10 ^ 14) /\ 0 < E < 1.
Proof.
  intros HL HE A1 G1 A2 G2 O1 O2 E. destruct (beta_ap L _ _ _ _ HL A1 G1 O1) as [P1 B1]. destruct (beta_ap L _ _ _ _ HL A2 G2 O2) as [P2 B2].
  step (ap_sub _ _ _ _ _ _ 36 P2 P1 ltac:(pose proof (Rabs_le (egf_B (egf_adj H2 R2) - egf_B (egf_adj H1 R1)) 35 ltac:(lra)); lra) ltac:(okb)) (45 / 10 ^ 14).
  destruct (lexp_ap L _ _ _ HE S ltac:(apply Rabs_le; lra) ltac:(lra)) as [T B]. assert (EE : E = / (1 + exp (egf_B (egf_adj H2 R2) - egf_B (egf_adj H1 R1)))) by (unfold E, egf_E, Rdiv; apply Rmult_1_l).
  rewrite EE. split; [apply (ap_weak _ _ _ _ T); lra|exact B].
Qed.

Lemma C_rng R0 : -900 <= R0 <= 3200 -> 0 < egf_C R0 <= 131.
Proof.
  intros B. unfold egf_C. split; [apply exp_pos|]. unfold Rpower. rewrite <- (exp_ln 131) by lra. apply exp_le.
  assert (H : ln ((3300 - R0) / 200) <= ln 21). { assert (0 < (3300 - R0) / 200 <= 21) by lra. destruct (proj2 H) as [G|<-]; [left; apply ln_increasing; lra|lra]. }
  assert (E1 : 8 * ln 21 = ln (21 ^ 8)) by (rewrite (ln_pow 21 ltac:(lra) 8); simpl; lra). assert (E2 : 5 * ln 131 = ln (131 ^ 5)) by (rewrite (ln_pow 131 ltac:(lra) 5); simpl; lra).
  assert (L : ln (21 ^ 8) < ln (131 ^ 5)) by (apply ln_increasing; lra). lra.
Qed.
Lemma con_ap L r R0 : pow16_accurate L -> ap r R0 0 -> -900 <= R0 <= 3200 -> ap (egf_con (A := B64A L) r) (egf_C R0) (3 / 10 ^ 12).
Proof.
  intros HP Ar BR. pose proof (C_rng R0 BR) as BC. change (egf_con (A := B64A L) r) with (l_pow L (Bdiv mode_NE (Bminus mode_NE (b64_of_Z 3300) r) (b64_of_Z 200)) (b64_lit 16 10)).
  step (ap_sub _ _ _ _ _ _ 4201 (ap_Z 3300 ltac:(vm_compute; discriminate)) Ar ltac:(rewrite Rabs_pos_eq; lra) ltac:(okb)) (51 / 10 ^ 14).
  step (ap_div _ _ _ _ _ _ 200 21 22 S (ap_Z 200 ltac:(vm_compute; discriminate)) ltac:(lra) ltac:(rewrite Rabs_pos_eq; lra) ltac:(rewrite Rabs_pos_eq; lra) ltac:(lra) ltac:(okb)) (53 / 10 ^ 16).
  pose proof (lit_ap 16 10 2 ltac:(discriminate) ltac:(reflexivity) ltac:(rewrite Rabs_pos_eq; lra) ltac:(okb)) as A16. apply (ap_weak _ _ _ (3 / 10 ^ 16)) in A16; [|ulra].
  unfold egf_C in *. set (x := Bdiv mode_NE _ _) in *. set (X := (3300 - R0) / 200) in *. assert (BX : 1 / 2 <= X <= 21) by (unfold X; lra). clearbody X x. clear S.
  destruct S0 as [Fx Ax]. destruct A16 as [F16 A16]. pose proof (Rabs_le_inv _ _ Ax) as Ax'. 
  destruct (HP x Fx) as [Fp Ap]; [rewrite <- (ext_fin _ Fx); lra|]. rewrite <- (ext_fin _ Fx), <- (ext_fin _ F16), <- (ext_fin _ Fp) in Ap.
  split; [exact Fp|]. set (p := l_pow L x (b64_lit 16 10)) in *. set (a := ext (b64_lit 16 10)) in *. clearbody p a.
  pose proof (ln_lip (ext x) X 0.49 ltac:(lra) ltac:(lra) ltac:(lra)) as LL. pose proof ln10_close as LN.
  assert (E2 : ln 100 = 2 * ln 10) by (replace 100 with (10 ^ 2) by lra; rewrite (ln_pow 10 ltac:(lra) 2); simpl; lra).
  assert (BLX : -5 <= ln X <= 5). { split; [|apply Rle_trans with (ln 100); [left; apply ln_increasing; lra|lra]]. apply Rle_trans with (ln (/ 100)); [rewrite ln_Rinv by lra; lra|left; apply ln_increasing; lra]. }
  assert (LL' : Rabs (ext x - X) / 0.49 <= 11 / 10 ^ 15) by lra. assert (LL2 : Rabs (ln (ext x) - ln X) <= 11 / 10 ^ 15) by lra. clear LL LL'.
  assert (D : Rabs (a * ln (ext x) - 1.6 * ln X) <= 2 / 10 ^ 14).
  { replace (a * ln (ext x) - 1.6 * ln X) with (1.6 * (ln (ext x) - ln X) + (a - 16 / 10) * ln (ext x)) by lra.
    eapply Rle_trans; [apply Rabs_triang|]. rewrite !Rabs_mult. rewrite (Rabs_pos_eq 1.6) by lra.
    assert (B5 : Rabs (ln (ext x)) <= 6) by (apply Rabs_le_inv in LL2; apply Rabs_le; lra).
    assert (Rabs (a - 16 / 10) * Rabs (ln (ext x)) <= 3 / 10 ^ 16 * 6) by (apply Rmult_le_compat; try apply Rabs_pos; lra). lra. }
  pose proof (exp_close _ _ D ltac:(lra)) as EC.
  assert (EP : Rpower (ext x) a = Rpower X 1.6 * exp (a * ln (ext x) - 1.6 * ln X)) by (unfold Rpower; rewrite <- exp_plus; f_equal; ring).
  set (P := Rpower X 1.6) in *. rewrite EP in Ap. set (e := exp (a * _ - _)) in *. clearbody e P. apply Rabs_le_inv in EC.
  assert (EE : Rabs (P * e - P) <= 131 * (1.01 * (2 / 10 ^ 14))).
  { replace (P * e - P) with (P * (e - 1)) by ring. rewrite Rabs_mult. apply Rmult_le_compat; try apply Rabs_pos; [rewrite Rabs_pos_eq; lra|apply Rabs_le; lra]. }
  assert (PE : 0 <= P * e <= 132) by (apply Rabs_le_inv in EE; split; [apply Rmult_le_pos|]; lra). pose proof i50.
  assert (/ 2 ^ 50 * (P * e) <= / 10 ^ 15 * 132) by (apply Rmult_le_compat; lra). apply Rabs_le_inv in Ap, EE. apply Rabs_le. lra.
Qed.

Lemma bon_rng R0 : -900 <= R0 <= 3200 -> 0 <= egf_bon R0 <= 8.2.
Proof.
  intros B. unfold egf_bon. set (y := (2300 - R0) / 80). assert (By : -40 <= y <= 40) by (unfold y; lra). pose proof (exp_pos y) as P.
  assert (0 <= ln (1 + exp y) <= 41); [|lra]. split; [rewrite <- ln_1; left; apply ln_increasing; lra|].
  rewrite <- (ln_exp 41). left. apply ln_increasing; [lra|]. assert (E : exp 41 = exp 40 * exp 1) by (rewrite <- exp_plus; f_equal; lra). rewrite E.
  pose proof exp_1_bounds. assert (exp y <= exp 40) by (apply exp_le; lra). assert (1 < exp 40) by (rewrite <- exp_0; apply exp_increasing; lra). nra.
Qed.
Lemma bon_ap L r R0 : exp_accurate L -> ln1p_accurate L -> ap r R0 0 -> -900 <= R0 <= 3200 -> ap (egf_bonus (A := B64A L) r) (egf_bon R0) (2 / 10 ^ 14).
Proof.
  intros HE HL Ar BR. pose proof (bon_rng R0 BR) as BB. change (egf_bonus (A := B64A L) r) with (Bdiv mode_NE (l_ln1p L (l_exp L (Bdiv mode_NE (Bminus mode_NE (b64_of_Z 2300) r) (b64_of_Z 80)))) (b64_of_Z 5)).
  step (ap_sub _ _ _ _ _ _ 3201 (ap_Z 2300 ltac:(vm_compute; discriminate)) Ar ltac:(pose proof (Rabs_le (2300 - R0) 3200 ltac:(lra)); lra) ltac:(okb)) (39 / 10 ^ 14).
  step (ap_div _ _ _ _ _ _ 80 40 41 S (ap_Z 80 ltac:(vm_compute; discriminate)) ltac:(lra) ltac:(rewrite Rabs_pos_eq; lra) ltac:(apply Rabs_le; lra) ltac:(lra) ltac:(okb)) (/ 10 ^ 14).
  unfold egf_bon in *. set (y := (2300 - R0) / 80) in *. assert (By : -40 <= y <= 40) by (unfold y; lra). clear S.
  destruct (exp_ap L _ _ _ HE S0 ltac:(apply Rabs_le; lra) ltac:(lra)) as [[Fp Ap] _]. set (p := l_exp L _) in *. clearbody p y. set (P := exp y) in *.
  assert (PP : 0 < P) by apply exp_pos.
  assert (PB : / 3 ^ 40 <= P <= 3 ^ 40).
  { assert (T : forall t, t <= 40 -> exp t <= 3 ^ 40). { intros t Ht. apply Rle_trans with (exp (INR 40)); [apply exp_le; rewrite INR_IZR_INZ; simpl; lra|]. rewrite exp_nat. apply pow_incr. pose proof exp_1_bounds. lra. }
    split; [|apply T; lra]. unfold P. rewrite <- (Ropp_involutive y), exp_Ropp. apply Rinv_le_contravar; [apply exp_pos|apply T; lra]. }
  clearbody P. apply (fun h => Rle_trans _ _ ((1.2 / 10 ^ 14) * P) h) in Ap; [|apply Rmult_le_compat_r; lra]. pose proof (Rabs_le_inv _ _ Ap) as Ap'.
  destruct (HL p Fp) as [Fl Al]; [rewrite <- (ext_fin _ Fp); lra|]. rewrite <- (ext_fin _ Fp), <- (ext_fin _ Fl) in Al. set (l := l_ln1p L p) in *. clearbody l.
  assert (L1 : Rabs (ln (1 + ext p) - ln (1 + P)) <= 1.3 / 10 ^ 14).
  { eapply Rle_trans; [apply (ln_lip (1 + ext p) (1 + P) ((1 + P) * 0.999)); lra|]. replace (1 + ext p - (1 + P)) with (ext p - P) by ring.
    apply Rmult_le_reg_r with ((1 + P) * 0.999); [lra|]. unfold Rdiv. rewrite (Rmult_assoc (Rabs _)), Rinv_l by lra. lra. }
  assert (A : ap l (ln (1 + P)) (6 / 10 ^ 14)).
  { split; [exact Fl|]. pose proof i50. apply Rabs_le_inv in L1. assert (0 <= ln (1 + ext p)) by (rewrite <- ln_1; left; apply ln_increasing; lra).
    assert (/ 2 ^ 50 * ln (1 + ext p) <= / 10 ^ 15 * 42) by (apply Rmult_le_compat; lra). apply Rabs_le_inv in Al. apply Rabs_le. lra. }
  step (ap_div _ _ _ _ _ _ 5 8.2 9 A (ap_Z 5 ltac:(vm_compute; discriminate)) ltac:(lra) ltac:(rewrite Rabs_pos_eq; lra) ltac:(rewrite Rabs_pos_eq; lra) ltac:(lra) ltac:(okb)) (2 / 10 ^ 14). exact S.
Qed.

Lemma egf_half L r o e R0 s E : pow16_accurate L -> exp_accurate L -> ln1p_accurate L -> ap r R0 0 -> ap o s 0 -> ap e E (5 / 10 ^ 13) -> -900 <= R0 <= 3200 -> 0 <= s <= 1 -> 0 <= E <= 1 ->
  ap (egf_new_rating (A := B64A L) r (egf_con (A := B64A L) r) o e (egf_bonus (A := B64A L) r)) (egf_upd R0 s E) (/ 10 ^ 10).
Proof.
  intros HP HE HL Ar Ao Ae BR Bs BE. pose proof (con_ap L r R0 HP Ar BR) as AC. pose proof (C_rng R0 BR) as BC. pose proof (bon_ap L r R0 HE HL Ar BR) as AB. pose proof (bon_rng R0 BR) as BB.
  pose proof (pts_minus_ap _ _ _ _ _ Ao Bs Ae BE ltac:(lra)) as Am. apply (ap_weak _ _ _ (52 / 10 ^ 14)) in Am; [|lra].
  assert (BP : Rabs (egf_C R0 * (s - E) + R0) <= 3331). { eapply Rle_trans; [apply Rabs_triang|]. rewrite Rabs_mult. assert (Rabs (egf_C R0) * Rabs (s - E) <= 131 * 1) by (apply Rmult_le_compat; try apply Rabs_pos; [rewrite Rabs_pos_eq; lra|apply Rabs_le; lra]). pose proof (Rabs_le R0 3200 ltac:(lra)). lra. }
  step (ap_fma _ _ _ _ _ _ _ _ _ 131 1 3332 AC Am Ar ltac:(rewrite Rabs_pos_eq; lra) ltac:(apply Rabs_le; lra) ltac:(lra) ltac:(okb)) (8 / 10 ^ 11).
  step (ap_add _ _ _ _ _ _ 3342 S AB ltac:(eapply Rle_trans; [apply Rplus_le_compat_r, Rabs_triang|]; rewrite (Rabs_pos_eq (egf_bon R0)) by lra; lra) ltac:(okb)) (/ 10 ^ 10).
  pose proof (max_ap _ _ _ _ _ S0 (ap_Z (-900) ltac:(vm_compute; discriminate))) as T. unfold egf_upd.
  apply (ap_eq _ _ _ _ T). rewrite Rmax_comm. f_equal. ring.
Qed.

Lemma C101_egf_proof : forall (L : Libm) (p1 p2 : EGFRating B64) (o : Outcomes) (cfg : EGFConfig B64),
  ln_accurate L -> ln1p_accurate L -> pow16_accurate L -> exp_accurate L ->
  num_in (-900) 3200 (egf_rating p1) -> num_in (-900) 3200 (egf_rating p2) -> num_in (-20) 20 (egf_handicap cfg) ->
  let r1 := B2R (egf_rating p1) in let r2 := B2R (egf_rating p2) in let H := B2R (egf_handicap cfg) in
  egf_adj (egf_h1 H) r1 <= 3200 -> egf_adj (egf_h2 H) r2 <= 3200 ->
  let E := egf_E (egf_adj (egf_h1 H) r1) (egf_adj (egf_h2 H) r2) in
  let e := egf_expected_score (A := B64A L) p1 p2 cfg in
  let new := egf (A := B64A L) p1 p2 o cfg in
  near (fst e) E (5 / 10 ^ 13) /\ near (snd e) (1 - E) (5 / 10 ^ 13) /\
  near (egf_rating (fst new)) (egf_upd r1 (points o) E) (/ 10 ^ 10) /\
  near (egf_rating (snd new)) (egf_upd r2 (points (invert o)) (1 - E)) (/ 10 ^ 10).
Proof.
  intros L [r1] [r2] o [h] HL HP1 HP HE N1 N2 NH R1 R2 H O1 O2 E e new. cbn [egf_rating egf_handicap] in *.
  destruct (num_ap _ _ _ N1) as [A1 B1]. destruct (num_ap _ _ _ N2) as [A2 B2]. destruct (num_ap _ _ _ NH) as [AH BH]. fold R1 in A1, B1. fold R2 in A2, B2. fold H in AH, BH.
  set (hh := egf_handicap_split (A := B64A L) (mkEgfConfig h)).
  assert (S : ap (fst hh) (egf_h1 H) 0 /\ ap (snd hh) (egf_h2 H) 0 /\ 0 <= egf_h1 H <= 20 /\ 0 <= egf_h2 H <= 20).
  { assert (Aabs : ap (Babs h) (Rabs H) 0). { destruct AH as [F _]. assert (G : fin (Babs h)) by (unfold fin; rewrite is_finite_Babs; exact F). apply ap_exact; [exact G|]. rewrite (ext_fin _ G), B2R_Babs. reflexivity. }
    assert (A0 : ap (b64_of_Z 0) 0 0) by zz. pose proof (sign_B2R h (ap_fin _ _ _ AH)) as SG. fold H in SG.
    unfold hh, egf_handicap_split. cbn [egf_handicap]. change (fsignneg (Arith := B64A L) h) with (Bsign h). unfold egf_h1, egf_h2.
    destruct (Bsign h); cbn [fst snd]; destruct (Rlt_dec H 0); (split; [|split; [|split; lra]]);
      first [exact A0 | apply (ap_eq _ _ _ _ Aabs); first [rewrite Rabs_left1; lra | rewrite Rabs_pos_eq; lra] | apply (ap_eq _ _ _ _ A0); lra]. }
  destruct S as [S1 [S2 [BH1 BH2]]].
  destruct (E_ap L r1 (fst hh) r2 (snd hh) R1 (egf_h1 H) R2 (egf_h2 H) HL HE A1 S1 A2 S2 ltac:(unfold okA; auto) ltac:(unfold okA; auto)) as [Ae BE]. fold E in Ae, BE.
  assert (He : e = (Bdiv mode_NE one64 (Bplus mode_NE one64 (l_exp L (Bminus mode_NE (egf_beta (A := B64A L) r2 (snd hh)) (egf_beta (A := B64A L) r1 (fst hh))))),
     Bminus mode_NE one64 (Bdiv mode_NE one64 (Bplus mode_NE one64 (l_exp L (Bminus mode_NE (egf_beta (A := B64A L) r2 (snd hh)) (egf_beta (A := B64A L) r1 (fst hh)))))))).
  { unfold e, egf_expected_score, hh. destruct (egf_handicap_split (A := B64A L) (mkEgfConfig h)). reflexivity. }
  set (ee := Bdiv mode_NE one64 _) in *. pose proof (one_minus_ap _ _ _ Ae ltac:(lra) ltac:(lra)) as Am. 
  destruct (ext_points L o) as [Fp Ep]. destruct (ext_points2 L o) as [Fq Eq]. cbv zeta in Fq, Eq. pose proof (points_range o) as PR.
  assert (PI' : points (invert o) = 1 - points o) by (destruct o; simpl; lra). rewrite <- PI' in Eq.
  apply (ap_weak _ _ _ (5 / 10 ^ 13)) in Ae; [|lra]. apply (ap_weak _ _ _ (5 / 10 ^ 13)) in Am; [|lra].
  pose proof (egf_half L r1 _ _ R1 _ _ HP HE HP1 A1 (ap_exact _ _ Fp Ep) Ae B1 PR ltac:(lra)) as X1.
  pose proof (egf_half L r2 _ _ R2 _ _ HP HE HP1 A2 (ap_exact _ _ Fq Eq) Am B2 ltac:(lra) ltac:(lra)) as X2.
  assert (Hn : new = (mkEgf (egf_new_rating (A := B64A L) r1 (egf_con (A := B64A L) r1) (to_chess_points (A := B64A L) o) ee (egf_bonus (A := B64A L) r1)),
    mkEgf (egf_new_rating (A := B64A L) r2 (egf_con (A := B64A L) r2) (Bminus mode_NE one64 (to_chess_points (A := B64A L) o)) (Bminus mode_NE one64 ee) (egf_bonus (A := B64A L) r2)))).
  { unfold new, egf. cbn [egf_rating]. fold e. rewrite He. reflexivity. }
  rewrite Hn, He. cbn [fst snd egf_rating]. split; [apply ap_near; exact Ae|]. split; [apply ap_near; exact Am|]. split; apply ap_near; assumption.
Qed.

(** ** The correctly rounded libm meets the contracts *)
Lemma libm_ln_accurate : ln_accurate libm_rounded.
Proof.
  intros x F B. destruct (real_fun_fin ln (B754_infinity false) B754_nan x F) as [N H]. rewrite (ext_fin x F) in H. apply (libm_acc _ _ N H). apply small_bpow.
  assert (L2 : 1 / 2 <= ln 2). { rewrite <- (ln_exp (1 / 2)). left. apply ln_increasing; [apply exp_pos|]. assert (exp 1 = exp (1/2) * exp (1/2)) by (rewrite <- exp_plus; f_equal; lra). pose proof exp_1_bounds. pose proof (exp_pos (1/2)). nra. }
  pose proof ln10_close as LN. assert (E : ln (10 ^ 6) = 6 * ln 10) by (rewrite (ln_pow 10 ltac:(lra) 6); simpl; lra).
  assert (ln 2 <= ln (B2R x)) by (destruct (proj1 B) as [G|<-]; [left; apply ln_increasing; lra|lra]).
  assert (ln (B2R x) <= ln (10 ^ 6)) by (destruct (proj2 B) as [G|<-]; [left; apply ln_increasing; lra|lra]). okb.
Qed.
Lemma libm_ln1p_accurate : ln1p_accurate libm_rounded.
Proof.
  intros x F B. destruct (real_fun_fin (fun r => ln (1 + r)) (B754_infinity false) B754_nan x F) as [N H]. rewrite (ext_fin x F) in H. apply (libm_acc _ _ N H). apply small_bpow.
  pose proof ln10_close as LN. assert (E : ln (10 ^ 31) = 31 * ln 10) by (rewrite (ln_pow 10 ltac:(lra) 31); rewrite INR_IZR_INZ; simpl; lra).
  set (v := B2R x) in *. assert (ln (1 + v) <= ln (10 ^ 31)) by (left; apply ln_increasing; lra).
  assert (/ 10 ^ 21 <= ln (1 + v)). { apply Rle_trans with (ln (1 + / 10 ^ 20)); [|destruct (proj1 B) as [G|<-]; [left; apply ln_increasing; lra|lra]].
    assert (G : ln (/ (1 + / 10 ^ 20)) <= / (1 + / 10 ^ 20) - 1). { rewrite <- (ln_exp (_ - 1)). pose proof (exp_ineq1_le (/ (1 + / 10 ^ 20) - 1)) as X. destruct X as [X|X]; [left; apply ln_increasing; [apply Rinv_0_lt_compat; lra|lra]|right; f_equal; lra]. }
    rewrite ln_Rinv in G by lra. lra. }
  okb.
Qed.
Lemma libm_pow16_accurate : pow16_accurate libm_rounded.
Proof.
  intros x F B. pose proof (lit_ap 16 10 2 ltac:(discriminate) ltac:(reflexivity) ltac:(rewrite Rabs_pos_eq; lra) ltac:(okb)) as [F16 A16].
  destruct (real_fun_fin (Rpower (B2R x)) (B754_infinity false) zero64 (b64_lit 16 10) F16) as [N E]. cbv zeta. rewrite (ext_fin _ F16) in E, A16.
  apply (libm_acc _ _ N E). set (a := B2R (b64_lit 16 10)) in *. clearbody a. unfold u0 in A16. apply Rabs_le_inv in A16. apply small_bpow.
  set (v := B2R x) in *. assert (H1 : - 2.4 <= ln v <= 5).
  { pose proof ln10_close as LN. split.
    - apply Rle_trans with (ln (/ 10)); [rewrite ln_Rinv by lra; lra|]. destruct (proj1 B) as [G|<-]; [left; apply ln_increasing; lra|lra].
    - assert (E2 : ln 100 = 2 * ln 10) by (replace 100 with (10 ^ 2) by lra; rewrite (ln_pow 10 ltac:(lra) 2); simpl; lra).
      apply Rle_trans with (ln 100); [|lra]. destruct (proj2 B) as [G| ->]; [left; apply ln_increasing; lra|lra]. }
  unfold Rpower. assert (H2 : - 10 <= a * ln v <= 10) by (split; nra).
  assert (T : forall t, t <= 10 -> exp t <= 3 ^ 10). { intros t Ht. apply Rle_trans with (exp (INR 10)); [apply exp_le; rewrite INR_IZR_INZ; simpl; lra|]. rewrite exp_nat. apply pow_incr. pose proof exp_1_bounds. lra. }
  assert (U : exp (a * ln v) <= 3 ^ 10) by (apply T; lra). assert (W : / 3 ^ 10 <= exp (a * ln v)) by (rewrite <- (Ropp_involutive (a * ln v)), exp_Ropp; apply Rinv_le_contravar; [apply exp_pos|apply T; lra]). okb.
Qed.
