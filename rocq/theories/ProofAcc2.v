(** Accuracy in double precision: FIFA and Weng-Lin games. *)
From Coq Require Import ZArith List Bool Reals Lra Lia Psatz.
From Flocq Require Import Core.Core IEEE754.BinarySingleNaN.
From Verif Require Import Arith XR B64 ModelLib ModelElo ModelFifa ModelIngo ModelWengLin Spec SpecB64 SpecAcc Tac MathB64 ProofB64 ProofB64b ProofB64c MathB64b ProofB64f MathAcc ProofBoost2 ProofAcc.
Import ListNotations.
Local Open Scope R_scope.
#[local] Opaque Bplus Bminus Bmult Bdiv Bfma Bsqrt Bopp b64_max b64_min b64_of_Z.

(** ** FIFA *)
Definition feB (L : Libm) (r1 r2 : B64) : B64 :=
  Bdiv mode_NE one64 (Bplus mode_NE one64 (l_pow L (b64_of_Z 10) (Bdiv mode_NE (Bopp (Bminus mode_NE r1 r2)) (b64_of_Z 600)))).
Lemma fe_ap L r1 r2 R1 R2 : pow10_accurate L -> ap r1 R1 0 -> ap r2 R2 0 -> Rabs R1 <= 10 ^ 4 -> Rabs R2 <= 10 ^ 4 ->
  ap (feB L r1 r2) (fifa_We R1 R2) (6 / 10 ^ 15) /\ 0 < fifa_We R1 R2 < 1.
Proof.
  intros HP A1 A2 B1 B2. apply Rabs_le_inv in B1, B2.
  step (ap_sub _ _ _ _ _ _ 20000 A1 A2 ltac:(rewrite !Rplus_0_r; apply Rabs_le; lra) ltac:(okb)) (24 / 10 ^ 13).
  pose proof (ap_opp _ _ _ S) as S'. assert (By : Rabs (- (R1 - R2) / 600) <= 34). { apply Rabs_le. lra. }
  step (ap_div _ _ _ _ _ _ 600 34 35 S' (ap_Z 600 ltac:(vm_compute; discriminate)) ltac:(lra) ltac:(rewrite Rabs_pos_eq; lra) By ltac:(lra) ltac:(okb)) (84 / 10 ^ 16).
  destruct (log_ap L _ _ _ HP S0 ltac:(lra) ltac:(lra)) as [_ E].
  assert (Ee : fifa_We R1 R2 = / (1 + Rpower 10 (- (R1 - R2) / 600))) by (unfold fifa_We, Rdiv; rewrite Rmult_1_l; f_equal; ring).
  rewrite Ee. split; [apply (ap_weak _ _ _ _ E); lra|]. set (p := Rpower 10 _). assert (P : 0 < p) by apply Rpower10_pos.
  split; [apply Rinv_0_lt_compat; lra|]. rewrite <- Rinv_1. apply Rinv_lt_contravar; lra.
Qed.
Lemma upd_ap k o e r K s E R0 d : ap k K 0 -> ap o s 0 -> ap e E d -> ap r R0 0 -> 0 <= s <= 1 -> 0 <= E <= 1 -> d <= 7 / 10 ^ 15 -> Rabs K <= 1000 -> Rabs R0 <= 10 ^ 4 ->
  ap (Bfma mode_NE k (Bminus mode_NE o e) r) (R0 + K * (s - E)) (/ 10 ^ 11).
Proof.
  intros Ak Ao Ae Ar Bs BE Hd Bk Br. pose proof (ap_nonneg _ _ _ Ae) as D0. pose proof (pts_minus_ap _ _ _ _ _ Ao Bs Ae BE ltac:(lra)) as Am. apply (ap_weak _ _ _ (714 / 10 ^ 17)) in Am; [|lra].
  assert (Bp : Rabs (K * (s - E) + R0) <= 11000). { eapply Rle_trans; [apply Rabs_triang|]. rewrite Rabs_mult. assert (Rabs K * Rabs (s - E) <= 1000 * 1) by (apply Rmult_le_compat; try apply Rabs_pos; auto; apply Rabs_le; lra). lra. }
  step (ap_fma _ _ _ _ _ _ _ _ _ 1000 1 11001 Ak Am Ar Bk ltac:(apply Rabs_le; lra) ltac:(lra) ltac:(okb)) (/ 10 ^ 11). apply (ap_eq _ _ _ _ S). ring.
Qed.
(** the better of old and new rating *)
Lemma ko_ap (kn : bool) r x R0 X d : ap r R0 0 -> ap x X d -> ap (if kn && (Bltb x r) then r else x) (if kn then Rmax R0 X else X) d.
Proof.
  intros Ar Ax. pose proof (ap_nonneg _ _ _ Ax) as D0. destruct kn; [|exact Ax]. cbn [andb]. destruct Ar as [Fr Ar], Ax as [Fx Ax]. apply Rabs_le_inv in Ar, Ax.
  rewrite (Bltb_ext x r (fin_nn _ Fx) (fin_nn _ Fr)). unfold Rmax. destruct (Rlt_bool_spec (ext x) (ext r)) as [LT|GE].
  - split; [exact Fr|]. destruct (Rle_dec R0 X); apply Rabs_le; lra.
  - split; [exact Fx|]. destruct (Rle_dec R0 X); apply Rabs_le; lra.
Qed.
Lemma C101_fifa_proof : forall (L : Libm) (p1 p2 : FifaRating B64) (o : Outcomes) (imp : B64) (knockout : bool),
  pow10_accurate L ->
  num_in (- 10 ^ 4) (10 ^ 4) (fifa_rating p1) -> num_in (- 10 ^ 4) (10 ^ 4) (fifa_rating p2) -> num_in (- 1000) 1000 imp ->
  let r1 := B2R (fifa_rating p1) in let r2 := B2R (fifa_rating p2) in
  let u1 := fifa_upd (B2R imp) r1 r2 (points o) in let u2 := fifa_upd (B2R imp) r2 r1 (points (invert o)) in
  let e := fifa_expected_score (A := B64A L) p1 p2 in
  let new := fifa (A := B64A L) p1 p2 o (mkFifaConfig imp knockout false) in
  near (fst e) (fifa_We r1 r2) (/ 10 ^ 14) /\ near (snd e) (fifa_We r2 r1) (/ 10 ^ 14) /\
  near (fifa_rating (fst new)) (if knockout then Rmax r1 u1 else u1) (/ 10 ^ 11) /\
  near (fifa_rating (snd new)) (if knockout then Rmax r2 u2 else u2) (/ 10 ^ 11).
Proof.
  intros L [r1] [r2] o imp kn HP N1 N2 NI R1 R2 u1 u2 e new. cbn [fifa_rating] in *.
  destruct (num_ap _ _ _ N1) as [A1 B1]. destruct (num_ap _ _ _ N2) as [A2 B2]. destruct (num_ap _ _ _ NI) as [AI BI]. fold R1 in A1, B1. fold R2 in A2, B2.
  assert (K1 : Rabs R1 <= 10 ^ 4) by (apply Rabs_le; lra). assert (K2 : Rabs R2 <= 10 ^ 4) by (apply Rabs_le; lra). assert (KI : Rabs (B2R imp) <= 1000) by (apply Rabs_le; lra).
  destruct (fe_ap L r1 r2 R1 R2 HP A1 A2 K1 K2) as [Ae BE].
  assert (EW : fifa_We R2 R1 = 1 - fifa_We R1 R2).
  { unfold fifa_We. replace (- (R2 - R1) / 600) with (- (- (R1 - R2) / 600)) by lra. rewrite Rpower_Ropp. set (p := Rpower 10 _). assert (P : 0 < p) by apply Rpower10_pos. field. lra. }
  pose proof (one_minus_ap _ _ _ Ae ltac:(lra) ltac:(lra)) as Am. rewrite <- EW in Am.
  destruct (ext_points L o) as [Fp Ep]. destruct (ext_points2 L o) as [Fq Eq]. cbv zeta in Fq, Eq. pose proof (points_range o) as PR.
  assert (PI' : points (invert o) = 1 - points o) by (destruct o; simpl; lra). rewrite <- PI' in Eq.
  assert (H : e = (feB L r1 r2, Bminus mode_NE one64 (feB L r1 r2))) by reflexivity. rewrite H. cbn [fst snd].
  split; [apply ap_near, (ap_weak _ _ _ _ Ae); lra|]. split; [apply ap_near, (ap_weak _ _ _ _ Am); lra|].
  assert (H1 : fifa_rating (fst new) = let x := Bfma mode_NE imp (Bminus mode_NE (to_chess_points (A := B64A L) o) (feB L r1 r2)) r1 in if kn && Bltb x r1 then r1 else x) by reflexivity.
  assert (H2 : fifa_rating (snd new) = let x := Bfma mode_NE imp (Bminus mode_NE (Bminus mode_NE one64 (to_chess_points (A := B64A L) o)) (Bminus mode_NE one64 (feB L r1 r2))) r2 in if kn && Bltb x r2 then r2 else x) by reflexivity.
  rewrite H1, H2. cbv zeta. split; apply ap_near, ko_ap; auto; unfold u1, u2, fifa_upd.
  - apply upd_ap with (d := 6 / 10 ^ 15); auto; [apply (ap_exact _ _ Fp Ep)|lra|lra].
  - apply upd_ap with (d := 7 / 10 ^ 15); auto; [apply (ap_exact _ _ Fq Eq)|apply (ap_weak _ _ _ _ Am); lra|lra|lra|lra].
Qed.

(** ** Weng-Lin *)
Definition wcB (beta u1 u2 : B64) : B64 := Bsqrt mode_NE (Bfma mode_NE (b64_of_Z 2) (Bmult mode_NE beta beta) (Bfma mode_NE u1 u1 (Bmult mode_NE u2 u2))).
Definition wpB (L : Libm) (r1 r2 c : B64) : B64 :=
  let e1 := l_exp L (Bdiv mode_NE r1 c) in Bdiv mode_NE e1 (Bplus mode_NE e1 (l_exp L (Bdiv mode_NE r2 c))).
Lemma wc_ap b u1 u2 BT S1 S2 : ap b BT 0 -> ap u1 S1 0 -> ap u2 S2 0 -> 1 <= BT <= 100 -> / 1000 <= S1 <= 100 -> / 1000 <= S2 <= 100 ->
  let C := wlc BT (S1 ^ 2) (S2 ^ 2) in ap (wcB b u1 u2) C (8 / 10 ^ 16 * C) /\ 1.41 <= C <= 250 /\ S1 <= C /\ S2 <= C.
Proof.
  intros Ab A1 A2 Bb B1 B2 C. set (X := S1 ^ 2 + S2 ^ 2 + 2 * BT ^ 2).
  assert (Q1 : 0 <= S1 * S1 <= 10000) by nra. assert (Q2 : 0 <= S2 * S2 <= 10000) by nra. assert (Q3 : 1 <= BT * BT <= 10000) by nra.
  assert (EX : X = S1 * S1 + S2 * S2 + 2 * (BT * BT)) by (unfold X; ring). assert (BX : 2 <= X <= 40000) by lra. assert (U0 : 0 < u0 <= 12 / 10 ^ 17) by ulra.
  assert (uX : 0 <= u0 * X <= 12 / 10 ^ 17 * X) by (split; [apply Rmult_le_pos; lra|apply Rmult_le_compat_r; lra]).
  step (ap_mul _ _ _ _ _ _ S2 S2 (1.01 * X) A2 A2 ltac:(rewrite Rabs_pos_eq; lra) ltac:(rewrite Rabs_pos_eq; lra) ltac:(lra) ltac:(okb)) (u0 * (1.01 * X)).
  pose proof (ap_fma _ _ _ _ _ _ _ _ _ S1 S1 (1.01 * X) A1 A1 S ltac:(rewrite Rabs_pos_eq; lra) ltac:(rewrite Rabs_pos_eq; lra) ltac:(rewrite Rabs_pos_eq; lra) ltac:(okb)) as T1.
  step (ap_mul _ _ _ _ _ _ BT BT (1.01 * X) Ab Ab ltac:(rewrite Rabs_pos_eq; lra) ltac:(rewrite Rabs_pos_eq; lra) ltac:(lra) ltac:(okb)) (u0 * (1.01 * X)).
  pose proof (ap_fma _ _ _ _ _ _ _ _ _ 2 (BT * BT) (1.01 * X) (ap_Z 2 ltac:(vm_compute; discriminate)) S0 T1 ltac:(rewrite Rabs_pos_eq; lra) ltac:(rewrite Rabs_pos_eq; lra) ltac:(rewrite Rabs_pos_eq; lra) ltac:(okb)) as T2.
  apply (ap_eq _ _ X) in T2; [|lra]. apply (ap_weak _ _ _ (64 / 10 ^ 17 * X)) in T2; [|lra].
  assert (EC : C = sqrt X) by reflexivity. rewrite EC. clear C EC. set (C := sqrt X).
  assert (CC : C * C = X) by (apply sqrt_sqrt; lra). assert (C0 : 0 < C) by (apply sqrt_lt_R0; lra).
  assert (BC : 1.41 <= C <= 250) by (split; apply Rsqr_incr_0_var; unfold Rsqr; lra).
  assert (uC : 0 <= u0 * C <= 12 / 10 ^ 17 * C) by (split; [apply Rmult_le_pos; lra|apply Rmult_le_compat_r; lra]).
  assert (Ez : 64 / 10 ^ 17 * X / C = 64 / 10 ^ 17 * C) by (rewrite <- CC; field; lra).
  pose proof (ap_sqrt _ _ _ C C (1.01 * C) T2 C0 ltac:(fold C; lra) ltac:(fold C; lra) ltac:(lra) ltac:(rewrite Ez; lra) ltac:(okb)) as T3. rewrite Ez in T3. fold C in T3.
  split; [apply (ap_weak _ _ _ _ T3); lra|]. split; [exact BC|]. split; apply Rsqr_incr_0_var; unfold Rsqr; lra.
Qed.
Lemma exp_close t d : Rabs t <= d -> d <= / 1000 -> Rabs (exp t - 1) <= 1.01 * d.
Proof.
  intros T D. apply Rabs_le_inv in T. pose proof (exp_ineq1_le t) as E1. pose proof (exp_ineq1_le (- t)) as E2. rewrite exp_Ropp in E2. pose proof (exp_pos t) as EP.
  assert (E3 : exp t * (1 - t) <= 1). { apply Rmult_le_reg_l with (/ exp t); [apply Rinv_0_lt_compat; auto|]. rewrite <- Rmult_assoc, Rinv_l by lra. lra. }
  assert (E4 : exp t <= 1.002) by nra. apply Rabs_le. split; [lra|]. assert (exp t * t <= 1.01 * d); [|lra].
  destruct (Rle_dec 0 t); [apply Rle_trans with (1.002 * t); [apply Rmult_le_compat_r; lra|lra]|]. assert (0 <= exp t * - t) by (apply Rmult_le_pos; lra). lra.
Qed.
Lemma exp_ap L y Y d : exp_accurate L -> ap y Y d -> Rabs Y <= 400 -> d <= / 10 ^ 6 -> ap (l_exp L y) (exp Y) ((1.01 * d + 1.1 / 10 ^ 15) * exp Y) /\ / 10 ^ 180 <= exp Y <= 10 ^ 180.
Proof.
  intros HE [F A] BY Hd. pose proof (Rabs_pos (ext y - Y)) as D0. pose proof (Rabs_le_inv _ _ A) as A'. pose proof (Rabs_le_inv _ _ BY) as BY'. destruct (HE y F) as [Fe Ae]; [rewrite <- (ext_fin y F); apply Rabs_le; lra|].
  rewrite <- (ext_fin y F), <- (ext_fin _ Fe) in Ae. pose proof (exp_close (ext y - Y) d A ltac:(lra)) as EC. pose proof (exp_pos Y) as PY.
  assert (E1 : exp (ext y) = exp Y * exp (ext y - Y)) by (rewrite <- exp_plus; f_equal; ring).
  assert (E2 : Rabs (exp (ext y) - exp Y) <= 1.01 * d * exp Y). { rewrite E1. replace (exp Y * exp (ext y - Y) - exp Y) with ((exp (ext y - Y) - 1) * exp Y) by ring. rewrite Rabs_mult, (Rabs_pos_eq (exp Y)) by lra. apply Rmult_le_compat_r; lra. }
  split.
  - split; [exact Fe|]. pose proof i50 as I. assert (Ae' : Rabs (ext (l_exp L y) - exp (ext y)) <= / 10 ^ 15 * exp (ext y)) by (eapply Rle_trans; [exact Ae|]; apply Rmult_le_compat_r; [left; apply exp_pos|lra]).
    assert (dY : 0 <= d * exp Y <= / 10 ^ 6 * exp Y) by (split; [apply Rmult_le_pos; lra|apply Rmult_le_compat_r; lra]).
    apply Rabs_le_inv in Ae', E2. apply Rabs_le. lra.
  - assert (U : forall t, t <= 400 -> exp t <= 10 ^ 180).
    { intros t Ht. pose proof ln10_close as LN. rewrite <- (exp_ln (10 ^ 180)) by (apply pow_lt; lra). apply exp_le. rewrite <- Rpower_pow by lra. rewrite ln_Rpower. rewrite INR_IZR_INZ. change (Z.of_nat 180) with 180%Z. lra. }
    split; [|apply U; lra]. rewrite <- (Ropp_involutive Y), exp_Ropp. apply Rinv_le_contravar; [apply exp_pos|]. apply U. lra.
Qed.

Lemma wp_ap L r1 r2 c R1 R2 C : exp_accurate L -> ap r1 R1 0 -> ap r2 R2 0 -> ap c C (8 / 10 ^ 16 * C) -> Rabs R1 <= 500 -> Rabs R2 <= 500 -> 1.41 <= C <= 250 ->
  ap (wpB L r1 r2 c) (wlp R1 R2 C) (8 / 10 ^ 13) /\ 0 < wlp R1 R2 C < 1.
Proof.
  intros HE A1 A2 AC B1 B2 BC.
  assert (IC : 0 < / C <= / 1.41) by (split; [apply Rinv_0_lt_compat; lra|apply Rinv_le_contravar; lra]).
  assert (Y : forall r R0, ap r R0 0 -> Rabs R0 <= 500 -> Rabs (R0 / C) <= 355 /\ ap (Bdiv mode_NE r c) (R0 / C) (34 / 10 ^ 14)).
  { intros r R0 A B. assert (BY : Rabs (R0 / C) <= 355). { unfold Rdiv. rewrite Rabs_mult, (Rabs_pos_eq (/ C)) by lra. apply Rle_trans with (500 * / 1.41); [apply Rmult_le_compat; try lra; apply Rabs_pos|lra]. }
    split; [exact BY|]. assert (Ev : (0 + 355 * (8 / 10 ^ 16 * C)) / (99 / 100 * C) = 355 * (8 / 10 ^ 16) * (100 / 99)) by (field; lra).
    pose proof (ap_div _ _ _ _ _ _ (99 / 100 * C) 355 356 A AC ltac:(lra) ltac:(rewrite Rabs_pos_eq; lra) BY ltac:(rewrite Ev; lra) ltac:(okb)) as D. rewrite Ev in D. apply (ap_weak _ _ _ _ D). ulra. }
  destruct (Y r1 R1 A1 B1) as [Y1 D1]. destruct (Y r2 R2 A2 B2) as [Y2 D2].
  destruct (exp_ap L _ _ _ HE D1 ltac:(lra) ltac:(lra)) as [E1 G1]. destruct (exp_ap L _ _ _ HE D2 ltac:(lra) ltac:(lra)) as [E2 G2].
  set (x1 := exp (R1 / C)) in *. set (x2 := exp (R2 / C)) in *. assert (P180 : 0 < / 10 ^ 180) by (apply Rinv_0_lt_compat, pow_lt; lra).
  apply (ap_weak _ _ _ (35 / 10 ^ 14 * x1)) in E1; [|apply Rmult_le_compat_r; lra]. apply (ap_weak _ _ _ (35 / 10 ^ 14 * x2)) in E2; [|apply Rmult_le_compat_r; lra].
  assert (U0 : 0 < u0 <= 12 / 10 ^ 17) by ulra. set (x := x1 + x2) in *. assert (ux : 0 <= u0 * x <= 12 / 10 ^ 17 * x) by (split; [apply Rmult_le_pos; unfold x; lra|apply Rmult_le_compat_r; unfold x; lra]).
  assert (Ok : / 10 ^ 200 <= 1.01 * x <= 10 ^ 200).
  { assert (10 ^ 180 * 10 <= 10 ^ 200) by (replace (10 ^ 200) with (10 ^ 180 * 10 ^ 20) by (rewrite <- pow_add; reflexivity); apply Rmult_le_compat_l; [apply pow_le|]; lra).
    assert (/ 10 ^ 200 <= / 10 ^ 180) by (apply Rinv_le_contravar; [apply pow_lt; lra|apply Rle_pow; [lra|lia]]). unfold x. lra. }
  pose proof (ap_add _ _ _ _ _ _ (1.01 * x) E1 E2 ltac:(fold x; rewrite Rabs_pos_eq; unfold x; lra) Ok) as S. fold x in S. apply (ap_weak _ _ _ (351 / 10 ^ 15 * x)) in S; [|unfold x in *; lra].
  assert (X0 : 0 < x) by (unfold x; lra). assert (BP : 0 < x1 / x < 1). { unfold Rdiv. split; [apply Rmult_lt_0_compat; [lra|apply Rinv_0_lt_compat; lra]|]. apply Rmult_lt_reg_r with x; auto. rewrite Rmult_assoc, Rinv_l by lra. unfold x; lra. }
  assert (EW : wlp R1 R2 C = x1 / x).
  { unfold wlp, x. replace ((R2 - R1) / C) with (R2 / C + - (R1 / C)) by (field; lra). rewrite exp_plus, exp_Ropp. fold x1. fold x2. field. unfold x in X0. lra. }
  rewrite EW. split; [|exact BP].
  pose proof (ap_div _ _ _ _ _ _ (99 / 100 * x) 1 1.01 E1 S ltac:(lra) ltac:(rewrite Rabs_pos_eq; lra) ltac:(rewrite Rabs_pos_eq; lra)) as D.
  assert (Ev : (35 / 10 ^ 14 * x1 + 1 * (351 / 10 ^ 15 * x)) / (99 / 100 * x) <= 71 / 10 ^ 14).
  { unfold Rdiv at 1. replace (/ (99 / 100 * x)) with (100 / 99 * / x) by (field; lra). replace ((35 / 10 ^ 14 * x1 + 1 * (351 / 10 ^ 15 * x)) * (100 / 99 * / x)) with (35 / 10 ^ 14 * (100 / 99) * (x1 / x) + 351 / 10 ^ 15 * (100 / 99)) by (field; lra). lra. }
  specialize (D ltac:(lra) ltac:(okb)). apply (ap_weak _ _ _ (8 / 10 ^ 13)) in D; [exact D|ulra].
Qed.
Lemma max_ap x y X Y d : ap x X d -> ap y Y 0 -> ap (b64_max x y) (Rmax X Y) d.
Proof.
  intros Ax Ay. pose proof (ap_nonneg _ _ _ Ax) as D0. destruct Ax as [Fx Ax], Ay as [Fy Ay]. apply Rabs_le_inv in Ax, Ay. destruct (max_range x y (fin_nn _ Fx) (fin_nn _ Fy)) as [N E].
  assert (B : Rabs (Rmax (ext x) (ext y) - Rmax X Y) <= d) by (unfold Rmax; destruct (Rle_dec (ext x) (ext y)), (Rle_dec X Y); apply Rabs_le; lra).
  split; [|rewrite E; exact B]. Transparent b64_max. unfold b64_max. rewrite (fin_nn _ Fx), (fin_nn _ Fy). destruct (Bleb x y); assumption.
Qed.
Opaque b64_max.
Lemma wl_half L r u c p s kap R0 S0 C P s0 KP : ap r R0 0 -> ap u S0 0 -> ap c C (8 / 10 ^ 16 * C) -> ap p P (9 / 10 ^ 13) -> ap s s0 0 -> ap kap KP 0 ->
  Rabs R0 <= 500 -> / 1000 <= S0 <= 100 -> 1.41 <= C <= 250 -> S0 <= C -> 0 <= P <= 1 -> 0 <= s0 <= 1 -> 0 <= KP <= 1 ->
  near (wl_new_rating (A := B64A L) r u c p s) (R0 + S0 ^ 2 / C * (s0 - P)) (/ 10 ^ 10) /\
  near (wl_new_uncertainty (A := B64A L) u c p kap) (S0 * sqrt (Rmax (1 - (S0 / C) ^ 3 * P * (1 - P)) KP)) (3 / 10 ^ 12 * S0).
Proof.
  intros Ar Au Ac Ap As Ak Br Bu Bc HSC BP Bs Bk. assert (U0 : 0 < u0 <= 12 / 10 ^ 17) by ulra. pose proof (Rabs_le_inv _ _ Br) as Br'.
  assert (Q1 : / 1000000 <= S0 * S0 <= 10000) by (split; [apply Rle_trans with (/ 1000 * / 1000); [lra|apply Rmult_le_compat; lra]|apply Rle_trans with (100 * 100); [apply Rmult_le_compat; lra|lra]]). set (V := S0 * S0) in *.
  assert (uV : 0 <= u0 * V <= 12 / 10 ^ 17 * V) by (split; [apply Rmult_le_pos; lra|apply Rmult_le_compat_r; lra]).
  pose proof (ap_mul _ _ _ _ _ _ S0 S0 (1.01 * V) Au Au ltac:(rewrite Rabs_pos_eq; lra) ltac:(rewrite Rabs_pos_eq; lra) ltac:(fold V; lra) ltac:(okb)) as A2. fold V in A2.
  apply (ap_weak _ _ _ (13 / 10 ^ 17 * V)) in A2; [|lra].
  assert (BR : 0 < S0 / C <= 1). { split; [apply Rdiv_lt_0_compat; lra|]. apply Rmult_le_reg_r with C; [lra|]. unfold Rdiv. rewrite Rmult_assoc, Rinv_l by lra. lra. }
  set (rho := S0 / C) in *. assert (BKK : 0 < S0 * rho <= 100). { split; [apply Rmult_lt_0_compat; lra|]. apply Rle_trans with (100 * 1); [apply Rmult_le_compat; lra|lra]. }
  assert (EK : V / C = S0 * rho) by (unfold V, rho, Rdiv; ring). assert (BRl : / 1000 * / 250 <= rho). { unfold rho, Rdiv. apply Rmult_le_compat; try lra. apply Rinv_le_contravar; lra. }
  assert (BKl : / 10 ^ 9 <= S0 * rho) by (apply Rle_trans with (/ 1000 * (/ 1000 * / 250)); [lra|apply Rmult_le_compat; lra]).
  set (K := S0 * rho) in *. assert (uK : 0 <= u0 * K <= 12 / 10 ^ 17 * K) by (split; [apply Rmult_le_pos; lra|apply Rmult_le_compat_r; lra]).
  assert (Ev : (13 / 10 ^ 17 * V + K * (8 / 10 ^ 16 * C)) / (99 / 100 * C) = (13 / 10 ^ 17 + 8 / 10 ^ 16) * (100 / 99) * K) by (rewrite <- EK; field; lra).
  pose proof (ap_div _ _ _ _ _ _ (99 / 100 * C) K (1.01 * K) A2 Ac ltac:(lra) ltac:(rewrite Rabs_pos_eq; lra) ltac:(rewrite EK, Rabs_pos_eq; lra) ltac:(rewrite Ev; lra) ltac:(okb)) as A3.
  rewrite Ev in A3. apply (ap_weak _ _ _ (11 / 10 ^ 14)) in A3; [|lra]. rewrite EK in A3.
  pose proof (pts_minus_ap _ _ _ _ _ As Bs Ap BP ltac:(lra)) as A4. apply (ap_weak _ _ _ (901 / 10 ^ 15)) in A4; [|lra]. split.
  - apply ap_near. assert (Bp : Rabs (K * (s0 - P)) <= 100). { rewrite Rabs_mult, (Rabs_pos_eq K) by lra. apply Rle_trans with (100 * 1); [|lra]. apply Rmult_le_compat; try lra; [apply Rabs_pos|apply Rabs_le; lra]. }
    assert (Bq : Rabs (K * (s0 - P) + R0) <= 600) by (eapply Rle_trans; [apply Rabs_triang|]; lra).
    step (ap_fma _ _ _ _ _ _ _ _ _ 100 1 601 A3 A4 Ar ltac:(rewrite Rabs_pos_eq; lra) ltac:(apply Rabs_le; lra) ltac:(lra) ltac:(okb)) (/ 10 ^ 10).
    apply (ap_eq _ _ (R0 + S0 ^ 2 / C * (s0 - P))) in S; [exact S|]. rewrite <- EK. unfold V, Rdiv. ring.
  - apply ap_near.
    assert (Ew : (0 + 1 * (8 / 10 ^ 16 * C)) / (99 / 100 * C) = 8 / 10 ^ 16 * (100 / 99)) by (field; lra).
    pose proof (ap_div _ _ _ _ _ _ (99 / 100 * C) 1 1.01 Au Ac ltac:(lra) ltac:(rewrite Rabs_pos_eq; lra) ltac:(fold rho; rewrite Rabs_pos_eq; lra) ltac:(rewrite Ew; lra) ltac:(okb)) as T1.
    rewrite Ew in T1. fold rho in T1. apply (ap_weak _ _ _ (/ 10 ^ 15)) in T1; [|lra].
    assert (B2 : 0 <= rho * rho <= 1) by (split; [apply Rmult_le_pos; lra|]; apply Rle_trans with (1 * 1); [apply Rmult_le_compat; lra|lra]).
    step (ap_mul _ _ _ _ _ _ 1 1 1.01 T1 T1 ltac:(bd) ltac:(bd) ltac:(lra) ltac:(okb)) (22 / 10 ^ 16).
    step (ap_mul _ _ _ _ _ _ 1 1 1.01 T1 S ltac:(bd) ltac:(bd) ltac:(lra) ltac:(okb)) (34 / 10 ^ 16).
    assert (B3 : 0 <= rho * (rho * rho) <= 1) by (split; [apply Rmult_le_pos; lra|]; apply Rle_trans with (1 * 1); [apply Rmult_le_compat; lra|lra]).
    step (ap_mul _ _ _ _ _ _ 1 1 1.01 S1 Ap ltac:(bd) ltac:(bd) ltac:(lra) ltac:(okb)) (91 / 10 ^ 14).
    assert (B4 : 0 <= rho * (rho * rho) * P <= P) by (split; [apply Rmult_le_pos; lra|]; rewrite <- (Rmult_1_l P) at 2; apply Rmult_le_compat_r; lra).
    pose proof (one_minus_ap _ _ _ Ap BP ltac:(lra)) as T2. apply (ap_weak _ _ _ (901 / 10 ^ 15)) in T2; [|lra].
    step (ap_mul _ _ _ _ _ _ 1 1 1.01 S2 T2 ltac:(bd) ltac:(bd) ltac:(lra) ltac:(okb)) (182 / 10 ^ 14).
    set (eta := rho * (rho * rho) * P * (1 - P)) in *. assert (Be : 0 <= eta <= / 4). { split; [apply Rmult_le_pos; lra|]. unfold eta. apply Rle_trans with (P * (1 - P)); [apply Rmult_le_compat_r; lra|]. pose proof (pow2_ge_0 (P - / 2)). lra. }
    pose proof (one_minus_ap _ _ _ S3 ltac:(lra) ltac:(lra)) as T3. apply (ap_weak _ _ _ (183 / 10 ^ 14)) in T3; [|lra].
    pose proof (max_ap _ _ _ _ _ T3 Ak) as T4. set (X := Rmax (1 - eta) KP) in *. assert (BX : 3 / 4 <= X <= 1) by (unfold X; split; [apply Rle_trans with (2 := Rmax_l _ _); lra|apply Rmax_lub; lra]).
    assert (BVX : 3 / 4 * V <= V * X <= V) by (split; [rewrite Rmult_comm; apply Rmult_le_compat_l; lra|rewrite <- (Rmult_1_r V) at 2; apply Rmult_le_compat_l; lra]).
    pose proof (ap_mul _ _ _ _ _ _ V 1 (1.01 * V) A2 T4 ltac:(rewrite Rabs_pos_eq; lra) ltac:(bd) ltac:(lra) ltac:(okb)) as T5.
    apply (ap_weak _ _ _ (184 / 10 ^ 14 * V)) in T5; [|lra].
    assert (SX : 0.86 <= sqrt X <= 1). { assert (XX : sqrt X * sqrt X = X) by (apply sqrt_sqrt; lra). pose proof (sqrt_pos X). split; apply Rsqr_incr_0_var; unfold Rsqr; lra. }
    assert (EV : sqrt (V * X) = S0 * sqrt X). { rewrite sqrt_mult by lra. unfold V. rewrite sqrt_square by lra. reflexivity. }
    assert (BS : 0.86 * S0 <= S0 * sqrt X <= S0) by (split; [rewrite Rmult_comm; apply Rmult_le_compat_l; lra|rewrite <- (Rmult_1_r S0) at 2; apply Rmult_le_compat_l; lra]).
    assert (uS : 0 <= u0 * S0 <= 12 / 10 ^ 17 * S0) by (split; [apply Rmult_le_pos; lra|apply Rmult_le_compat_r; lra]).
    assert (Ez : 184 / 10 ^ 14 * V / (86 / 100 * S0) = 184 / 10 ^ 14 * (100 / 86) * S0) by (unfold V; field; lra).
    pose proof (ap_sqrt _ _ _ (86 / 100 * S0) S0 (1.01 * S0) T5 ltac:(lra) ltac:(rewrite EV; lra) ltac:(rewrite EV; lra) ltac:(lra) ltac:(rewrite Ez; lra) ltac:(okb)) as T6. rewrite Ez, EV in T6.
    assert (EE : rho ^ 3 * P * (1 - P) = eta) by (unfold eta; ring). rewrite EE. fold X.
    apply (ap_weak _ _ _ (3 / 10 ^ 12 * S0)) in T6; [exact T6|lra].
Qed.

Lemma fold_c L b u1 u2 : wl_c_players (A := B64A L) b u1 u2 = wcB b u1 u2. Proof. reflexivity. Qed.
Lemma fold_p L r1 r2 c : wl_p_value (A := B64A L) r1 r2 c = (wpB L r1 r2 c, Bminus mode_NE one64 (wpB L r1 r2 c)). Proof. reflexivity. Qed.
Lemma C101_weng_lin_proof : forall (L : Libm) (p1 p2 : WengLinRating B64) (o : Outcomes) (cfg : WengLinConfig B64),
  exp_accurate L ->
  num_in (- 500) 500 (wl_rating p1) -> num_in (/ 1000) 100 (wl_uncertainty p1) -> num_in (- 500) 500 (wl_rating p2) -> num_in (/ 1000) 100 (wl_uncertainty p2) ->
  num_in 1 100 (wl_beta cfg) -> num_in 0 1 (wl_uncertainty_tolerance cfg) ->
  let m1 := B2R (wl_rating p1) in let s1 := B2R (wl_uncertainty p1) in let m2 := B2R (wl_rating p2) in let s2 := B2R (wl_uncertainty p2) in
  let kappa := B2R (wl_uncertainty_tolerance cfg) in
  let c := wlc (B2R (wl_beta cfg)) (s1 ^ 2) (s2 ^ 2) in let P1 := wlp m1 m2 c in let P2 := wlp m2 m1 c in
  let new := weng_lin (A := B64A L) p1 p2 o cfg in
  near (wl_rating (fst new)) (m1 + s1 ^ 2 / c * (points o - P1)) (/ 10 ^ 10) /\
  near (wl_uncertainty (fst new)) (s1 * sqrt (Rmax (1 - (s1 / c) ^ 3 * P1 * P2) kappa)) (3 / 10 ^ 12 * s1) /\
  near (wl_rating (snd new)) (m2 + s2 ^ 2 / c * (points (invert o) - P2)) (/ 10 ^ 10) /\
  near (wl_uncertainty (snd new)) (s2 * sqrt (Rmax (1 - (s2 / c) ^ 3 * P2 * P1) kappa)) (3 / 10 ^ 12 * s2).
Proof.
  intros L [r1 u1] [r2 u2] o [b kap] HE N1 M1 N2 M2 NB NK. cbn [wl_rating wl_uncertainty wl_beta wl_uncertainty_tolerance] in *. cbv zeta.
  destruct (num_ap _ _ _ N1) as [A1 B1]. destruct (num_ap _ _ _ N2) as [A2 B2]. destruct (num_ap _ _ _ M1) as [D1 E1]. destruct (num_ap _ _ _ M2) as [D2 E2]. destruct (num_ap _ _ _ NB) as [Ab Bb]. destruct (num_ap _ _ _ NK) as [Ak Bk].
  assert (K1 : Rabs (B2R r1) <= 500) by (apply Rabs_le; lra). assert (K2 : Rabs (B2R r2) <= 500) by (apply Rabs_le; lra).
  destruct (wc_ap b u1 u2 _ _ _ Ab D1 D2 Bb E1 E2) as [AC [BC [C1 C2]]]. set (C := wlc _ _ _) in *. set (c := wcB b u1 u2) in *.
  destruct (wp_ap L r1 r2 c _ _ C HE A1 A2 AC K1 K2 BC) as [AP BP].
  assert (EW : wlp (B2R r2) (B2R r1) C = 1 - wlp (B2R r1) (B2R r2) C).
  { unfold wlp. replace ((B2R r1 - B2R r2) / C) with (- ((B2R r2 - B2R r1) / C)) by (field; lra). rewrite exp_Ropp. set (x := exp _). assert (P : 0 < x) by apply exp_pos. field. lra. }
  pose proof (one_minus_ap _ _ _ AP ltac:(lra) ltac:(lra)) as AQ. rewrite EW. set (P := wlp (B2R r1) (B2R r2) C) in *.
  destruct (ext_points L o) as [Fp Ep]. destruct (ext_points2 L o) as [Fq Eq]. cbv zeta in Fq, Eq. pose proof (points_range o) as PR.
  assert (PI' : points (invert o) = 1 - points o) by (destruct o; simpl; lra). rewrite <- PI' in Eq.
  unfold weng_lin. cbn [wl_rating wl_uncertainty wl_beta wl_uncertainty_tolerance]. rewrite fold_c, fold_p. fold c. cbn [fst snd wl_rating wl_uncertainty]. set (p := wpB L r1 r2 c) in *.
  destruct (wl_half L r1 u1 c p _ kap _ _ C P _ _ A1 D1 AC ltac:(apply (ap_weak _ _ _ _ AP); lra) (ap_exact _ _ Fp Ep) Ak K1 E1 BC C1 ltac:(lra) PR Bk) as [X1 X2].
  destruct (wl_half L r2 u2 c _ _ kap _ _ C (1 - P) _ _ A2 D2 AC ltac:(apply (ap_weak _ _ _ _ AQ); lra) (ap_exact _ _ Fq Eq) Ak K2 E2 BC C2 ltac:(lra) ltac:(lra) Bk) as [Y1 Y2].
  replace (1 - (1 - P)) with P in Y2 by ring. split; [exact X1|]. split; [exact X2|]. split; [exact Y1|exact Y2].
Qed.

(** ** Ingo *)
Lemma ingo_half L r1 r2 s s0 (a : N) R1 R2 : ap r1 R1 0 -> ap r2 R2 0 -> ap s s0 0 -> 0 <= s0 <= 1 -> Rabs R1 <= 10 ^ 4 -> Rabs R2 <= 10 ^ 4 ->
  ap (Bdiv mode_NE (Bfma mode_NE (ingo_performance (A := B64A L) r2 s) (b64_of_Z 1) (Bmult mode_NE r1 (ingo_age_to_devcoefficent (A := B64A L) a)))
     (Bplus mode_NE (b64_of_Z 1) (ingo_age_to_devcoefficent (A := B64A L) a))) (ingo_upd 1 R1 (ingo_D a) R2 s0) (2 / 10 ^ 11).
Proof.
  intros A1 A2 As Bs B1 B2. apply Rabs_le_inv in B1, B2.
  assert (AD : ap (ingo_age_to_devcoefficent (A := B64A L) a) (ingo_D a) 0 /\ 10 <= ingo_D a <= 20).
  { unfold ingo_age_to_devcoefficent, ingo_D. destruct (a <=? 20)%N; [split; [apply (ap_Z 10); vm_compute; discriminate|lra]|].
    destruct (a <=? 25)%N; [split; [apply (ap_Z 15); vm_compute; discriminate|lra]|split; [apply (ap_Z 20); vm_compute; discriminate|lra]]. }
  destruct AD as [AD BD]. set (D := ingo_D a) in *. set (d := ingo_age_to_devcoefficent (A := B64A L) a) in *.
  step (ap_fma _ _ _ _ _ _ _ _ _ 100 1 51 (ap_Z 100 ltac:(vm_compute; discriminate)) As (ap_Z (-50) ltac:(vm_compute; discriminate)) ltac:(bd) ltac:(bd) ltac:(rewrite ?Rplus_0_r; apply Rle_trans with 50; [|lra]; ring_simplify (100 * s0 + -50 + (100 * 0 + 1 * 0 + 0 * 0 + 0)); pose proof (Rabs_le (100 * s0 + -50) 50 ltac:(lra)); lra) ltac:(okb)) (7 / 10 ^ 15).
  step (ap_sub _ _ _ _ _ _ 10051 A2 S ltac:(pose proof (Rabs_le (R2 - (100 * s0 + -50)) 10050 ltac:(lra)); lra) ltac:(okb)) (13 / 10 ^ 13).
  assert (Bm : Rabs (R1 * D) <= 200000). { rewrite Rabs_mult, (Rabs_pos_eq D) by lra. apply Rle_trans with (10 ^ 4 * 20); [apply Rmult_le_compat; try lra; [apply Rabs_pos|apply Rabs_le; lra]|lra]. }
  step (ap_mul _ _ _ _ _ _ (10 ^ 4) 20 200001 A1 AD ltac:(apply Rabs_le; lra) ltac:(bd) ltac:(lra) ltac:(okb)) (25 / 10 ^ 12).
  assert (Bt : Rabs ((R2 - (100 * s0 + -50)) * 1 + R1 * D) <= 210051). { apply Rabs_le_inv in Bm. apply Rabs_le. lra. }
  step (ap_fma _ _ _ _ _ _ _ _ _ 10051 1 220000 S0 (ap_Z 1 ltac:(vm_compute; discriminate)) S1 ltac:(apply Rabs_le; lra) ltac:(bd) ltac:(lra) ltac:(okb)) (53 / 10 ^ 12).
  step (ap_add _ _ _ _ _ _ 22 (ap_Z 1 ltac:(vm_compute; discriminate)) AD ltac:(rewrite Rabs_pos_eq; lra) ltac:(okb)) (3 / 10 ^ 15).
  assert (ID : 0 < / (1 + D) <= / 11) by (split; [apply Rinv_0_lt_compat; lra|apply Rinv_le_contravar; lra]).
  assert (BQ : Rabs (((R2 - (100 * s0 + -50)) * 1 + R1 * D) / (1 + D)) <= 20000). { unfold Rdiv. rewrite Rabs_mult, (Rabs_pos_eq (/ (1 + D))) by lra. apply Rle_trans with (210051 * / 11); [apply Rmult_le_compat; try lra; apply Rabs_pos|lra]. }
  step (ap_div _ _ _ _ _ _ 10.9 20000 20001 S2 S3 ltac:(lra) ltac:(rewrite Rabs_pos_eq; lra) BQ ltac:(lra) ltac:(okb)) (2 / 10 ^ 11).
  apply (ap_eq _ _ _ _ S4). unfold ingo_upd, ingo_perf, Rdiv. fold D. f_equal. ring.
Qed.
Lemma C101_ingo_proof : forall (L : Libm) (p1 p2 : IngoRating B64) (o : Outcomes),
  num_in (- 10 ^ 4) (10 ^ 4) (ingo_rating p1) -> num_in (- 10 ^ 4) (10 ^ 4) (ingo_rating p2) ->
  let r1 := B2R (ingo_rating p1) in let r2 := B2R (ingo_rating p2) in
  let e := ingo_expected_score (A := B64A L) p1 p2 in let new := ingo (A := B64A L) p1 p2 o in
  near (fst e) (1 / 2 + (r2 - r1) / 100) (/ 10 ^ 12) /\ near (snd e) (1 / 2 + (r1 - r2) / 100) (/ 10 ^ 12) /\
  near (ingo_rating (fst new)) (ingo_upd 1 r1 (ingo_D (ingo_age p1)) r2 (points o)) (2 / 10 ^ 11) /\
  near (ingo_rating (snd new)) (ingo_upd 1 r2 (ingo_D (ingo_age p2)) r1 (points (invert o))) (2 / 10 ^ 11).
Proof.
  intros L [r1 a1] [r2 a2] o N1 N2. cbn [ingo_rating ingo_age] in *. cbv zeta. destruct (num_ap _ _ _ N1) as [A1 B1]. destruct (num_ap _ _ _ N2) as [A2 B2].
  destruct (ext_points L o) as [Fp Ep]. destruct (ext_points2 L o) as [Fq Eq]. cbv zeta in Fq, Eq. pose proof (points_range o) as PR.
  assert (PI' : points (invert o) = 1 - points o) by (destruct o; simpl; lra). rewrite <- PI' in Eq.
  assert (K1 : Rabs (B2R r1) <= 10 ^ 4) by (apply Rabs_le; lra). assert (K2 : Rabs (B2R r2) <= 10 ^ 4) by (apply Rabs_le; lra).
  assert (H : ap (Bplus mode_NE (b64_lit 5 10) (Bdiv mode_NE (Bminus mode_NE r2 r1) (b64_of_Z 100))) (1 / 2 + (B2R r2 - B2R r1) / 100) (/ 10 ^ 13)).
  { step (ap_sub _ _ _ _ _ _ 20000 A2 A1 ltac:(rewrite !Rplus_0_r; apply Rabs_le; lra) ltac:(okb)) (24 / 10 ^ 13).
    step (ap_div _ _ _ _ _ _ 100 200 201 S (ap_Z 100 ltac:(vm_compute; discriminate)) ltac:(lra) ltac:(rewrite Rabs_pos_eq; lra) ltac:(apply Rabs_le; lra) ltac:(lra) ltac:(okb)) (5 / 10 ^ 14).
    assert (AH : ap (b64_lit 5 10) (1 / 2) 0). { destruct (ext_points L DRAW) as [Fd Ed]. exact (ap_exact _ _ Fd Ed). }
    step (ap_add _ _ _ _ _ _ 202 AH S0 ltac:(pose proof (Rabs_le (1 / 2 + (B2R r2 - B2R r1) / 100) 201 ltac:(lra)); lra) ltac:(okb)) (/ 10 ^ 13). exact S1. }
  assert (H2 : ap (Bminus mode_NE (b64_of_Z 1) (Bplus mode_NE (b64_lit 5 10) (Bdiv mode_NE (Bminus mode_NE r2 r1) (b64_of_Z 100)))) (1 / 2 + (B2R r1 - B2R r2) / 100) (/ 10 ^ 12)).
  { step (ap_sub _ _ _ _ _ _ 202 (ap_Z 1 ltac:(vm_compute; discriminate)) H ltac:(pose proof (Rabs_le (1 - (1 / 2 + (B2R r2 - B2R r1) / 100)) 201 ltac:(lra)); lra) ltac:(okb)) (/ 10 ^ 12). apply (ap_eq _ _ _ _ S). lra. }
  split; [apply ap_near, (ap_weak _ _ _ _ H); lra|]. split; [apply ap_near, H2|].
  split; apply ap_near; [apply (ingo_half L r1 r2 _ _ a1 _ _ A1 A2 (ap_exact _ _ Fp Ep) PR K1 K2)|apply (ingo_half L r2 r1 _ _ a2 _ _ A2 A1 (ap_exact _ _ Fq Eq) ltac:(lra) K2 K1)].
Qed.
