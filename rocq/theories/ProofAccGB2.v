(** Accuracy of the Glicko-Boost formulas in double precision: the growth of the
    deviation at the end of a period, games, periods and expected scores (C120). *)
From Coq Require Import ZArith NArith List Bool Reals Lra Lia Psatz.
From Flocq Require Import Core.Core IEEE754.BinarySingleNaN.
From Verif Require Import Arith XR B64 ModelLib ModelGlicko ModelBoost Spec SpecB64 SpecAcc SpecAcc7 Tac MathB64 ProofB64 ProofB64b ProofB64c MathB64b ProofB64d ProofB64e MathAcc ProofAcc ProofAcc2 ProofAccDwz ProofAccUscf ProofAccSticko MathRel ProofAccGB ProofBoost2.
Import Spec ListNotations.
Local Open Scope R_scope.
#[local] Opaque Bplus Bminus Bmult Bdiv Bsqrt Bfma Bopp b64 b64_of_Z b64_min l_exp l_pow.

Lemma exp_rl L y Y d : exp_accurate L -> ap y Y d -> Rabs Y <= 61 -> d <= 9 / 10 ^ 5 -> rl (l_exp L y) (exp Y) (1.01 * d + 1.1 / 10 ^ 15) /\ exp Y <= 10 ^ 27.
Proof.
  intros HE A0 BY Hd. pose proof (ap_nonneg _ _ _ A0) as D0. destruct A0 as [F A]. pose proof (Rabs_le_inv _ _ A) as A'. pose proof (Rabs_le_inv _ _ BY) as BY'. destruct (HE y F) as [Fe Ae]; [rewrite <- (ext_fin y F); apply Rabs_le; lra|].
  rewrite <- (ext_fin y F), <- (ext_fin _ Fe) in Ae. pose proof (exp_close (ext y - Y) d A ltac:(lra)) as EC. pose proof (exp_pos Y) as PY.
  assert (E1 : exp (ext y) = exp Y * exp (ext y - Y)) by (rewrite <- exp_plus; f_equal; ring).
  assert (E2 : Rabs (exp (ext y) - exp Y) <= 1.01 * d * exp Y). { rewrite E1. replace (exp Y * exp (ext y - Y) - exp Y) with ((exp (ext y - Y) - 1) * exp Y) by ring. rewrite Rabs_mult, (Rabs_pos_eq (exp Y)) by lra. apply Rmult_le_compat_r; lra. }
  split.
  - split; [exact PY|]. split; [lra|]. split; [exact Fe|]. pose proof i50 as I. assert (Ae' : Rabs (ext (l_exp L y) - exp (ext y)) <= / 10 ^ 15 * exp (ext y)) by (eapply Rle_trans; [exact Ae|]; apply Rmult_le_compat_r; [left; apply exp_pos|lra]).
    assert (dY : 0 <= d * exp Y <= 9 / 10 ^ 5 * exp Y) by (split; [apply Rmult_le_pos; lra|apply Rmult_le_compat_r; lra]).
    apply Rabs_le_inv in Ae', E2. apply Rabs_le. lra.
  - pose proof ln10_close as LN. rewrite <- (exp_ln (10 ^ 27)) by (apply pow_lt; lra). apply exp_le. rewrite <- Rpower_pow by lra. rewrite ln_Rpower. rewrite INR_IZR_INZ. change (Z.of_nat 27) with 27%Z. lra.
Qed.
Definition polyR (c : boost_cfg) (t D : R) : R := bc_a4 c * (t * t) + (bc_a3 c * t + (bc_a2 c * D * t + (bc_a1 c * D + bc_a0 c))).
Definition polyB (c : GlickoBoostConfig B64) (t d : B64) : B64 :=
  Bfma mode_NE (gb_alpha4 c) (Bmult mode_NE t t) (Bfma mode_NE (gb_alpha3 c) t (Bfma mode_NE (Bmult mode_NE (gb_alpha2 c) d) t (Bfma mode_NE (gb_alpha1 c) d (gb_alpha0 c)))).
Lemma prodB x y a b : Rabs x <= a -> Rabs y <= b -> Rabs (x * y) <= a * b.
Proof. intros. rewrite Rabs_mult. apply Rmult_le_compat; try apply Rabs_pos; assumption. Qed.
Lemma poly_ap cfg t T d D dt dd : gb_usual cfg -> ap t T dt -> Rabs T <= 80 -> dt <= / 1000 -> ap d D dd -> 0 <= D <= 350 -> dd <= / 1000 ->
  ap (polyB cfg t d) (polyR (gb_real cfg) T D) (0.3 * dt + 0.019 * dd + 5 / 10 ^ 14) /\ Rabs (polyR (gb_real cfg) T D) <= 61.
Proof.
  intros (_ & _ & _ & _ & N0 & N1 & N2 & N3 & N4) At BT Dt Ad BD Dd. pose proof ulim as U0. unfold polyR, polyB, gb_real. cbn [bc_a0 bc_a1 bc_a2 bc_a3 bc_a4].
  destruct (num_ap _ _ _ N0) as [A0 B0]. destruct (num_ap _ _ _ N1) as [A1 B1]. destruct (num_ap _ _ _ N2) as [A2 B2]. destruct (num_ap _ _ _ N3) as [A3 B3]. destruct (num_ap _ _ _ N4) as [A4 B4].
  set (a0 := B2R (gb_alpha0 cfg)) in *. set (a1 := B2R (gb_alpha1 cfg)) in *. set (a2 := B2R (gb_alpha2 cfg)) in *. set (a3 := B2R (gb_alpha3 cfg)) in *. set (a4 := B2R (gb_alpha4 cfg)) in *.
  pose proof (ap_nonneg _ _ _ At) as T0. pose proof (ap_nonneg _ _ _ Ad) as D0.
  assert (C0 : Rabs a0 <= 40) by (apply Rabs_le; lra). assert (C1 : Rabs a1 <= / 100) by (apply Rabs_le; lra). assert (C2 : Rabs a2 <= / 10 ^ 4) by (apply Rabs_le; lra).
  assert (C3 : Rabs a3 <= / 10) by (apply Rabs_le; lra). assert (C4 : Rabs a4 <= / 1000) by (apply Rabs_le; lra). assert (CD : Rabs D <= 350) by (apply Rabs_le; lra).
  pose proof (prodB _ _ _ _ C1 CD) as M1. assert (X1 : Rabs (a1 * D + a0) <= 43.5) by (eapply Rle_trans; [apply Rabs_triang|]; lra).
  step (ap_fma _ _ _ _ _ _ _ _ _ (/ 100) 350 44 A1 Ad A0 C1 CD ltac:(lra) ltac:(okb)) (dd * / 100 + 53 / 10 ^ 16).
  pose proof (prodB _ _ _ _ C2 CD) as M2. step (ap_mul _ _ _ _ _ _ (/ 10 ^ 4) 350 1 A2 Ad C2 CD ltac:(lra) ltac:(okb)) (dd * / 10 ^ 4 + 13 / 10 ^ 17).
  pose proof (prodB _ _ _ _ M2 BT) as M3. assert (X2 : Rabs (a2 * D * T + (a1 * D + a0)) <= 46.3) by (eapply Rle_trans; [apply Rabs_triang|]; lra).
  assert (Z1 : 0 <= (dd * / 10 ^ 4 + 13 / 10 ^ 17) * dt <= (dd * / 10 ^ 4 + 13 / 10 ^ 17) * / 1000) by (split; [apply Rmult_le_pos; lra|apply Rmult_le_compat_l; lra]).
  step (ap_fma _ _ _ _ _ _ _ _ _ (/ 10 ^ 4 * 350) 80 47 S0 At S M2 BT ltac:(lra) ltac:(okb)) (dd * 0.0185 + 0.035 * dt + 3 / 10 ^ 14).
  pose proof (prodB _ _ _ _ C3 BT) as M4. assert (X3 : Rabs (a3 * T + (a2 * D * T + (a1 * D + a0))) <= 54.3) by (eapply Rle_trans; [apply Rabs_triang|]; lra).
  step (ap_fma _ _ _ _ _ _ _ _ _ (/ 10) 80 55 A3 At S1 C3 BT ltac:(lra) ltac:(okb)) (dd * 0.0185 + 0.135 * dt + 37 / 10 ^ 15).
  assert (Z2 : 0 <= dt * dt <= dt * / 1000) by (split; [apply Rmult_le_pos; lra|apply Rmult_le_compat_l; lra]).
  pose proof (prodB _ _ _ _ BT BT) as M5. step (ap_mul _ _ _ _ _ _ 80 80 6500 At At BT BT ltac:(lra) ltac:(okb)) (160.01 * dt + 79 / 10 ^ 14).
  pose proof (prodB _ _ _ _ C4 M5) as M6. assert (X4 : Rabs (a4 * (T * T) + (a3 * T + (a2 * D * T + (a1 * D + a0)))) <= 60.7) by (eapply Rle_trans; [apply Rabs_triang|]; lra).
  step (ap_fma _ _ _ _ _ _ _ _ _ (/ 1000) 6400 61 A4 S3 S2 C4 ltac:(lra) ltac:(lra) ltac:(okb)) (0.3 * dt + 0.019 * dd + 5 / 10 ^ 14).
  split; [exact S4|lra].
Qed.
Lemma end_ap L cfg r R0 dr d D a : gb_usual cfg -> exp_accurate L -> ap r R0 dr -> Rabs R0 <= 80000 -> dr <= / 20 -> rl d D a -> 0.9 <= D <= 350 -> a <= 2 / 10 ^ 7 ->
  rl (gb_end_deviation (A := B64A L) r d cfg) (boost_end (gb_real cfg) R0 D) (32 / 10 ^ 5 * dr + 9 * a + 7 / 10 ^ 14) /\ boost_end (gb_real cfg) R0 D <= 350.
Proof.
  intros HC HE Ar BR Dr Rd BD Ha. pose proof ulim as U0. pose proof v_lim as V0. pose proof (ap_nonneg _ _ _ Ar) as R0'. pose proof Rd as [_ [Ba _]].
  assert (Bt : Rabs (R0 / 1000) <= 80). { unfold Rdiv. rewrite Rabs_mult, (Rabs_pos_eq (/ 1000)) by lra. lra. }
  step (ap_div _ _ _ _ _ _ 1000 80 81 Ar (ap_Z 1000 ltac:(vm_compute; discriminate)) ltac:(lra) ltac:(rewrite Rabs_pos_eq; lra) Bt ltac:(lra) ltac:(okb)) (dr / 1000 + / 10 ^ 14).
  assert (aD : 0 <= a * D <= a * 350) by (split; [apply Rmult_le_pos; lra|apply Rmult_le_compat_l; lra]).
  pose proof (rl_ap _ _ _ (a * 350) Rd ltac:(lra)) as Ad.
  destruct (poly_ap cfg _ _ d D _ _ HC S Bt ltac:(lra) Ad ltac:(lra) ltac:(lra)) as [Ap Bp].
  destruct (exp_rl L _ _ _ HE Ap Bp ltac:(lra)) as [Re Be].
  set (Y := polyR (gb_real cfg) (R0 / 1000) D) in *. set (y := polyB cfg (Bdiv mode_NE r (b64_of_Z 1000)) d) in *.
  set (c := 32 / 10 ^ 5 * dr + 9 * a + 68 / 10 ^ 15). assert (aa : 0 <= a * a <= a * (2 / 10 ^ 7)) by (split; [apply Rmult_le_pos; lra|apply Rmult_le_compat_l; lra]).
  apply (rl_weak _ _ _ c) in Re; [|unfold c; lra|unfold c; lra].
  assert (DD : 0.81 <= D * D <= 122500) by (split; [apply Rle_trans with (0.9 * 0.9); [lra|apply Rmult_le_compat; lra]|apply Rle_trans with (350 * 350); [apply Rmult_le_compat; lra|lra]]).
  pose proof (exp_pos Y) as PY. pose proof (rl_fma _ _ _ _ _ _ _ _ _ (c + v0) Rd Rd Re ltac:(lra) ltac:(unfold c; lra) ltac:(lra) ltac:(unfold c; lra)) as R1.
  assert (BS : 0.9 <= sqrt (D * D + exp Y) <= 10 ^ 15).
  { split; [rewrite <- (sqrt_square 0.9) by lra; apply sqrt_le_1; lra|rewrite <- (sqrt_square (10 ^ 15)) by lra; apply sqrt_le_1; lra]. }
  pose proof (rl_sqrt _ _ _ (32 / 10 ^ 5 * dr + 9 * a + 7 / 10 ^ 14) R1 ltac:(lra) ltac:(unfold c; lra) ltac:(lra)) as R2. apply rl_min in R2.
  assert (EQ : boost_end (gb_real cfg) R0 D = Rmin (sqrt (D * D + exp Y)) 350). { unfold boost_end, Y, polyR. do 2 f_equal. replace (D ^ 2) with (D * D) by ring. do 2 f_equal. ring. }
  rewrite EQ. split; [|apply Rmin_r]. exact R2.
Qed.

(** ** The update from the information and the score of [n] games *)
Lemma z_ap m M t T n : ap m M (n * (61 / 10 ^ 14)) -> Rabs M <= n -> rl t T (30 / 10 ^ 13) -> n / 22850 <= T <= n / 4 -> 1 <= n <= 100 ->
  ap (Bdiv mode_NE m (Bsqrt mode_NE t)) (M / sqrt T) (n * (6 / 10 ^ 10)) /\ Rabs (M / sqrt T) <= 152 * n.
Proof.
  intros Am BM Rt BT Bn. pose proof ulim as U0. pose proof v_lim as V0.
  assert (BS : / 151.2 <= sqrt T <= 5). { split; [rewrite <- (sqrt_square (/ 151.2)) by lra; apply sqrt_le_1; lra|rewrite <- (sqrt_square 5) by lra; apply sqrt_le_1; lra]. }
  pose proof (rl_sqrt _ _ _ (31 / 10 ^ 13) Rt ltac:(lra) ltac:(lra) ltac:(lra)) as Rs. set (s := sqrt T) in *.
  assert (IS : 0 < / s <= 151.2). { split; [apply Rinv_0_lt_compat; lra|]. rewrite <- (Rinv_inv 151.2). apply Rinv_le_contravar; lra. }
  assert (BZ : Rabs (M / s) <= 151.2 * n). { unfold Rdiv. rewrite Rabs_mult, (Rabs_pos_eq (/ s)) by lra. rewrite Rmult_comm. apply Rmult_le_compat; try lra. apply Rabs_pos. }
  split; [|lra]. destruct Rs as [_ [_ As]].
  assert (ED : (n * (61 / 10 ^ 14) + 151.2 * n * (31 / 10 ^ 13 * s)) / (0.999 * s) = n * (61 / 10 ^ 14) * (/ s * (/ 0.999)) + 151.2 * n * (31 / 10 ^ 13) * / 0.999) by (field; lra).
  assert (ni : 0 <= n * / s <= n * 151.2) by (split; [apply Rmult_le_pos; lra|apply Rmult_le_compat_l; lra]).
  assert (un : 0 <= u0 * n <= 12 / 10 ^ 17 * n) by (split; [apply Rmult_le_pos; lra|apply Rmult_le_compat_r; lra]).
  pose proof (ap_div _ _ _ _ _ _ (0.999 * s) (151.2 * n) (152 * n) Am As ltac:(lra) ltac:(rewrite Rabs_pos_eq; lra) BZ ltac:(rewrite ED; lra) ltac:(okb)) as A. rewrite ED in A.
  apply (ap_weak _ _ _ _ A). lra.
Qed.
Lemma v_ap x V : rl x V (30 / 10 ^ 13) -> / 10 ^ 9 <= V <= / 1000 -> rl (Bdiv mode_NE one64 (Bdiv mode_NE one64 x)) V (31 / 10 ^ 13).
Proof.
  intros Rx BV. pose proof v_lim as V0. assert (E1 : 1 / V = / V) by (unfold Rdiv; ring). assert (IV : 1000 <= / V <= 10 ^ 9). { split; [rewrite <- (Rinv_inv 1000)|rewrite <- (Rinv_inv (10 ^ 9))]; apply Rinv_le_contravar; lra. }
  pose proof (rl_div _ _ _ _ _ _ (302 / 10 ^ 14) rl_one Rx ltac:(rewrite E1; lra) ltac:(lra) ltac:(lra)) as R1. rewrite E1 in R1.
  assert (E2 : 1 / / V = V) by (field; lra). pose proof (rl_div _ _ _ _ _ _ (31 / 10 ^ 13) rl_one R1 ltac:(rewrite E2; lra) ltac:(lra) ltac:(lra)) as R2. rewrite E2 in R2. exact R2.
Qed.
Lemma q_rl L : ln10_accurate L -> rl (qB L) gq (2 / 10 ^ 15).
Proof. intro HL. pose proof gq_rng. apply (rl_of _ _ (8 / 10 ^ 18) 0.00575); [exact (q_ap L HL)|lra|lra|lra]. Qed.
Lemma K_rl L nd N a : ln10_accurate L -> rl nd N a -> 0.9 <= N <= 350 -> a <= 2 / 10 ^ 7 ->
  rl (Bmult mode_NE (Bmult mode_NE nd nd) (qB L)) (N * N * gq) (2.01 * a + 4 / 10 ^ 15) /\ 0 <= N * N * gq <= 705.6.
Proof.
  intros HL Rn BN Ha. pose proof v_lim as V0. pose proof Rn as [_ [Ba _]]. pose proof gq_rng as GQ.
  assert (aa : 0 <= a * a <= a * (2 / 10 ^ 7)) by (split; [apply Rmult_le_pos; lra|apply Rmult_le_compat_l; lra]).
  assert (NN : 0.81 <= N * N <= 122500) by (split; [apply Rle_trans with (0.9 * 0.9); [lra|apply Rmult_le_compat; lra]|apply Rle_trans with (350 * 350); [apply Rmult_le_compat; lra|lra]]).
  assert (NQ : 0.004 <= N * N * gq <= 705.6) by (split; [apply Rle_trans with (0.81 * 0.00575); [lra|apply Rmult_le_compat; lra]|apply Rle_trans with (122500 * 0.00576); [apply Rmult_le_compat; lra|lra]]).
  pose proof (rl_mul _ _ _ _ _ _ (2.001 * a + v0) Rn Rn ltac:(lra) ltac:(lra) ltac:(lra)) as R1.
  assert (aq : 0 <= (2.001 * a + v0) * (2 / 10 ^ 15) <= / 10 ^ 17) by (split; [apply Rmult_le_pos; lra|lra]).
  pose proof (rl_mul _ _ _ _ _ _ (2.01 * a + 4 / 10 ^ 15) R1 (q_rl L HL) ltac:(lra) ltac:(lra) ltac:(lra)) as R2. split; [exact R2|lra].
Qed.
Lemma eb_of c r RD games : boost_rd c r RD games = bdevR (bc_k c) (bc_b0 c) (bc_b1 c) RD (gd2inv r games) (boost_Z r games). Proof. reflexivity. Qed.
Lemma gb_end_near L cfg nr r' nd N n : gb_usual cfg -> exp_accurate L -> ap nr r' (2 * n * n / 10 ^ 6) -> Rabs r' <= 80000 -> rl nd N (n * (129 / 10 ^ 11)) -> 0.9 <= N <= 350 -> 1 <= n <= 100 ->
  near (gb_end_deviation (A := B64A L) nr nd cfg) (boost_end (gb_real cfg) r' N) (5 * n * n / 10 ^ 6).
Proof.
  intros HC HE A B Rn BN Bn. assert (n1 : n * 1 <= n * n <= n * 100) by (split; apply Rmult_le_compat_l; lra).
  destruct (end_ap L cfg nr r' _ nd N _ HC HE A B ltac:(lra) Rn BN ltac:(lra)) as [R1 B1]. apply ap_near. apply (rl_ap _ _ _ _ R1).
  destruct R1 as [P [Ba _]]. apply Rle_trans with ((32 / 10 ^ 5 * (2 * n * n / 10 ^ 6) + 9 * (n * (129 / 10 ^ 11)) + 7 / 10 ^ 14) * 350); [apply Rmult_le_compat_l; lra|lra].
Qed.
Lemma gb_half L r1 d1 r2 d2 o s (w : bool) cfg : pow10_accurate L -> ln10_accurate L -> exp_accurate L -> gb_usual cfg ->
  num_in (- (9000)) 9000 r1 -> num_in 1 350 d1 -> num_in (- (9000)) 9000 r2 -> num_in 1 350 d2 -> ap o s 0 -> 0 <= s <= 1 ->
  Rabs (B2R r1 - gb_opp cfg w r2) <= 1500 ->
  let q := qB L in let g := gB q d2 in let e := ebB L w (gb_eta cfg) d2 r1 r2 in
  let z := Bdiv mode_NE (Bmult mode_NE g (Bminus mode_NE o e)) (Bsqrt mode_NE (Bmult mode_NE (Bmult mode_NE (Bmult mode_NE g g) e) (Bminus mode_NE one64 e))) in
  let nd := gb_new_deviation (A := B64A L) d1 (Bdiv mode_NE one64 (xB q g e)) z cfg in
  let nr := Bfma mode_NE (Bmult mode_NE (Bmult mode_NE (Bmult mode_NE nd nd) q) g) (Bminus mode_NE o e) r1 in
  let games := [(gb_opp cfg w r2, B2R d2, s)] in let c := gb_real cfg in
  gb_clear cfg (B2R r1) games ->
  near nr (boost_r c (B2R r1) (B2R d1) games) (2 / 10 ^ 6) /\
  near (gb_end_deviation (A := B64A L) nr nd cfg) (boost_end c (boost_r c (B2R r1) (B2R d1) games) (boost_rd c (B2R r1) (B2R d1) games)) (5 / 10 ^ 6).
Proof.
  intros HP HL HE HC N1 M1 N2 M2 Ao Bs BW q g e z nd nr games c Hcl. pose proof ulim as U0. pose proof HC as [Ne _].
  destruct (num_abs _ _ N1) as [A1 B1]. destruct (num_abs _ _ N2) as [A2 B2]. destruct (num_abs _ _ Ne) as [AE BE]. destruct (num_ap _ _ _ M1) as [D1 E1]. destruct (num_ap _ _ _ M2) as [D2 E2].
  change (gb_opp cfg w r2) with (B2R r2 - adv w (B2R (gb_eta cfg))) in *. set (R1 := B2R r1) in *. set (R2 := B2R r2) in *. set (RD1 := B2R d1) in *. set (RD2 := B2R d2) in *. set (Et := B2R (gb_eta cfg)) in *.
  destruct (tm_ap L d2 RD2 r1 R1 r2 R2 _ Et w o s HP HL D2 ltac:(lra) A1 A2 AE B1 B2 BE BW Ao Bs) as (Rt & Rx & Am & Ag & As & BT & BS & BG). fold q in Rt, Rx, Am, Ag. fold g in Rt, Rx, Am, Ag. fold e in Rt, Rx, Am, As.
  set (E := gE R1 (R2 - adv w Et) RD2) in *. set (G := gg RD2) in *. pose proof gq_rng as GQ. assert (GQ2 : 0.000033 <= gq * gq <= 0.0000332) by nra.
  assert (BM : Rabs (G * (s - E)) <= 1). { rewrite Rabs_mult, (Rabs_pos_eq G) by lra. apply Rle_trans with (1 * 1); [apply Rmult_le_compat; try lra; apply Rabs_pos|lra]. }
  destruct (z_ap _ _ _ _ 1 ltac:(apply (ap_weak _ _ _ _ Am); lra) BM ltac:(apply (rl_weak _ _ _ _ Rt); lra) ltac:(lra) ltac:(lra)) as [Az BZ]. fold z in Az.
  set (V := gq * gq * (G * G) * E * (1 - E)) in *. set (T := G * G * E * (1 - E)) in *. assert (EV : V = gq * gq * T) by (unfold V, T; ring).
  assert (BV : / 10 ^ 9 <= V <= / 1000). { rewrite EV. split; [apply Rle_trans with (0.000033 * / 22850); [lra|apply Rmult_le_compat; lra]|apply Rle_trans with (0.0000332 * / 4); [apply Rmult_le_compat; lra|lra]]. }
  pose proof (v_ap _ _ ltac:(apply (rl_weak _ _ _ (30 / 10 ^ 13) Rx); lra) BV) as Rv.
  assert (GV : gd2inv R1 games = V). { unfold gd2inv, games, V. cbn [map Rsum fold_right]. fold E. fold G. ring. }
  assert (GM : gM R1 games = G * (s - E)). { unfold gM, games. cbn [map Rsum fold_right]. fold E. fold G. ring. }
  assert (GZ : boost_Z R1 games = G * (s - E) / sqrt T). { unfold boost_Z. rewrite GV, GM, EV. do 2 f_equal. field. lra. }
  unfold gb_clear in Hcl. rewrite GZ in Hcl. change (INR (length games)) with 1 in Hcl.
  destruct (nd_ap L d1 RD1 _ V z _ 1 cfg HC D1 ltac:(lra) Rv BV Az BZ ltac:(lra) Hcl) as [Rn BN]. specialize (Rn _ eq_refl). fold nd in Rn. rewrite <- GZ, <- GV in Rn, BN.
  change (bdevR (B2R (gb_k cfg)) (B2R (gb_b0 cfg)) (B2R (gb_b1 cfg)) RD1 (gd2inv R1 games) (boost_Z R1 games)) with (boost_rd c R1 RD1 games) in Rn, BN. set (N := boost_rd c R1 RD1 games) in *.
  destruct (K_rl L nd N _ HL Rn BN ltac:(lra)) as [RK BK]. fold q in RK.
  assert (AK : ap (Bmult mode_NE (Bmult mode_NE nd nd) q) (N * N * gq) (1831 / 10 ^ 9)). { apply (rl_ap _ _ _ _ RK). apply Rle_trans with ((2.01 * (1 * (129 / 10 ^ 11)) + 4 / 10 ^ 15) * 705.6); [apply Rmult_le_compat_l; lra|lra]. }
  step (ap_mul _ _ _ _ _ _ 705.6 1 706 AK Ag ltac:(bd) ltac:(bd) ltac:(lra) ltac:(okb)) (1832 / 10 ^ 9).
  assert (BKG : 0 <= N * N * gq * G <= 705.6) by (split; [apply Rmult_le_pos; lra|]; apply Rle_trans with (705.6 * 1); [apply Rmult_le_compat; lra|lra]).
  assert (BPR : Rabs (N * N * gq * G * (s - E)) <= 705.6). { rewrite Rabs_mult, (Rabs_pos_eq (N * N * gq * G)) by lra. apply Rle_trans with (705.6 * 1); [apply Rmult_le_compat; try lra; apply Rabs_pos|lra]. }
  assert (BT2 : Rabs (N * N * gq * G * (s - E) + R1) <= 9706) by (eapply Rle_trans; [apply Rabs_triang|]; lra).
  step (ap_fma _ _ _ _ _ _ _ _ _ 705.6 1 9707 S As A1 ltac:(bd) BS ltac:(lra) ltac:(okb)) (2 / 10 ^ 6). fold nr in S0.
  assert (ER : boost_r c R1 RD1 games = N * N * gq * G * (s - E) + R1) by (unfold boost_r; fold N; rewrite GM; ring). rewrite ER.
  split; [apply ap_near; exact S0|]. pose proof (gb_end_near L cfg nr _ nd N 1 HC HE ltac:(apply (ap_weak _ _ _ _ S0); lra) ltac:(lra) Rn BN ltac:(lra)) as Q.
  replace (5 / 10 ^ 6) with (5 * 1 * 1 / 10 ^ 6) by lra. exact Q.
Qed.

Lemma fold_gb_g L q d : gb_g_value (A := B64A L) q d = gB q d. Proof. reflexivity. Qed.
Lemma fold_gb_e1 L d r1 r2 a : gb_e_value (A := B64A L) (gB (qB L) d) r1 r2 a (fofZ (Arith := B64A L) 1) = ebB L true a d r1 r2. Proof. reflexivity. Qed.
Lemma fold_gb_e2 L d r1 r2 a : gb_e_value (A := B64A L) (gB (qB L) d) r1 r2 a (fofZ (Arith := B64A L) (-1)) = ebB L false a d r1 r2. Proof. reflexivity. Qed.
Lemma fold_gb_x L q g e : gb_d_value (A := B64A L) q g e = Bdiv mode_NE one64 (xB q g e). Proof. reflexivity. Qed.
Lemma fold_gb_z L g e s : gb_z_value (A := B64A L) g e s = Bdiv mode_NE (Bmult mode_NE g (Bminus mode_NE s e)) (Bsqrt mode_NE (Bmult mode_NE (Bmult mode_NE (Bmult mode_NE g g) e) (Bminus mode_NE one64 e))). Proof. reflexivity. Qed.
Lemma fold_gb_r L r nd s q g e : gb_new_rating (A := B64A L) r nd s q g e = Bfma mode_NE (Bmult mode_NE (Bmult mode_NE (Bmult mode_NE nd nd) q) g) (Bminus mode_NE s e) r. Proof. reflexivity. Qed.

Lemma C120_game_proof : forall (L : Libm) (p1 p2 : GlickoBoostRating B64) (o : Outcomes) (cfg : GlickoBoostConfig B64),
  pow10_accurate L -> ln10_accurate L -> exp_accurate L -> gb_usual cfg ->
  num_in (- (9000)) 9000 (gb_rating p1) -> num_in 1 350 (gb_deviation p1) -> num_in (- (9000)) 9000 (gb_rating p2) -> num_in 1 350 (gb_deviation p2) ->
  Rabs (B2R (gb_rating p1) - gb_opp cfg true (gb_rating p2)) <= 1500 ->
  let c := gb_real cfg in let r1 := B2R (gb_rating p1) in let d1 := B2R (gb_deviation p1) in let r2 := B2R (gb_rating p2) in let d2 := B2R (gb_deviation p2) in
  let games1 := [gb_game cfg (p2, o, true)] in let games2 := [gb_game cfg (p1, invert o, false)] in
  let new := glicko_boost (A := B64A L) p1 p2 o cfg in
  (gb_clear cfg r1 games1 ->
   near (gb_rating (fst new)) (boost_r c r1 d1 games1) (2 / 10 ^ 6) /\
   near (gb_deviation (fst new)) (boost_end c (boost_r c r1 d1 games1) (boost_rd c r1 d1 games1)) (5 / 10 ^ 6)) /\
  (gb_clear cfg r2 games2 ->
   near (gb_rating (snd new)) (boost_r c r2 d2 games2) (2 / 10 ^ 6) /\
   near (gb_deviation (snd new)) (boost_end c (boost_r c r2 d2 games2) (boost_rd c r2 d2 games2)) (5 / 10 ^ 6)).
Proof.
  intros L [r1 d1] [r2 d2] o cfg HP HL HE HC N1 M1 N2 M2 BW. cbn [gb_rating gb_deviation] in N1, M1, N2, M2, BW. intros c R1 RD1 R2 RD2 g1 g2 new.
  destruct (ext_points L o) as [Fp Ep]. destruct (ext_points2 L o) as [Fq Eq]. cbv zeta in Fq, Eq. pose proof (points_range o) as PR.
  assert (PI' : points (invert o) = 1 - points o) by (destruct o; simpl; lra).
  assert (BW2 : Rabs (B2R r2 - gb_opp cfg false r1) <= 1500). { rewrite Rabs_minus_sym. replace (gb_opp cfg false r1 - B2R r2) with (B2R r1 - gb_opp cfg true r2) by (unfold gb_opp; ring). exact BW. }
  pose proof (gb_half L r1 d1 r2 d2 _ _ true cfg HP HL HE HC N1 M1 N2 M2 (ap_exact _ _ Fp Ep) PR BW) as X. cbv zeta in X.
  pose proof (gb_half L r2 d2 r1 d1 _ _ false cfg HP HL HE HC N2 M2 N1 M1 (ap_exact _ _ Fq Eq) ltac:(lra) BW2) as Y. cbv zeta in Y. rewrite <- PI' in Y.
  unfold new, glicko_boost. cbn [fst snd gb_rating gb_deviation]. cbv zeta. change (gb_q (A := B64A L)) with (qB L). rewrite !fold_gb_g.
  rewrite (fold_gb_e1 L d2 r1 r2), (fold_gb_e2 L d1 r2 r1), !fold_gb_x, !fold_gb_z, !fold_gb_r.
  split; intro H; [exact (X H)|exact (Y H)].
Qed.

(** ** Rating periods *)
Notation bgameB := (GlickoBoostRating B64 * Outcomes * bool)%type.
Definition btB (L : Libm) (r eta : B64) (x : bgameB) : B64 :=
  let g := gB (qB L) (gb_deviation (fst (fst x))) in let e := ebB L (snd x) eta (gb_deviation (fst (fst x))) r (gb_rating (fst (fst x))) in
  Bmult mode_NE (Bmult mode_NE (Bmult mode_NE g g) e) (Bminus mode_NE one64 e).
Definition bmB (L : Libm) (r eta : B64) (x : bgameB) : B64 :=
  let g := gB (qB L) (gb_deviation (fst (fst x))) in let e := ebB L (snd x) eta (gb_deviation (fst (fst x))) r (gb_rating (fst (fst x))) in
  Bmult mode_NE g (Bminus mode_NE (to_chess_points (A := B64A L) (snd (fst x))) e).
Definition bperB (L : Libm) (r d S m : B64) (cfg : GlickoBoostConfig B64) : GlickoBoostRating B64 :=
  let nd := gb_new_deviation (A := B64A L) d (Bdiv mode_NE one64 (Bmult mode_NE (Bmult mode_NE (qB L) (qB L)) S)) (Bdiv mode_NE m (Bsqrt mode_NE S)) cfg in
  let nr := Bfma mode_NE (Bmult mode_NE (Bmult mode_NE nd nd) (qB L)) m r in
  mkBoost nr (gb_end_deviation (A := B64A L) nr nd cfg).
Lemma bperB_ok L r d cfg x l : glicko_boost_rating_period (A := B64A L) (mkBoost r d) (x :: l) cfg =
  bperB L r d (fsum (A := B64A L) (map (btB L r (gb_eta cfg)) (x :: l))) (fsum (A := B64A L) (map (bmB L r (gb_eta cfg)) (x :: l))) cfg.
Proof.
  unfold glicko_boost_rating_period. cbv zeta. cbn [gb_rating gb_deviation].
  match goal with |- context [fmul (fpowi _ 2) (fsum (map ?f (x :: l)))] => rewrite (map_ext f (btB L r (gb_eta cfg))) by (intros [[[? ?] ?] [|]]; reflexivity) end.
  match goal with |- context [ffma _ (fsum (map ?f (x :: l))) _] => rewrite (map_ext f (bmB L r (gb_eta cfg))) by (intros [[[? ?] ?] [|]]; reflexivity) end.
  generalize (fsum (A := B64A L) (map (btB L r (gb_eta cfg)) (x :: l))). intro S. generalize (fsum (A := B64A L) (map (bmB L r (gb_eta cfg)) (x :: l))). intro m. reflexivity.
Qed.
Lemma Rsum_lo (X : Type) (F : X -> R) lo hi l : Forall (fun x => lo <= F x <= hi) l -> INR (length l) * lo <= Rsum (map F l) <= INR (length l) * hi.
Proof.
  induction 1 as [|x l Hx _ IH]; [simpl; lra|]. cbn [map length]. rewrite Rsum_cons, S_INR. lra.
Qed.
Lemma C120_period_proof : forall (L : Libm) (p : GlickoBoostRating B64) (rs : list (GlickoBoostRating B64 * Outcomes * bool)) (cfg : GlickoBoostConfig B64),
  pow10_accurate L -> ln10_accurate L -> exp_accurate L -> gb_usual cfg ->
  num_in (- (9000)) 9000 (gb_rating p) -> num_in 1 350 (gb_deviation p) ->
  Forall (fun g => num_in (- (9000)) 9000 (gb_rating (fst (fst g))) /\ num_in 1 350 (gb_deviation (fst (fst g))) /\
                   Rabs (B2R (gb_rating p) - gb_opp cfg (snd g) (gb_rating (fst (fst g)))) <= 1500) rs ->
  (1 <= length rs <= 100)%nat ->
  let c := gb_real cfg in let r := B2R (gb_rating p) in let d := B2R (gb_deviation p) in let games := map (gb_game cfg) rs in let n := INR (length rs) in
  gb_clear cfg r games ->
  let new := glicko_boost_rating_period (A := B64A L) p rs cfg in
  near (gb_rating new) (boost_r c r d games) (2 * n * n / 10 ^ 6) /\
  near (gb_deviation new) (boost_end c (boost_r c r d games) (boost_rd c r d games)) (5 * n * n / 10 ^ 6).
Proof.
  intros L [r d] rs cfg HP HL HE HC N1 M1 Hrs Hlen. cbn [gb_rating gb_deviation] in N1, M1, Hrs.
  destruct rs as [|r0 rs0]; [simpl in Hlen; lia|]. remember (r0 :: rs0) as rs eqn:Ers. change (gb_rating (mkBoost r d)) with r. change (gb_deviation (mkBoost r d)) with d. intros c R1 RD1 games n Hcl new.
  assert (Bn : 1 <= n <= 100). { unfold n. replace 100 with (INR 100) by (rewrite INR_IZR_INZ; reflexivity). change 1 with (INR 1). split; apply le_INR; lia. }
  pose proof ulim as U0. pose proof v_lim as V0. pose proof HC as [Ne _].
  destruct (num_abs _ _ N1) as [A1 B1]. destruct (num_abs _ _ Ne) as [AE BE]. destruct (num_ap _ _ _ M1) as [D1 E1]. fold R1 in A1, B1, Hrs. fold RD1 in D1, E1. set (Et := B2R (gb_eta cfg)) in *. set (q := qB L).
  set (GF := fun x : bgameB => gg (B2R (gb_deviation (fst (fst x))))).
  set (EF := fun x : bgameB => gE R1 (gb_opp cfg (snd x) (gb_rating (fst (fst x)))) (B2R (gb_deviation (fst (fst x))))).
  set (TF := fun x => GF x * GF x * EF x * (1 - EF x)). set (MF := fun x => GF x * (points (snd (fst x)) - EF x)).
  set (tf := btB L r (gb_eta cfg)). set (mf := bmB L r (gb_eta cfg)).
  assert (H : Forall (fun x => rl (tf x) (TF x) (28 / 10 ^ 13) /\ / 22850 <= TF x <= / 4 /\ ap (mf x) (MF x) (48 / 10 ^ 14) /\ Rabs (MF x) <= 1) rs).
  { eapply Forall_impl; [|exact Hrs]. intros [[[r2 d2] o] w] [N2 [M2 BW]]. cbn [fst snd gb_rating gb_deviation] in N2, M2, BW.
    destruct (num_abs _ _ N2) as [A2 B2]. destruct (num_ap _ _ _ M2) as [D2 E2]. destruct (ext_points L o) as [Fp Ep]. pose proof (points_range o) as PR.
    unfold tf, TF, mf, MF, btB, bmB, GF, EF. cbv zeta. cbn [fst snd gb_rating gb_deviation].
    destruct (tm_ap L d2 _ r R1 r2 _ _ Et w _ _ HP HL D2 ltac:(lra) A1 A2 AE B1 B2 BE BW (ap_exact _ _ Fp Ep) PR) as (Rt & _ & Am & _ & _ & BT & BS & BG).
    split; [exact Rt|]. split; [exact BT|]. split; [exact Am|].
    change (gb_opp cfg w r2) with (B2R r2 - adv w Et). rewrite Rabs_mult, (Rabs_pos_eq (gg _)) by lra. apply Rle_trans with (1 * 1); [apply Rmult_le_compat; try lra; apply Rabs_pos|lra]. }
  assert (Hl : (length rs <= 1000)%nat) by lia.
  pose proof (Rsum_lo _ TF (/ 22850) (/ 4) rs ltac:(eapply Forall_impl; [|exact H]; intros x X; apply X)) as BT. fold n in BT.
  assert (RS : rl (fsum (A := B64A L) (map tf rs)) (Rsum (map TF rs)) (29 / 10 ^ 13)).
  { apply (fsumP _ L tf TF (28 / 10 ^ 13)); [left; reflexivity|lra|rewrite Ers; discriminate|split; [apply Rle_trans with (/ 10 ^ 30); [apply Rinv_le_contravar; [lra|apply Rle_pow; [lra|lia]]|lra]|apply Rle_trans with (10 ^ 30); [lra|apply Rle_pow; [lra|lia]]]| |fold n; lra|fold n|lra].
    - eapply Forall_impl; [|exact H]. intros x X; apply X.
    - assert (n * v0 <= 100 * v0) by (apply Rmult_le_compat_r; lra). lra. }
  destruct (fsum_ap _ L mf MF (48 / 10 ^ 14) rs ltac:(lra)) as [AM BM]; [eapply Forall_impl; [|exact H]; intros x X; split; apply X|exact Hl|]. fold n in AM, BM.
  apply (ap_weak _ _ _ (n * (61 / 10 ^ 14))) in AM; [|apply Rmult_le_compat_l; ulra].
  set (S := fsum (A := B64A L) (map tf rs)) in *. set (m := fsum (A := B64A L) (map mf rs)) in *.
  assert (HP' : new = bperB L r d S m cfg) by (unfold new, m, S; rewrite Ers; apply bperB_ok). rewrite HP'. clear HP'. unfold bperB. cbv zeta. cbn [gb_rating gb_deviation]. fold q.
  set (ST := Rsum (map TF rs)) in *. set (SM := Rsum (map MF rs)) in *. clear Hrs H.
  destruct (z_ap m SM S ST n AM BM ltac:(apply (rl_weak _ _ _ _ RS); lra) ltac:(lra) Bn) as [Az BZ]. set (z := Bdiv mode_NE m (Bsqrt mode_NE S)) in *.
  pose proof gq_rng as GQ. assert (GQ2 : 0.000033 <= gq * gq <= 0.0000332) by nra.
  set (V := gq * gq * ST). assert (BV : / 10 ^ 9 <= V <= / 1000). { unfold V. split; [apply Rle_trans with (0.000033 * / 22850); [lra|apply Rmult_le_compat; lra]|apply Rle_trans with (0.0000332 * 25); [apply Rmult_le_compat; lra|lra]]. }
  destruct (qq_ap L HL) as [Aq _]. fold q in Aq. assert (Rq2 : rl (Bmult mode_NE q q) (gq * gq) (34 / 10 ^ 16)) by (apply (rl_of _ _ _ 0.000033 _ Aq); lra).
  pose proof (rl_mul _ _ _ _ _ _ (30 / 10 ^ 13) Rq2 RS ltac:(fold V; lra) ltac:(lra) ltac:(lra)) as Rx. fold V in Rx. pose proof (v_ap _ _ Rx BV) as Rv.
  assert (GV : gd2inv R1 games = V). { unfold gd2inv, games, V, ST. rewrite map_map. replace (gq ^ 2) with (gq * gq) by ring. f_equal. f_equal. apply map_ext. intros [[[u1 u2] u3] u4]. unfold TF, GF, EF. cbn [fst snd gb_rating gb_deviation gb_game]. ring. }
  assert (GM : gM R1 games = SM). { unfold gM, games, SM. rewrite map_map. f_equal. apply map_ext. intros [[[u1 u2] u3] u4]. reflexivity. }
  assert (GZ : boost_Z R1 games = SM / sqrt ST). { unfold boost_Z. rewrite GV, GM. do 2 f_equal. unfold V. field. lra. }
  unfold gb_clear in Hcl. rewrite GZ in Hcl. assert (EL : INR (length games) = n) by (unfold games, n; rewrite map_length; reflexivity). rewrite EL in Hcl.
  destruct (nd_ap L d RD1 _ V z _ n cfg HC D1 ltac:(lra) Rv BV Az BZ Bn Hcl) as [Rn BN]. specialize (Rn _ eq_refl). set (nd := gb_new_deviation (A := B64A L) d _ z cfg) in *. rewrite <- GZ, <- GV in Rn, BN.
  change (bdevR (B2R (gb_k cfg)) (B2R (gb_b0 cfg)) (B2R (gb_b1 cfg)) RD1 (gd2inv R1 games) (boost_Z R1 games)) with (boost_rd c R1 RD1 games) in Rn, BN. set (N := boost_rd c R1 RD1 games) in *.
  destruct (K_rl L nd N _ HL Rn BN ltac:(lra)) as [RK BK]. fold q in RK.
  assert (AK : ap (Bmult mode_NE (Bmult mode_NE nd nd) q) (N * N * gq) (n * (1831 / 10 ^ 9))). { apply (rl_ap _ _ _ _ RK). apply Rle_trans with ((2.01 * (n * (129 / 10 ^ 11)) + 4 / 10 ^ 15) * 705.6); [apply Rmult_le_compat_l; lra|lra]. }
  assert (n1 : n * 1 <= n * n <= n * 100) by (split; apply Rmult_le_compat_l; lra).
  assert (BPR : Rabs (N * N * gq * SM) <= 705.6 * n). { rewrite Rabs_mult, (Rabs_pos_eq (N * N * gq)) by lra. apply Rmult_le_compat; try lra; apply Rabs_pos. }
  assert (BT2 : Rabs (N * N * gq * SM + R1) <= 705.6 * n + 9000) by (eapply Rle_trans; [apply Rabs_triang|]; lra).
  assert (Q1 : n * (n * (1831 / 10 ^ 9)) = n * n * (1831 / 10 ^ 9)) by ring. assert (Q2 : n * (1831 / 10 ^ 9) * (n * (61 / 10 ^ 14)) = n * n * (1831 / 10 ^ 9 * (61 / 10 ^ 14))) by ring.
  pose proof (ap_fma _ _ _ _ _ _ _ _ _ 705.6 n 80000 AK AM A1 ltac:(rewrite Rabs_pos_eq; lra) BM ltac:(rewrite Q1, Q2; lra) ltac:(okb)) as A4. rewrite Q1, Q2 in A4.
  apply (ap_weak _ _ _ (2 * n * n / 10 ^ 6)) in A4; [|lra].
  assert (ER : boost_r c R1 RD1 games = N * N * gq * SM + R1) by (unfold boost_r; fold N; rewrite GM; ring). rewrite ER.
  split; [apply ap_near; exact A4|]. exact (gb_end_near L cfg _ _ nd N n HC HE A4 ltac:(lra) Rn BN Bn).
Qed.
Lemma C120_decay_proof : forall (L : Libm) (p : GlickoBoostRating B64) (cfg : GlickoBoostConfig B64), exp_accurate L -> gb_usual cfg ->
  num_in (- (9000)) 9000 (gb_rating p) -> num_in 1 350 (gb_deviation p) ->
  let new := boost_decay_deviation (A := B64A L) p cfg in
  gb_rating new = gb_rating p /\ near (gb_deviation new) (boost_end (gb_real cfg) (B2R (gb_rating p)) (B2R (gb_deviation p))) (3 / 10 ^ 11) /\
  glicko_boost_rating_period (A := B64A L) p [] cfg = new.
Proof.
  intros L [r d] cfg HE HC N1 M1 new. cbn [gb_rating gb_deviation] in *. split; [reflexivity|]. split; [|reflexivity].
  destruct (num_abs _ _ N1) as [A1 B1]. destruct (num_ap _ _ _ M1) as [D1 E1].
  destruct (end_ap L cfg r _ 0 d _ 0 HC HE A1 ltac:(lra) ltac:(lra) (rl_exact _ _ D1 ltac:(lra)) ltac:(lra) ltac:(lra)) as [R1 BB]. apply ap_near. apply (rl_ap _ _ _ _ R1). lra.
Qed.

(** ** Expected scores *)
Lemma C120_expected_proof : forall (L : Libm) (p1 p2 : GlickoBoostRating B64) (cfg : GlickoBoostConfig B64),
  pow10_nonneg L -> pow10_accurate L -> ln10_accurate L -> hypot_accurate L ->
  num_in (- (9000)) 9000 (gb_rating p1) -> num_in 1 350 (gb_deviation p1) -> num_in (- (9000)) 9000 (gb_rating p2) -> num_in 1 350 (gb_deviation p2) ->
  num_in (- (1000)) 1000 (gb_eta cfg) ->
  let E := gE (B2R (gb_rating p1)) (gb_opp cfg true (gb_rating p2)) (sqrt (B2R (gb_deviation p1) ^ 2 + B2R (gb_deviation p2) ^ 2)) in
  let e := boost_expected_score (A := B64A L) p1 p2 cfg in
  near (fst e) E (2 / 10 ^ 12) /\ near (snd e) (1 - E) (2 / 10 ^ 12).
Proof.
  intros L [r1 d1] [r2 d2] cfg HN HP HL HH N1 M1 N2 M2 NG E e. cbn [gb_rating gb_deviation] in *. destruct (num_abs _ _ NG) as [AG BG].
  pose proof (exp_st_ap L r1 d1 r2 d2 _ _ HN HP HL HH N1 M1 N2 M2 AG BG) as Ae. pose proof (gE_01 (B2R r1) (gb_opp cfg true r2) (sqrt (B2R d1 ^ 2 + B2R d2 ^ 2))) as BE. fold E in BE. change (B2R r2 - B2R (gb_eta cfg)) with (gb_opp cfg true r2) in Ae. fold E in Ae.
  set (x := lgB L _) in Ae. assert (H : e = (x, Bminus mode_NE one64 x)) by reflexivity. rewrite H. cbn [fst snd]. pose proof (one_minus_ap _ _ _ Ae ltac:(lra) ltac:(lra)) as Am.
  split; apply ap_near; [apply (ap_weak _ _ _ _ Ae)|apply (ap_weak _ _ _ _ Am)]; lra.
Qed.
Lemma C120_expected_period_proof : forall (L : Libm) (p : GlickoBoostRating B64) (os : list (GlickoBoostRating B64 * bool)) (cfg : GlickoBoostConfig B64),
  pow10_nonneg L -> pow10_accurate L -> ln10_accurate L -> hypot_accurate L ->
  num_in (- (9000)) 9000 (gb_rating p) -> num_in 1 350 (gb_deviation p) -> num_in (- (1000)) 1000 (gb_eta cfg) ->
  Forall (fun o => num_in (- (9000)) 9000 (gb_rating (fst o)) /\ num_in 1 350 (gb_deviation (fst o))) os ->
  Forall2 (fun (o : GlickoBoostRating B64 * bool) (e : B64) => near e (gE (B2R (gb_rating p)) (gb_opp cfg true (gb_rating (fst o)))
      (sqrt (B2R (gb_deviation p) ^ 2 + B2R (gb_deviation (fst o)) ^ 2))) (2 / 10 ^ 12))
    os (boost_expected_score_rating_period (A := B64A L) p os cfg).
Proof.
  intros L [r d] os cfg HN HP HL HH N1 M1 NG HF. cbn [gb_rating gb_deviation] in *. destruct (num_abs _ _ NG) as [AG BG].
  unfold boost_expected_score_rating_period. induction HF as [|[[r2 d2] w] l [N2 M2] HF IH]; [constructor|]. cbn [map]. constructor; [|exact IH]. clear IH HF.
  cbn [gb_rating gb_deviation fst snd] in *. apply ap_near.
  pose proof (exp_st_ap L r d r2 d2 _ _ HN HP HL HH N1 M1 N2 M2 AG BG) as Ae. apply (ap_weak _ _ _ _ Ae). lra.
Qed.
