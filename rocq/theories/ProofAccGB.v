(** Accuracy of the Glicko-Boost formulas in double precision: one game's terms,
    the deviations and the end of a period. *)
From Coq Require Import ZArith NArith List Bool Reals Lra Lia Psatz.
From Flocq Require Import Core.Core IEEE754.BinarySingleNaN.
From Verif Require Import Arith XR B64 ModelLib ModelGlicko ModelBoost Spec SpecB64 SpecAcc SpecAcc7 Tac MathB64 ProofB64 ProofB64b ProofB64c MathB64b ProofB64d ProofB64e MathAcc ProofAcc ProofAcc2 ProofAccDwz ProofAccUscf ProofAccSticko MathRel.
Import Spec ListNotations.
Local Open Scope R_scope.
#[local] Opaque Bplus Bminus Bmult Bdiv Bsqrt Bfma Bopp b64 b64_of_Z b64_min l_exp l_pow.

Lemma v_lim : 0 < v0 <= 122 / 10 ^ 18. Proof. unfold v0; lra. Qed.
Lemma rl_one : rl one64 1 0. Proof. apply rl_exact; [exact (ap_exact one64 1 fin_one64 ext_one64)|lra]. Qed.
Lemma rl_of x X d lo a : ap x X d -> 0 < lo <= X -> d <= a * lo -> 0 <= a <= / 10 ^ 4 -> rl x X a.
Proof. intros A B D Ba. split; [lra|]. split; [exact Ba|]. apply (ap_weak _ _ _ _ A). apply Rle_trans with (1 := D). apply Rmult_le_compat_l; lra. Qed.

(** ** The expected score, relatively *)
Lemma p375 Y : Rabs Y <= 3.75 -> / 5690 <= Rpower 10 Y <= 5690.
Proof.
  intro H. apply Rabs_le_inv in H. assert (P : Rpower 10 (15 / 4) <= 5690).
  { destruct (Rle_dec (Rpower 10 (15 / 4)) 5690) as [|C]; [assumption|exfalso]. apply Rnot_le_lt in C. set (x := Rpower 10 (15 / 4)) in *.
    assert (X4 : x ^ 4 = 10 ^ 15). { unfold x. rewrite <- (Rpower_pow 4) by apply Rpower10_pos. rewrite Rpower_mult, <- (Rpower_pow 15) by lra. f_equal. simpl INR. lra. }
    assert (5690 ^ 2 < x ^ 2) by nra. assert ((5690 ^ 2) ^ 2 < (x ^ 2) ^ 2) by nra. replace ((x ^ 2) ^ 2) with (x ^ 4) in * by ring. lra. }
  split.
  - replace Y with (- - Y) by ring. rewrite Rpower_Ropp. apply Rinv_le_contravar; [apply Rpower10_pos|]. apply Rle_trans with (2 := P). apply Rle_Rpower; lra.
  - apply Rle_trans with (2 := P). apply Rle_Rpower; lra.
Qed.
Lemma lgr_ap L y Y : pow10_accurate L -> ap y Y (17 / 10 ^ 14) -> Rabs Y <= 3.75 ->
  let e := lgB L y in let E := / (1 + Rpower 10 Y) in
  rl e E (41 / 10 ^ 14) /\ rl (Bminus mode_NE one64 e) (1 - E) (20 / 10 ^ 13) /\ / 5700 <= E <= 1 - / 5700.
Proof.
  intros P [F H] BY e E. pose proof v_lim as V0. pose proof ulim as U0. pose proof (Rabs_le_inv _ _ BY) as BY'. pose proof (Rabs_le_inv _ _ H) as H'.
  destruct (P y F) as [Fp Ap]; [rewrite <- (ext_fin y F); apply Rabs_le; lra|].
  set (p := l_pow L (b64_of_Z 10) y) in *. rewrite <- (ext_fin y F), <- (ext_fin p Fp) in Ap.
  pose proof (p375 Y BY) as BP. set (PP := Rpower 10 Y) in *. pose proof (Rpower10_pos (ext y)) as Py. pose proof i50 as I50.
  pose proof (pow10_close Y (ext y) ltac:(lra)) as Q. fold PP in Q.
  assert (Q' : Rabs (Rpower 10 (ext y) - PP) <= 392 / 10 ^ 15 * PP). { eapply Rle_trans; [exact Q|]. apply Rmult_le_compat_r; lra. }
  assert (Ap' : Rabs (ext p - Rpower 10 (ext y)) <= / 10 ^ 15 * Rpower 10 (ext y)) by (eapply Rle_trans; [exact Ap|]; apply Rmult_le_compat_r; lra).
  assert (RP : Rabs (ext p - PP) <= 394 / 10 ^ 15 * PP). { apply Rabs_le_inv in Ap', Q'. apply Rabs_le. lra. }
  assert (R1 : rl p PP (394 / 10 ^ 15)) by (split; [lra|]; split; [lra|]; split; [exact Fp|exact RP]).
  pose proof (rl_add _ _ _ _ _ _ (395 / 10 ^ 15) rl_one R1 ltac:(lra) ltac:(rewrite Rmax_right by lra; lra) ltac:(lra)) as R2.
  assert (BE : / 5700 <= E <= 1 - / 5700).
  { unfold E. split; [apply Rinv_le_contravar; lra|]. apply Rle_trans with (/ (1 + / 5690)); [apply Rinv_le_contravar; lra|lra]. }
  assert (EE : 1 / (1 + PP) = E) by (unfold E, Rdiv; ring).
  pose proof (rl_div _ _ _ _ _ _ (41 / 10 ^ 14) rl_one R2 ltac:(rewrite EE; lra) ltac:(lra) ltac:(lra)) as R3. rewrite EE in R3. change (rl e E (41 / 10 ^ 14)) in R3.
  split; [exact R3|]. split; [|exact BE].
  (* the complement *)
  pose proof (Rabs_le_inv _ _ RP) as RP'. set (p' := ext p) in *. assert (P'0 : 0 < p') by lra.
  assert (R4 : rl p p' 0) by (apply rl_exact; [apply ap_exact; [exact Fp|reflexivity]|exact P'0]).
  pose proof (rl_add _ _ _ _ _ _ v0 rl_one R4 ltac:(lra) ltac:(rewrite Rmax_right by lra; lra) ltac:(lra)) as R5.
  assert (BE' : 0 < 1 / (1 + p') <= 1). { unfold Rdiv. rewrite Rmult_1_l. split; [apply Rinv_0_lt_compat; lra|]. rewrite <- Rinv_1. apply Rinv_le_contravar; lra. }
  assert (BE2 : / 10 ^ 29 <= 1 / (1 + p') <= 10 ^ 29). { split; [|lra]. unfold Rdiv. rewrite Rmult_1_l. apply Rinv_le_contravar; lra. }
  pose proof (rl_div _ _ _ _ _ _ (26 / 10 ^ 17) rl_one R5 BE2 ltac:(lra) ltac:(lra)) as R6. change (rl e (1 / (1 + p')) (26 / 10 ^ 17)) in R6.
  destruct R6 as [_ [_ [Fe A6]]]. set (E' := 1 / (1 + p')) in *.
  assert (D1 : Rabs (E' - E) <= 395 / 10 ^ 15 * (1 - E)).
  { unfold E', E. replace (1 / (1 + p') - / (1 + PP)) with ((PP - p') * / (1 + PP) * (/ (1 + p'))) by (field; lra).
    replace (1 - / (1 + PP)) with (PP * / (1 + PP)) by (field; lra). assert (I1 : 0 < / (1 + PP)) by (apply Rinv_0_lt_compat; lra).
    unfold E', Rdiv in BE'. rewrite Rmult_1_l in BE'. rewrite !Rabs_mult, (Rabs_pos_eq (/ (1 + PP))), (Rabs_pos_eq (/ (1 + p'))) by lra. rewrite <- (Rmult_1_r (395 / 10 ^ 15 * _)).
    apply Rmult_le_compat; try lra; [apply Rmult_le_pos; [apply Rabs_pos|lra]|]. rewrite <- Rmult_assoc. apply Rmult_le_compat_r; [lra|]. rewrite Rabs_minus_sym. lra. }
  assert (A7 : ap e E (19 / 10 ^ 13 * (1 - E))).
  { split; [exact Fe|]. apply Rabs_le_inv in A6, D1. apply Rabs_le. lra. }
  pose proof (ap_sub _ _ _ _ _ _ (1.01 * (1 - E)) (ap_exact one64 1 fin_one64 ext_one64) A7 ltac:(rewrite Rabs_pos_eq; lra) ltac:(okb)) as A8.
  split; [lra|]. split; [lra|]. apply (ap_weak _ _ _ _ A8). pose proof (u0v (1 - E) ltac:(lra)). assert (v0 * (1 - E) <= 122 / 10 ^ 18 * (1 - E)) by (apply Rmult_le_compat_r; lra). lra.
Qed.
Lemma eb_ap L d2 RD r1 R1 r2 R2 eta Et (w : bool) : pow10_accurate L -> ln10_accurate L -> ap d2 RD 0 -> 0 <= RD <= 500 ->
  ap r1 R1 0 -> ap r2 R2 0 -> ap eta Et 0 -> Rabs R1 <= 9000 -> Rabs R2 <= 9000 -> Rabs Et <= 1000 -> Rabs (R1 - (R2 - adv w Et)) <= 1500 ->
  let e := ebB L w eta d2 r1 r2 in let E := gE R1 (R2 - adv w Et) RD in
  rl e E (41 / 10 ^ 14) /\ rl (Bminus mode_NE one64 e) (1 - E) (20 / 10 ^ 13) /\ / 5700 <= E <= 1 - / 5700.
Proof.
  intros HP HL AD BD A1 A2 AE B1 B2 BE BW. apply Rabs_le_inv in B1, B2. pose proof (Rabs_le_inv _ _ BE) as BE'.
  pose proof (g_ap L d2 RD 0 HL AD BD ltac:(lra)) as G. change (gl_g_value (A := B64A L) (gl_q (A := B64A L)) d2) with (gB (qB L) d2) in G. destruct (gg_rng RD BD) as [_ GR].
  assert (BT : Rabs ((if w then 1 else - 1) * Et + R1) <= 10000) by (apply Rabs_le; destruct w; lra).
  step (ap_fma _ _ _ _ _ _ _ _ _ 1 1000 10001 (col_ap w) AE A1 ltac:(apply Rabs_le; destruct w; lra) BE ltac:(lra) ltac:(okb)) (1201 / 10 ^ 15).
  assert (EW : (if w then 1 else - 1) * Et + R1 - R2 = R1 - (R2 - adv w Et)) by (unfold adv; destruct w; ring).
  step (ap_sub _ _ _ _ _ _ 1501 S A2 ltac:(rewrite EW; lra) ltac:(okb)) (14 / 10 ^ 13). rewrite EW in S0. set (W := R1 - (R2 - adv w Et)) in *.
  pose proof (ap_opp _ _ _ G) as G'.
  step (ap_mul _ _ _ _ _ _ 1 1500 1501 G' S0 ltac:(apply Rabs_le; lra) BW ltac:(lra) ltac:(okb)) (617 / 10 ^ 13).
  assert (Bt : Rabs (- gg RD * W) <= 1500). { rewrite Rabs_mult. apply Rle_trans with (1 * 1500); [|lra]. apply Rmult_le_compat; try apply Rabs_pos; [apply Rabs_le; lra|lra]. }
  assert (By : Rabs (- gg RD * W / 400) <= 3.75). { unfold Rdiv. rewrite Rabs_mult, (Rabs_pos_eq (/ 400)) by lra. lra. }
  step (ap_div _ _ _ _ _ _ 400 3.75 4 S1 (ap_Z 400 ltac:(vm_compute; discriminate)) ltac:(lra) ltac:(rewrite Rabs_pos_eq; lra) ltac:(lra) ltac:(lra) ltac:(okb)) (17 / 10 ^ 14).
  exact (lgr_ap L _ _ HP S2 By).
Qed.
(** ** One game's share of the information and of the score *)
Lemma tm_ap L d2 RD r1 R1 r2 R2 eta Et (w : bool) o s : pow10_accurate L -> ln10_accurate L -> ap d2 RD 0 -> 0 <= RD <= 500 ->
  ap r1 R1 0 -> ap r2 R2 0 -> ap eta Et 0 -> Rabs R1 <= 9000 -> Rabs R2 <= 9000 -> Rabs Et <= 1000 -> Rabs (R1 - (R2 - adv w Et)) <= 1500 -> ap o s 0 -> 0 <= s <= 1 ->
  let q := qB L in let g := gB q d2 in let e := ebB L w eta d2 r1 r2 in let E := gE R1 (R2 - adv w Et) RD in let G := gg RD in
  rl (Bmult mode_NE (Bmult mode_NE (Bmult mode_NE g g) e) (Bminus mode_NE one64 e)) (G * G * E * (1 - E)) (28 / 10 ^ 13) /\
  rl (xB q g e) (gq * gq * (G * G) * E * (1 - E)) (29 / 10 ^ 13) /\
  ap (Bmult mode_NE g (Bminus mode_NE o e)) (G * (s - E)) (48 / 10 ^ 14) /\ ap g G (4 / 10 ^ 14) /\ ap (Bminus mode_NE o e) (s - E) (42 / 10 ^ 14) /\
  / 22850 <= G * G * E * (1 - E) <= / 4 /\ Rabs (s - E) <= 1 /\ / 2 <= G <= 1.
Proof.
  intros HP HL AD BD A1 A2 AE B1 B2 BE BW Ao Bs q g e E G. pose proof v_lim as V0.
  destruct (eb_ap L d2 RD r1 R1 r2 R2 eta Et w HP HL AD BD A1 A2 AE B1 B2 BE BW) as [Re [Rm BEE]]. fold e in Re, Rm. fold E in Re, Rm, BEE.
  destruct (gg_ap L d2 RD HL AD BD) as [Ag [Ag2 [Bg Bg2]]]. fold q in Ag, Ag2. fold g in Ag, Ag2. fold G in Ag, Ag2, Bg, Bg2.
  destruct (qq_ap L HL) as [Aq Bq]. fold q in Aq. pose proof gq_rng as GQ.
  assert (Bq2 : 0.000033 <= gq * gq <= 0.0000332) by (split; [nra|lra]). assert (BG2 : / 4 <= G * G <= 1) by nra.
  assert (Rg2 : rl (Bmult mode_NE g g) (G * G) (36 / 10 ^ 14)) by (apply (rl_of _ _ _ (/ 4) _ Ag2); lra).
  assert (Rq2 : rl (Bmult mode_NE q q) (gq * gq) (34 / 10 ^ 16)) by (apply (rl_of _ _ _ 0.000033 _ Aq); lra).
  assert (P1 : / 22800 <= G * G * E <= 1). { split; [apply Rle_trans with (/ 4 * / 5700); [lra|apply Rmult_le_compat; lra]|apply Rle_trans with (1 * 1); [apply Rmult_le_compat; lra|lra]]. }
  assert (EQ : / 5702 <= E * (1 - E) <= / 4). { split; [|pose proof (pow2_ge_0 (E - / 2)); nra]. assert (0 <= (E - / 5700) * (1 - / 5700 - E)) by (apply Rmult_le_pos; lra). lra. }
  assert (P2 : / 22850 <= G * G * E * (1 - E) <= / 4). { rewrite Rmult_assoc. split; [apply Rle_trans with (/ 4 * / 5702); [lra|apply Rmult_le_compat; lra]|apply Rle_trans with (1 * / 4); [apply Rmult_le_compat; lra|lra]]. }
  pose proof (rl_mul _ _ _ _ _ _ (78 / 10 ^ 14) Rg2 Re ltac:(lra) ltac:(lra) ltac:(lra)) as T1.
  pose proof (rl_mul _ _ _ _ _ _ (28 / 10 ^ 13) T1 Rm ltac:(lra) ltac:(lra) ltac:(lra)) as T2.
  assert (P3 : 0.000008 <= gq * gq * (G * G) <= 0.0000332). { split; [apply Rle_trans with (0.000033 * / 4); [lra|apply Rmult_le_compat; lra]|apply Rle_trans with (0.0000332 * 1); [apply Rmult_le_compat; lra|lra]]. }
  pose proof (rl_mul _ _ _ _ _ _ (37 / 10 ^ 14) Rq2 Rg2 ltac:(lra) ltac:(lra) ltac:(lra)) as X1.
  assert (P4 : / 10 ^ 20 <= gq * gq * (G * G) * E <= 1). { split; [apply Rle_trans with (0.000008 * / 5700); [lra|apply Rmult_le_compat; lra]|apply Rle_trans with (0.0000332 * 1); [apply Rmult_le_compat; lra|lra]]. }
  pose proof (rl_mul _ _ _ _ _ _ (79 / 10 ^ 14) X1 Re ltac:(lra) ltac:(lra) ltac:(lra)) as X2.
  assert (P5 : / 10 ^ 24 <= gq * gq * (G * G) * E * (1 - E) <= 1). { split; [apply Rle_trans with (/ 10 ^ 20 * / 5700); [lra|apply Rmult_le_compat; lra]|apply Rle_trans with (1 * 1); [apply Rmult_le_compat; lra|lra]]. }
  pose proof (rl_mul _ _ _ _ _ _ (29 / 10 ^ 13) X2 Rm ltac:(lra) ltac:(lra) ltac:(lra)) as X3.
  assert (Ae : ap e E (41 / 10 ^ 14)) by (apply (rl_ap _ _ _ _ Re); lra).
  pose proof (pts_minus_ap o s e E _ Ao Bs Ae ltac:(lra) ltac:(lra)) as As. apply (ap_weak _ _ _ (42 / 10 ^ 14)) in As; [|lra].
  assert (BS : Rabs (s - E) <= 1) by (apply Rabs_le; lra).
  step (ap_mul _ _ _ _ _ _ 1 1 1.01 Ag As ltac:(bd) BS ltac:(lra) ltac:(okb)) (48 / 10 ^ 14).
  split; [exact T2|]. split; [exact X3|]. split; [exact S|]. split; [exact Ag|]. split; [exact As|]. split; [exact P2|]. split; [exact BS|exact Bg].
Qed.

(** ** Deviations *)
Lemma rl_fma0 x y z X Y Z a b c : rl x X a -> rl y Y b -> ap z Z 0 -> 0 <= Z -> / 10 ^ 29 <= X * Y + Z <= 10 ^ 29 -> a + b + a * b + v0 <= c -> c <= / 10 ^ 4 ->
  rl (Bfma mode_NE x y z) (X * Y + Z) c.
Proof.
  intros [PX [Ba Ax]] [PY [Bb Ay]] Az PZ BP H H'. assert (P : 0 < X * Y) by (apply Rmult_lt_0_compat; auto). assert (V : 0 < v0) by (unfold v0; lra).
  assert (AB : 0 <= a * b) by (apply Rmult_le_pos; lra). split; [lra|]. split; [lra|].
  assert (E : X * (b * Y) + Y * (a * X) + a * X * (b * Y) + 0 = (a + b + a * b) * (X * Y)) by ring.
  pose proof (ap_fma _ _ _ _ _ _ _ _ _ X Y (1.01 * (X * Y + Z)) Ax Ay Az ltac:(rewrite Rabs_pos_eq; lra) ltac:(rewrite Rabs_pos_eq; lra)) as T. rewrite E in T.
  assert (HE : (a + b + a * b) * (X * Y) <= (a + b + a * b) * (X * Y + Z)) by (apply Rmult_le_compat_l; lra). assert (H3 : (a + b + a * b) * (X * Y + Z) <= / 100 * (X * Y + Z)) by (apply Rmult_le_compat_r; lra).
  specialize (T ltac:(rewrite Rabs_pos_eq; lra) ltac:(okb)). apply (ap_weak _ _ _ _ T). pose proof (u0v (X * Y + Z) ltac:(lra)).
  apply Rle_trans with ((a + b + a * b + v0) * (X * Y + Z)); [lra|]. apply Rmult_le_compat_r; lra.
Qed.
Lemma rl_min x X a : rl x X a -> rl (b64_min x (b64_of_Z 350)) (Rmin X 350) a.
Proof.
  intros [P [Ba [F A]]]. destruct (ext_ofZ 350 ltac:(vm_compute; discriminate)) as [F3 E3]. apply Rabs_le_inv in A.
  assert (PM : 0 < Rmin X 350) by (apply Rmin_glb_lt; lra). split; [exact PM|]. split; [exact Ba|].
  assert (D : fin (b64_min x (b64_of_Z 350)) /\ ext (b64_min x (b64_of_Z 350)) = Rmin (ext x) 350).
  { Transparent b64_min. unfold b64_min. Opaque b64_min. rewrite (fin_nn _ F), (fin_nn _ F3), Bleb_ext by (apply fin_nn; assumption). rewrite E3. unfold Rmin. case Rle_bool_spec; intros Q; destruct (Rle_dec (ext x) 350); try lra; split; auto. }
  destruct D as [Fm Em]. split; [exact Fm|]. rewrite Em. assert (aX : 0 <= a * X) by (apply Rmult_le_pos; lra). assert (a350 : 0 <= a * 350) by (apply Rmult_le_pos; lra).
  unfold Rmin. destruct (Rle_dec (ext x) 350), (Rle_dec X 350); apply Rabs_le; try lra.
  assert (a * (X - 350) <= 1 * (X - 350)) by (apply Rmult_le_compat_r; lra). lra.
Qed.
Definition devB (d v : B64) : B64 := Bsqrt mode_NE (Bdiv mode_NE one64 (Bplus mode_NE (Bdiv mode_NE one64 (Bmult mode_NE d d)) v)).
Definition devR (D V : R) : R := sqrt (/ (/ D ^ 2 + V)).
Lemma dv_ap d v D V a : rl d D a -> a <= / 10 ^ 5 -> 0.9 <= D <= 10 ^ 8 -> rl v V (31 / 10 ^ 13) -> / 10 ^ 9 <= V <= / 1000 ->
  rl (devB d v) (devR D V) (2.02 * a + 35 / 10 ^ 13) /\ Rmin D 1 * 0.999 <= devR D V <= D.
Proof.
  intros Rd Ha BD Rv BV. pose proof v_lim as V0. pose proof Rd as [_ [Ba _]]. unfold devB, devR. replace (D ^ 2) with (D * D) by ring.
  assert (aa : 0 <= a * a <= / 10 ^ 5 * a) by (split; [apply Rmult_le_pos; lra|apply Rmult_le_compat_r; lra]).
  assert (DD : 0.81 <= D * D <= 10 ^ 16) by (split; [apply Rle_trans with (0.9 * 0.9); [lra|apply Rmult_le_compat; lra]|apply Rle_trans with (10 ^ 8 * 10 ^ 8); [apply Rmult_le_compat; lra|lra]]).
  pose proof (rl_mul _ _ _ _ _ _ (2.00001 * a + v0) Rd Rd ltac:(lra) ltac:(lra) ltac:(lra)) as R1.
  assert (ID : / 10 ^ 16 <= / (D * D) <= 1.3) by (split; [apply Rinv_le_contravar; lra|apply Rle_trans with (/ 0.81); [apply Rinv_le_contravar; lra|lra]]).
  assert (E1 : 1 / (D * D) = / (D * D)) by (unfold Rdiv; ring).
  pose proof (rl_div _ _ _ _ _ _ (2.003 * a + 3 * v0) rl_one R1 ltac:(rewrite E1; lra) ltac:(lra) ltac:(lra)) as R2. rewrite E1 in R2.
  set (I := / (D * D)) in *. pose proof (rl_add _ _ _ _ _ _ (2.003 * a + 32 / 10 ^ 13) R2 Rv ltac:(lra) ltac:(unfold Rmax; destruct Rle_dec; lra) ltac:(lra)) as R3.
  set (J := I + V) in *. assert (BJ : / 10 ^ 9 <= J <= 1.31) by (unfold J; lra).
  assert (IJ : / 1.31 <= / J <= 10 ^ 9). { split; [apply Rinv_le_contravar; lra|]. rewrite <- (Rinv_inv (10 ^ 9)). apply Rinv_le_contravar; lra. }
  assert (E2 : 1 / J = / J) by (unfold Rdiv; ring).
  pose proof (rl_div _ _ _ _ _ _ (2.01 * a + 34 / 10 ^ 13) rl_one R3 ltac:(rewrite E2; lra) ltac:(lra) ltac:(lra)) as R4. rewrite E2 in R4.
  assert (BS : 0.87 <= sqrt (/ J) <= 10 ^ 5).
  { split; [rewrite <- (sqrt_square 0.87) by lra; apply sqrt_le_1; lra|rewrite <- (sqrt_square (10 ^ 5)) by lra; apply sqrt_le_1; lra]. }
  split; [exact (rl_sqrt _ _ _ (2.02 * a + 35 / 10 ^ 13) R4 ltac:(lra) ltac:(lra) ltac:(lra))|].
  split.
  - destruct (Rle_dec 1 D) as [C|C].
    + rewrite Rmin_right, Rmult_1_l by lra. rewrite <- (sqrt_square 0.999) by lra. apply sqrt_le_1; try lra. assert (I <= 1). { unfold I. rewrite <- Rinv_1. apply Rinv_le_contravar; nra. }
      apply Rle_trans with (/ 1.001); [lra|apply Rinv_le_contravar; unfold J; lra].
    + rewrite Rmin_left by lra. rewrite <- (sqrt_square (D * 0.999)) by nra. apply sqrt_le_1; [nra|lra|].
      assert (EI : I * (D * D) = 1) by (unfold I; field; lra). apply Rmult_le_reg_r with J; [lra|]. rewrite Rinv_l by lra. unfold J.
      replace (D * 0.999 * (D * 0.999) * (I + V)) with (0.998001 * (I * (D * D)) + 0.998001 * (D * D) * V) by lra. rewrite EI.
      assert (D * D <= 1 * 1) by (apply Rmult_le_compat; lra). assert (D * D * V <= 1 * / 1000) by (apply Rmult_le_compat; lra). lra.
  - apply Rle_trans with (sqrt (D * D)); [|right; apply sqrt_square; lra]. apply sqrt_le_1; try lra. rewrite <- (Rinv_inv (D * D)). fold I. apply Rinv_le_contravar; unfold J; lra.
Qed.
Definition bdevR (K b0 b1 RD V Z : R) : R :=
  Rmin (devR (if Rlt_dec K Z then if Req_EM_T K 0 then RD else (1 + (Z - K) * b0) * devR RD V + b1 else RD) V) 350.
Lemma nd_ap L d RD v V z Z n cfg : gb_usual cfg -> ap d RD 0 -> 1 <= RD <= 350 -> rl v V (31 / 10 ^ 13) -> / 10 ^ 9 <= V <= / 1000 ->
  ap z Z (n * (6 / 10 ^ 10)) -> Rabs Z <= 152 * n -> 1 <= n <= 100 -> B2R (gb_k cfg) = 0 \/ n / 10 ^ 9 < Rabs (Z - B2R (gb_k cfg)) ->
  let N := bdevR (B2R (gb_k cfg)) (B2R (gb_b0 cfg)) (B2R (gb_b1 cfg)) RD V Z in
  (forall x, Bdiv mode_NE one64 x = v -> rl (gb_new_deviation (A := B64A L) d x z cfg) N (n * (129 / 10 ^ 11))) /\ 0.9 <= N <= 350.
Proof.
  intros [_ [Nk [Nb [Nc _]]]] Ad BD Rv BV Az BZ Bn Gap N. pose proof v_lim as V0. pose proof ulim as U0.
  destruct (num_ap _ _ _ Nk) as [Ak Bk]. destruct (num_ap _ _ _ Nb) as [Ab Bb]. destruct (num_ap _ _ _ Nc) as [Ac Bc].
  set (K := B2R (gb_k cfg)) in *. set (b0 := B2R (gb_b0 cfg)) in *. set (b1 := B2R (gb_b1 cfg)) in *. pose proof (Rabs_le_inv _ _ BZ) as BZ'.
  destruct (dv_ap d v RD V 0 (rl_exact _ _ Ad ltac:(lra)) ltac:(lra) ltac:(lra) Rv BV) as [R1 B1]. apply (rl_weak _ _ _ (35 / 10 ^ 13)) in R1; [|lra|lra]. rewrite Rmin_right in B1 by lra.
  set (A := devR RD V) in *.
  pose (cond := Bltb (gb_k cfg) z && negb (Beqb (gb_k cfg) (b64_of_Z 0))).
  assert (EC : cond = if Rlt_dec K Z then if Req_EM_T K 0 then false else true else false).
  { unfold cond. rewrite (Bltb_ext _ _ (fin_nn _ (ap_fin _ _ _ Ak)) (fin_nn _ (ap_fin _ _ _ Az))), (Beqb_ext0 _ (ap_fin _ _ _ Ak)).
    assert (Ek : ext (gb_k cfg) = K) by (destruct Ak as [_ T]; apply Rabs_le_inv in T; lra). rewrite Ek. pose proof (ap_int _ _ _ Az) as IZ.
    destruct (Req_EM_T K 0) as [Q|Q]; [rewrite Req_bool_true by exact Q; rewrite andb_false_r; destruct Rlt_dec; reflexivity|]. rewrite Req_bool_false by exact Q. cbn [negb]. rewrite andb_true_r.
    destruct Gap as [Q'|Gap]; [contradiction|]. destruct (Rlt_dec K Z) as [C|C]; [apply Rlt_bool_true|apply Rlt_bool_false].
    - rewrite Rabs_pos_eq in Gap by lra. lra.
    - rewrite Rabs_left1 in Gap by lra. lra. }
  assert (HM : forall x, Bdiv mode_NE one64 x = v -> gb_new_deviation (A := B64A L) d x z cfg =
     if cond then b64_min (devB (Bfma mode_NE (Bfma mode_NE (Bminus mode_NE z (gb_k cfg)) (gb_b0 cfg) (b64_of_Z 1)) (devB d v) (gb_b1 cfg)) v) (b64_of_Z 350) else b64_min (devB d v) (b64_of_Z 350)) by (intros x <-; reflexivity).
  assert (Base : (forall x, Bdiv mode_NE one64 x = v -> cond = false -> rl (gb_new_deviation (A := B64A L) d x z cfg) (Rmin A 350) (n * (129 / 10 ^ 11))) /\ 0.9 <= Rmin A 350 <= 350).
  { split; [|split; [apply Rmin_glb; lra|apply Rmin_r]]. intros x Hx Cf. rewrite (HM x Hx), Cf. apply (rl_weak _ _ (35 / 10 ^ 13)); [apply rl_min; exact R1|lra|lra]. }
  unfold N, bdevR. destruct (Rlt_dec K Z) as [C|C]; [|destruct Base as [B2 B3]; split; [intros x Hx; apply B2; assumption|exact B3]].
  destruct (Req_EM_T K 0) as [Q|Q]; [destruct Base as [B2 B3]; split; [intros x Hx; apply B2; assumption|exact B3]|]. clear Base.
  destruct Gap as [Q'|Gap]; [contradiction|]. rewrite Rabs_pos_eq in Gap by lra. fold A.
  assert (un : 0 <= u0 * n <= 12 / 10 ^ 17 * n) by (split; [apply Rmult_le_pos; lra|apply Rmult_le_compat_r; lra]).
  pose proof (ap_sub _ _ _ _ _ _ (153 * n) Az Ak ltac:(rewrite Rabs_pos_eq; lra) ltac:(okb)) as S1. apply (ap_weak _ _ _ (n * (6001 / 10 ^ 13))) in S1; [|lra].
  assert (ZB : 0 <= (Z - K) * b0 <= 152 * n). { split; [apply Rmult_le_pos; lra|]. apply Rle_trans with (152 * n * 1); [apply Rmult_le_compat; lra|lra]. }
  set (X := (Z - K) * b0 + 1). assert (BX : 1 <= X <= 152 * n + 1) by (unfold X; lra). assert (uX : 0 <= u0 * X <= 12 / 10 ^ 17 * X) by (split; [apply Rmult_le_pos; lra|apply Rmult_le_compat_r; lra]).
  assert (nb : 0 <= n * (6001 / 10 ^ 13) * b0 <= n * (6001 / 10 ^ 13) * 1) by (split; [apply Rmult_le_pos; [|]; lra|apply Rmult_le_compat_l; lra]).
  pose proof (ap_fma _ _ _ _ _ _ _ _ _ (Z - K) 1 (1.01 * X) S1 Ab (ap_Z 1 ltac:(vm_compute; discriminate)) ltac:(rewrite Rabs_pos_eq; lra) ltac:(rewrite Rabs_pos_eq; lra) ltac:(fold X; rewrite Rabs_pos_eq; lra) ltac:(okb)) as S2. fold X in S2.
  assert (RX : rl (Bfma mode_NE (Bminus mode_NE z (gb_k cfg)) (gb_b0 cfg) (b64_of_Z 1)) X (n * (601 / 10 ^ 12))).
  { split; [lra|]. split; [lra|]. apply (ap_weak _ _ _ _ S2). assert (n * (601 / 10 ^ 12) * 1 <= n * (601 / 10 ^ 12) * X) by (apply Rmult_le_compat_l; lra).
    assert (1 * X <= n * X) by (apply Rmult_le_compat_r; lra). lra. }
  assert (XA : 0.99 <= X * A <= 350 * (152 * n + 1)). { split; [apply Rle_trans with (1 * 0.99); [lra|apply Rmult_le_compat; lra]|rewrite Rmult_comm; apply Rmult_le_compat; lra]. }
  assert (nc : 0 <= n * (601 / 10 ^ 12) * (35 / 10 ^ 13) <= / 10 ^ 18) by (split; [repeat apply Rmult_le_pos; lra|lra]).
  pose proof (rl_fma0 _ _ _ _ _ _ _ _ (n * (61 / 10 ^ 11)) RX R1 Ac ltac:(lra) ltac:(lra) ltac:(lra) ltac:(lra)) as R2.
  replace ((1 + (Z - K) * b0) * A + b1) with (X * A + b1) by (unfold X; ring).
  destruct (dv_ap _ v _ V _ R2 ltac:(lra) ltac:(lra) Rv BV) as [R3 B3]. apply (rl_weak _ _ _ (n * (129 / 10 ^ 11))) in R3; [|lra|lra].
  split; [|split; [|apply Rmin_r]].
  - intros x Hx. rewrite (HM x Hx), EC. apply rl_min. exact R3.
  - apply Rmin_glb; [|lra]. apply Rle_trans with (2 := proj1 B3). apply Rle_trans with (0.99 * 0.999); [lra|]. apply Rmult_le_compat_r; [lra|]. apply Rmin_glb; lra.
Qed.
