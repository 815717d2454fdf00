(** Proofs of C134: the same result against a less certain opponent counts less. *)
From Coq Require Import ZArith NArith List Bool Reals Lra Lia.
From Verif Require Import Arith XR Tac ModelLib ModelGlicko ModelSticko ModelWengLin ModelTS
  Spec SpecTS SpecInTS SpecDraw ProofGlicko ProofSticko ProofWengLin ProofTS ProofTSAcc MathTS MathTSMono MathTSNorm2 ProofTSOrder ProofTriangle ProofRematch ProofConvert ProofDraw.
Import Spec ListNotations.
Local Open Scope R_scope.

(** The change after one game, with the attenuation g and the expected score L. *)
Definition one_gain (q P g s L : R) : R := q * / (/ P + q ^ 2 * (g ^ 2 * L * (1 - L))) * (g * (s - L)).
Lemma one_gain_lt q P g g' s L L' : 0 < q -> 0 < P -> 0 < g' < g -> 0 < L -> L <= L' -> L' <= 1 / 2 -> L' < s -> P * q ^ 2 * (g * g') < 4 -> 0 < one_gain q P g' s L' < one_gain q P g s L.
Proof.
  intros Hq HP Hg HL HLL HL' Hs HK. set (D := / P + q ^ 2 * (g ^ 2 * L * (1 - L))). set (D' := / P + q ^ 2 * (g' ^ 2 * L' * (1 - L'))).
  assert (IP : 0 < / P) by (now apply Rinv_0_lt_compat). assert (Q2 : 0 < q ^ 2) by (now apply pow_lt).
  assert (N : 0 <= q ^ 2 * (g ^ 2 * L * (1 - L))) by (apply Rmult_le_pos; [lra|]; apply Rmult_le_pos; [apply Rmult_le_pos; [apply pow2_ge_0|lra]|lra]).
  assert (N' : 0 <= q ^ 2 * (g' ^ 2 * L' * (1 - L'))) by (apply Rmult_le_pos; [lra|]; apply Rmult_le_pos; [apply Rmult_le_pos; [apply pow2_ge_0|lra]|lra]).
  assert (D0 : 0 < D) by (unfold D; lra). assert (D0' : 0 < D') by (unfold D'; lra).
  unfold one_gain. fold D D'. assert (A0 : 0 < g * (s - L)) by (apply Rmult_lt_0_compat; lra). assert (A0' : 0 < g' * (s - L')) by (apply Rmult_lt_0_compat; lra).
  split. { apply Rmult_lt_0_compat; [apply Rmult_lt_0_compat; [auto|now apply Rinv_0_lt_compat]|auto]. }
  rewrite !Rmult_assoc. apply Rmult_lt_compat_l; [auto|]. apply Rmult_lt_reg_r with (D * D'); [now apply Rmult_lt_0_compat|].
  replace (/ D' * (g' * (s - L')) * (D * D')) with (g' * (s - L') * D) by (field; lra). replace (/ D * (g * (s - L)) * (D * D')) with (g * (s - L) * D') by (field; lra).
  unfold D, D'. apply Rminus_gt_0_lt.
  (* split into the prior and the information of the game *)
  assert (E1 : 0 < / P * (g * (s - L) - g' * (s - L') )) by (apply Rmult_lt_0_compat; [auto|]; nra).
  assert (T : (s - L') * (L * (1 - L)) <= (s - L) * (L' * (1 - L'))).
  { assert (0 <= (L' - L) * ((1 - L - L') * s + L * L')); [|nra]. apply Rmult_le_pos; [lra|]. assert (0 <= (1 - L - L') * s) by (apply Rmult_le_pos; lra). assert (0 <= L * L') by (apply Rmult_le_pos; lra). lra. }
  set (X := (s - L') * (L * (1 - L))) in *. assert (X0 : 0 < X) by (unfold X; apply Rmult_lt_0_compat; [lra|apply Rmult_lt_0_compat; lra]).
  assert (L4 : L * (1 - L) <= 1 / 4) by (pose proof (pow2_ge_0 (L - 1 / 2)); nra).
  assert (L0 : 0 < L * (1 - L)) by (apply Rmult_lt_0_compat; lra).
  assert (KK : q ^ 2 * (g * g') * (L * (1 - L)) < / P). { apply Rmult_lt_reg_l with P; [auto|]. rewrite Rinv_r by lra. assert (Y : 0 < P * q ^ 2 * (g * g')) by (apply Rmult_lt_0_compat; [apply Rmult_lt_0_compat; lra|apply Rmult_lt_0_compat; lra]).
    assert (P * q ^ 2 * (g * g') * (L * (1 - L)) <= P * q ^ 2 * (g * g') * (1 / 4)) by (apply Rmult_le_compat_l; lra). lra. }
  assert (G1 : g * (s - L) * (q ^ 2 * (g' ^ 2 * L' * (1 - L'))) - g' * (s - L') * (q ^ 2 * (g ^ 2 * L * (1 - L))) >= - (g - g') * (s - L') * (q ^ 2 * (g * g') * (L * (1 - L)))).
  { replace (g * (s - L) * (q ^ 2 * (g' ^ 2 * L' * (1 - L')))) with (q ^ 2 * (g * g') * g' * ((s - L) * (L' * (1 - L')))) by ring. replace (g' * (s - L') * (q ^ 2 * (g ^ 2 * L * (1 - L)))) with (q ^ 2 * (g * g') * g * X) by (unfold X; ring).
    replace (- (g - g') * (s - L') * (q ^ 2 * (g * g') * (L * (1 - L)))) with (q ^ 2 * (g * g') * (g' * X - g * X)) by (unfold X; ring).
    assert (0 <= q ^ 2 * (g * g') * g') by (apply Rmult_le_pos; [apply Rmult_le_pos; [lra|nra]|lra]). assert (q ^ 2 * (g * g') * g' * X <= q ^ 2 * (g * g') * g' * ((s - L) * (L' * (1 - L')))) by (apply Rmult_le_compat_l; auto). lra. }
  assert (G2 : (g - g') * (s - L') * (q ^ 2 * (g * g') * (L * (1 - L))) < (g - g') * (s - L') * / P) by (apply Rmult_lt_compat_l; [apply Rmult_lt_0_compat; lra|auto]).
  assert (G3 : / P * (g * (s - L) - g' * (s - L')) - (g - g') * (s - L') * / P = / P * (g * (L' - L))) by ring.
  assert (0 <= / P * (g * (L' - L))) by (apply Rmult_le_pos; [lra|apply Rmult_le_pos; lra]). lra.
Qed.
Lemma gq_small RD : 0 < RD <= 347 -> RD ^ 2 * gq ^ 2 < 4.
Proof. intros H. pose proof ln10_tight. pose proof gq_pos. assert (RD * gq <= 347 * (23025851 / 10000000 / 400)) by (apply Rmult_le_compat; unfold gq in *; lra). assert (0 < RD * gq) by (now apply Rmult_lt_0_compat). nra. Qed.
(** A game seen from the side of a player [a] >= 0 points below the opponent. *)
Lemma under_gain RD a RD2 RD2' s : 0 < RD <= 347 -> 0 <= RD2 < RD2' -> 0 <= a -> s = 1 \/ (s = 1 / 2 /\ 0 < a) ->
  0 < one_gain gq (RD ^ 2) (gg RD2') s (lg (gq * gg RD2' * a)) < one_gain gq (RD ^ 2) (gg RD2) s (lg (gq * gg RD2 * a)).
Proof.
  intros HR H2 Ha Hs. pose proof gq_pos as Q. pose proof (gg_range RD2) as G. pose proof (gg_range RD2') as G'. pose proof (gg_lt RD2 RD2' H2) as GL. pose proof (gq_small RD HR) as K.
  assert (M : gq * gg RD2' * a <= gq * gg RD2 * a) by (apply Rmult_le_compat_r; [auto|apply Rmult_le_compat_l; lra]). assert (U : 0 <= gq * gg RD2' * a) by (apply Rmult_le_pos; [apply Rmult_le_pos; lra|auto]).
  apply one_gain_lt; [auto|apply pow_lt; lra|lra|apply lg_range| | | |].
  - destruct M as [M|M]; [left; now apply lg_lt|rewrite M; lra].
  - rewrite <- lg_0. destruct U as [U|U]; [left; now apply lg_lt|rewrite <- U; lra].
  - destruct Hs as [->|[-> h]]; [apply lg_range|]. rewrite <- lg_0. apply lg_lt. apply Rmult_lt_0_compat; [apply Rmult_lt_0_compat; lra|auto].
  - assert (0 < RD ^ 2 * gq ^ 2) by (apply Rmult_lt_0_compat; apply pow_lt; lra). assert (gg RD2 * gg RD2' <= 1 * 1) by (apply Rmult_le_compat; lra). assert (0 < gg RD2 * gg RD2') by (apply Rmult_lt_0_compat; lra). nra.
Qed.
Lemma glicko_gain r RD r2 RD2 s : 0 < RD -> glicko_r r RD [(r2, RD2, s)] = r + one_gain gq (RD ^ 2) (gg RD2) s (gE r r2 RD2).
Proof. intros H. destruct (glicko_one r RD r2 RD2 s H) as (_ & E & _). rewrite E. unfold one_gain. reflexivity. Qed.
Lemma glicko_loss r RD r2 RD2 s : 0 < RD -> glicko_r r RD [(r2, RD2, s)] = r - one_gain gq (RD ^ 2) (gg RD2) (1 - s) (lg (gq * gg RD2 * (r - r2))).
Proof.
  intros H. rewrite glicko_gain by auto. assert (E : gE r r2 RD2 = 1 - lg (gq * gg RD2 * (r - r2))) by (rewrite gE_lg, <- lg_neg; f_equal; ring). rewrite E. unfold one_gain. set (L := lg _).
  replace (gg RD2 ^ 2 * (1 - L) * (1 - (1 - L))) with (gg RD2 ^ 2 * L * (1 - L)) by ring. ring.
Qed.
(** The rating after one game, against opponents of two different deviations. *)
Lemma glicko_less r RD r2 RD2 RD2' o : 0 < RD <= 347 -> 0 <= RD2 < RD2' ->
  (r <= r2 -> o = WIN \/ (o = DRAW /\ r < r2) -> r < glicko_r r RD [(r2, RD2', points o)] < glicko_r r RD [(r2, RD2, points o)]) /\
  (r2 <= r -> o = LOSS \/ (o = DRAW /\ r2 < r) -> glicko_r r RD [(r2, RD2, points o)] < glicko_r r RD [(r2, RD2', points o)] < r).
Proof.
  intros HR H2. split; intros Hr Ho.
  - rewrite !glicko_gain, !gE_lg by lra. pose proof (under_gain RD (r2 - r) RD2 RD2' (points o) HR H2 ltac:(lra)) as U. destruct U; [destruct Ho as [->|[-> h]]; cbn [points]; [left|right]; [auto|split; [auto|lra]]|lra].
  - rewrite !glicko_loss by lra. pose proof (under_gain RD (r - r2) RD2 RD2' (1 - points o) HR H2 ltac:(lra)) as U. destruct U; [destruct Ho as [->|[-> h]]; cbn [points]; [left|right]; [lra|split; [lra|lra]]|lra].
Qed.
Lemma gpre_347 RD c : 0 < RD -> RD ^ 2 + c ^ 2 <= 347 ^ 2 -> 0 < gpre RD c <= 347.
Proof.
  intros H1 H2. split; [now apply gpre_pos|]. unfold gpre. eapply Rle_trans; [apply Rmin_l|]. rewrite <- (sqrt_pow2 347) by lra. now apply sqrt_le_1_alt.
Qed.
Lemma C134_glicko_proof : forall r RD r2 RD2 RD2' c o, 0 < RD -> RD ^ 2 + c ^ 2 <= 347 ^ 2 -> 0 < RD2 < RD2' -> exists x x',
  gl_rating (fst (glicko (mkGlicko (Fin r) (Fin RD)) (mkGlicko (Fin r2) (Fin RD2)) o (mkGlickoConfig (Fin c)))) = Fin x /\
  gl_rating (fst (glicko (mkGlicko (Fin r) (Fin RD)) (mkGlicko (Fin r2) (Fin RD2')) o (mkGlickoConfig (Fin c)))) = Fin x' /\
  (r <= r2 -> o = WIN \/ (o = DRAW /\ r < r2) -> r < x' < x) /\ (r2 <= r -> o = LOSS \/ (o = DRAW /\ r2 < r) -> x < x' < r).
Proof.
  intros r RD r2 RD2 RD2' c o H1 Hc H2. rewrite !C26_proof by lra. cbn [fst gl_rating]. do 2 eexists. do 2 (split; [reflexivity|]). apply glicko_less; [now apply gpre_347|lra].
Qed.
Lemma C134_sticko_proof : forall r RD r2 RD2 RD2' h lambda c o, 0 < RD -> RD ^ 2 + c ^ 2 <= 347 ^ 2 -> 0 < RD2 < RD2' -> 0 <= h -> exists x x',
  st_rating (fst (sticko (mkSticko (Fin r) (Fin RD)) (mkSticko (Fin r2) (Fin RD2)) o (mkStickoConfig (Fin h) (Fin 0) (Fin lambda) (Fin 0) (Fin c)))) = Fin x /\
  st_rating (fst (sticko (mkSticko (Fin r) (Fin RD)) (mkSticko (Fin r2) (Fin RD2')) o (mkStickoConfig (Fin h) (Fin 0) (Fin lambda) (Fin 0) (Fin c)))) = Fin x' /\
  (r <= r2 -> o = WIN \/ (o = DRAW /\ r < r2) -> x' < x) /\ (r2 <= r -> o = LOSS \/ (o = DRAW /\ r2 < r) -> x < x').
Proof.
  intros r RD r2 RD2 RD2' h lambda c o H1 Hc H2 Hh. rewrite !C33_game_proof by lra. cbn [fst st_rating]. do 2 eexists. do 2 (split; [reflexivity|]).
  unfold sticko_r, st_game. cbn [map]. rewrite Rminus_0_r, Rplus_0_r. destruct (glicko_less r (gpre RD c) r2 RD2 RD2' o (gpre_347 RD c H1 Hc) ltac:(lra)) as [A B]. split; intros X Y; [specialize (A X Y)|specialize (B X Y)]; lra.
Qed.
(** A fresh player (RD 350) gains more by beating an equal with RD 30 than one with RD 1. *)
Lemma C134_glicko_fresh_refuted_proof : forall r c, exists x x',
  gl_rating (fst (glicko (mkGlicko (Fin r) (Fin 350)) (mkGlicko (Fin r) (Fin 1)) WIN (mkGlickoConfig (Fin c)))) = Fin x /\
  gl_rating (fst (glicko (mkGlicko (Fin r) (Fin 350)) (mkGlicko (Fin r) (Fin 30)) WIN (mkGlickoConfig (Fin c)))) = Fin x' /\ r < x < x'.
Proof.
  intros r c. rewrite !C26_proof by lra. cbn [fst gl_rating points]. do 2 eexists. do 2 (split; [reflexivity|]).
  assert (P : gpre 350 c = 350). { unfold gpre. apply Rmin_right. rewrite <- (sqrt_pow2 350) at 1 by lra. apply sqrt_le_1_alt. pose proof (pow2_ge_0 c). lra. }
  rewrite P, !glicko_gain by lra. assert (E : forall h, gE r r h = 1 / 2) by (intros h; rewrite gE_lg, Rminus_diag_eq, Rmult_0_r by reflexivity; apply lg_0). rewrite !E.
  pose proof gq_pos as Q. pose proof (gg_range 1) as G. pose proof (gg_range 30) as G'. pose proof (gg_lt 1 30 ltac:(lra)) as GL. pose proof ln10_tight as LT.
  assert (QQ : 2302585 / 1000000 / 400 < gq < 23025851 / 10000000 / 400) by (unfold gq; lra).
  assert (G30 : 995 / 1000 <= gg 30).
  { rewrite <- (sqrt_pow2 30) by lra. rewrite gg_sqrt by lra. assert (K : kq * 30 ^ 2 <= 1 / 100).
    { unfold kq. assert (3 <= PI) by (pose proof PI_RGT_0; pose proof PI2_3_2; unfold PI2 in *; lra). assert (gq ^ 2 <= (23025851 / 10000000 / 400) ^ 2) by (apply pow_incr; lra). assert (0 < gq ^ 2) by (now apply pow_lt).
      assert (9 <= PI ^ 2) by nra. apply Rmult_le_reg_r with (PI ^ 2); [lra|]. replace (3 * gq ^ 2 / PI ^ 2 * 30 ^ 2 * PI ^ 2) with (2700 * gq ^ 2) by (field; lra). nra. }
    pose proof kq_pos. rewrite <- (Rinv_inv (995 / 1000)) by lra. apply Rinv_le_contravar; [apply sqrt_lt_R0; lra|]. rewrite <- (sqrt_pow2 (/ (995 / 1000))) by lra. apply sqrt_le_1_alt. lra. }
  assert (K : forall g, 0 < g -> one_gain gq (350 ^ 2) g 1 (1 / 2) = 350 ^ 2 * gq * (g / (2 + 350 ^ 2 * gq ^ 2 / 2 * g ^ 2))).
  { intros g Hg. unfold one_gain. field. assert (0 < gq ^ 2 * g ^ 2) by (apply Rmult_lt_0_compat; apply pow_lt; auto). repeat split; try lra; nra. }
  rewrite !K by lra. set (k := 350 ^ 2 * gq ^ 2 / 2). assert (K2 : 405 / 200 <= k) by (unfold k; assert ((2302585 / 1000000 / 400) ^ 2 <= gq ^ 2) by (apply pow_incr; lra); lra).
  assert (W : 0 < 350 ^ 2 * gq) by lra. set (g := gg 1) in *. set (g' := gg 30) in *.
  assert (D : 0 < 2 + k * g ^ 2) by nra. assert (D' : 0 < 2 + k * g' ^ 2) by nra. split.
  - assert (0 < g / (2 + k * g ^ 2)) by (apply Rdiv_lt_0_compat; lra). nra.
  - apply Rplus_lt_compat_l, Rmult_lt_compat_l; [auto|]. apply Rmult_lt_reg_r with ((2 + k * g ^ 2) * (2 + k * g' ^ 2)); [nra|].
    replace (g / (2 + k * g ^ 2) * ((2 + k * g ^ 2) * (2 + k * g' ^ 2))) with (g * (2 + k * g' ^ 2)) by (field; lra). replace (g' / (2 + k * g' ^ 2) * ((2 + k * g ^ 2) * (2 + k * g' ^ 2))) with (g' * (2 + k * g ^ 2)) by (field; lra).
    assert (GP : (995 / 1000) * (995 / 1000) <= g * g') by (apply Rmult_le_compat; lra). assert (KG : 405 / 200 * ((995 / 1000) * (995 / 1000)) <= k * (g * g')) by (apply Rmult_le_compat; lra). assert (0 < (g - g') * (k * (g * g') - 2)) by (apply Rmult_lt_0_compat; lra). lra.
Qed.
(** A favourite gains more by beating a less certain opponent, far enough below. *)
Lemma C134_glicko_favourite_refuted_proof : forall r RD RD2 RD2' c, 0 < RD -> 0 < RD2 < RD2' -> exists r2 x x', r2 < r /\
  gl_rating (fst (glicko (mkGlicko (Fin r) (Fin RD)) (mkGlicko (Fin r2) (Fin RD2)) WIN (mkGlickoConfig (Fin c)))) = Fin x /\
  gl_rating (fst (glicko (mkGlicko (Fin r) (Fin RD)) (mkGlicko (Fin r2) (Fin RD2')) WIN (mkGlickoConfig (Fin c)))) = Fin x' /\ r < x < x'.
Proof.
  intros r RD RD2 RD2' c H1 H2. pose proof gq_pos as Q. pose proof (gg_range RD2) as G. pose proof (gg_range RD2') as G'. pose proof (gg_lt RD2 RD2' ltac:(lra)) as GL. pose proof (gpre_pos RD c H1) as R0. set (P := gpre RD c) in *.
  set (g := gg RD2) in *. set (g' := gg RD2') in *. assert (P2 : 0 < P ^ 2) by (now apply pow_lt). pose proof (Rinv_0_lt_compat _ P2) as IP. set (M := 2 * g * P ^ 2 * (/ P ^ 2 + gq ^ 2) / g'). assert (Q2 : 0 < gq ^ 2) by (now apply pow_lt).
  assert (M0 : 0 < M) by (unfold M; apply Rdiv_lt_0_compat; [|lra]; apply Rmult_lt_0_compat; [apply Rmult_lt_0_compat; lra|lra]).
  set (b := M / (gq * (g - g'))). assert (GG : 0 < gq * (g - g')) by (apply Rmult_lt_0_compat; lra). assert (B0 : 0 < b) by (unfold b; apply Rdiv_lt_0_compat; auto).
  exists (r - b). rewrite !C26_proof by lra. cbn [fst gl_rating points]. fold P. do 2 eexists. split; [lra|]. do 2 (split; [reflexivity|]). rewrite !glicko_gain by auto. fold g g'.
  assert (E : forall h, gE r (r - b) h = 1 - lg (gq * gg h * b)) by (intros h; rewrite gE_lg, <- lg_neg; f_equal; ring). rewrite !E. fold g g'. set (w := gq * g * b). set (w' := gq * g' * b).
  pose proof (lg_range w) as Lw. pose proof (lg_range w') as Lw'. unfold one_gain.
  replace (1 - (1 - lg w)) with (lg w) by ring. replace (1 - (1 - lg w')) with (lg w') by ring. set (L := lg w) in *. set (L' := lg w') in *.
  assert (B : forall g L, 0 < g <= 1 -> 0 < L < 1 -> 0 < g ^ 2 * (1 - L) * L <= 1).
  { intros x y Hx Hy. assert (0 < x ^ 2 <= 1) by (split; [apply pow_lt; lra|nra]). assert (0 < (1 - y) * y <= 1) by (split; nra). split; nra. }
  pose proof (B g L G Lw) as B1. pose proof (B g' L' G' Lw') as B2. clear B. set (I1 := g ^ 2 * (1 - L) * L) in *. set (I2 := g' ^ 2 * (1 - L') * L') in *.
  assert (D1 : / P ^ 2 < / P ^ 2 + gq ^ 2 * I1) by nra. assert (D2 : / P ^ 2 + gq ^ 2 * I2 <= / P ^ 2 + gq ^ 2) by nra.
  assert (F1 : 0 < / (/ P ^ 2 + gq ^ 2 * I1) < P ^ 2). { split; [apply Rinv_0_lt_compat; lra|]. rewrite <- (Rinv_inv (P ^ 2)) at 2 by lra. apply Rinv_lt_contravar; [apply Rmult_lt_0_compat; lra|lra]. }
  assert (F2 : / (/ P ^ 2 + gq ^ 2) <= / (/ P ^ 2 + gq ^ 2 * I2)) by (apply Rinv_le_contravar; [nra|lra]).
  (* tails of the logistic function *)
  assert (T1 : L < exp (- w)). { unfold L, lg. rewrite exp_Ropp. pose proof (exp_pos w). apply Rinv_lt_contravar; [nra|lra]. }
  assert (T2 : exp (- w') / 2 <= L'). { unfold L', lg. rewrite exp_Ropp. assert (0 <= w') by (unfold w'; apply Rmult_le_pos; [apply Rmult_le_pos; lra|lra]). assert (1 <= exp w') by (pose proof (exp_ineq1_le w'); lra). replace (/ exp w' / 2) with (/ (2 * exp w')) by (field; lra). apply Rinv_le_contravar; lra. }
  assert (T3 : M * exp (- w) < exp (- w')). { assert (WW : - w' = M + - w) by (unfold w, w', b; field; split; lra). rewrite WW, exp_plus. apply Rmult_lt_compat_r; [apply exp_pos|]. pose proof (exp_ineq1 M ltac:(lra)). lra. }
  assert (S1 : 0 < gq * / (/ P ^ 2 + gq ^ 2 * I1) * (g * L) < gq * (P ^ 2 * (g * exp (- w)))).
  { split; [apply Rmult_lt_0_compat; [apply Rmult_lt_0_compat; lra|apply Rmult_lt_0_compat; lra]|]. rewrite Rmult_assoc. apply Rmult_lt_compat_l; [auto|]. apply Rmult_gt_0_lt_compat; [apply Rmult_lt_0_compat; lra|auto|lra|apply Rmult_lt_compat_l; lra]. }
  assert (S2 : gq * (/ (/ P ^ 2 + gq ^ 2) * (g' * (exp (- w') / 2))) <= gq * / (/ P ^ 2 + gq ^ 2 * I2) * (g' * L')).
  { rewrite Rmult_assoc. apply Rmult_le_compat_l; [lra|]. pose proof (exp_pos (- w')). apply Rmult_le_compat; [left; apply Rinv_0_lt_compat; lra|apply Rmult_le_pos; lra|auto|apply Rmult_le_compat_l; lra]. }
  assert (S3 : gq * (P ^ 2 * (g * exp (- w))) < gq * (/ (/ P ^ 2 + gq ^ 2) * (g' * (exp (- w') / 2)))).
  { apply Rmult_lt_compat_l; [auto|]. replace (P ^ 2 * (g * exp (- w))) with (/ (/ P ^ 2 + gq ^ 2) * (g' * (M * exp (- w) / 2))) by (unfold M; field; repeat split; try lra; nra).
    apply Rmult_lt_compat_l; [apply Rinv_0_lt_compat; lra|]. apply Rmult_lt_compat_l; lra. }
  lra.
Qed.
(** Weng-Lin *)
Lemma C134_wl_proof : forall m s m2 s2 s2' beta kappa o, 0 < s -> 0 < s2 < s2' -> 0 < kappa <= 1 -> exists x x',
  wl_rating (fst (weng_lin (mkWL (Fin m) (Fin s)) (mkWL (Fin m2) (Fin s2)) o (mkWLConfig (Fin beta) (Fin kappa)))) = Fin x /\
  wl_rating (fst (weng_lin (mkWL (Fin m) (Fin s)) (mkWL (Fin m2) (Fin s2')) o (mkWLConfig (Fin beta) (Fin kappa)))) = Fin x' /\
  (m <= m2 -> o = WIN \/ (o = DRAW /\ m < m2) -> m < x' < x) /\ (m2 <= m -> o = LOSS \/ (o = DRAW /\ m2 < m) -> x < x' < m).
Proof.
  intros m s m2 s2 s2' beta kappa o H1 H2 Hk. destruct (C42_proof m s m2 s2 o beta kappa H1 ltac:(lra) Hk) as (x & u & y & v & -> & X & _). destruct (C42_proof m s m2 s2' o beta kappa H1 ltac:(lra) Hk) as (x' & u' & y' & v' & -> & X' & _).
  cbn [fst wl_rating]. exists x, x'. do 2 (split; [reflexivity|]). set (c := sqrt (s ^ 2 + s2 ^ 2 + 2 * beta ^ 2)) in *. set (c' := sqrt (s ^ 2 + s2' ^ 2 + 2 * beta ^ 2)) in *.
  pose proof (pow_lt s 2 H1) as S0. pose proof (pow2_ge_0 s2). pose proof (pow2_ge_0 beta). assert (s2 ^ 2 < s2' ^ 2) by nra.
  assert (C0 : 0 < c) by (apply sqrt_lt_R0; lra). assert (CC : c < c') by (apply sqrt_lt_1_alt; lra). assert (IC : 0 < / c' < / c) by (split; [apply Rinv_0_lt_compat; lra|apply Rinv_lt_contravar; [apply Rmult_lt_0_compat; lra|lra]]).
  change (/ (1 + exp ((m2 - m) / c))) with (lg ((m2 - m) / c)) in X. change (/ (1 + exp ((m2 - m) / c'))) with (lg ((m2 - m) / c')) in X'.
  assert (A : forall a t, 0 <= a -> t = 1 \/ (t = 1 / 2 /\ 0 < a) -> 0 < s ^ 2 / c' * (t - lg (a / c')) < s ^ 2 / c * (t - lg (a / c))).
  { intros a t Ha Ht. assert (LL : lg (a / c) <= lg (a / c')) by (destruct Ha as [Ha| <-]; [left; apply lg_lt; unfold Rdiv; nra|right; unfold Rdiv; now rewrite !Rmult_0_l]).
    assert (LT : lg (a / c') < t) by (destruct Ht as [->|[-> h]]; [apply lg_range|rewrite <- lg_0; apply lg_lt; apply Rdiv_lt_0_compat; lra]). unfold Rdiv at 1 3.
    assert (0 < s ^ 2 * / c') by (apply Rmult_lt_0_compat; lra). assert (s ^ 2 * / c' < s ^ 2 * / c) by (apply Rmult_lt_compat_l; lra). split; [apply Rmult_lt_0_compat; lra|]. unfold Rdiv in *. nra. }
  split; intros Hm Ho.
  - pose proof (A (m2 - m) (points o) ltac:(lra)) as B. destruct B; [destruct Ho as [->|[-> h]]; cbn [points]; [left|right]; [auto|split; [auto|lra]]|lra].
  - pose proof (A (m - m2) (1 - points o) ltac:(lra)) as B. assert (E : forall d, lg ((m2 - m) / d) = 1 - lg ((m - m2) / d)) by (intros d; rewrite <- lg_neg; f_equal; unfold Rdiv; ring). rewrite !E in *.
    destruct B; [destruct Ho as [->|[-> h]]; cbn [points]; [left|right]; [lra|split; [lra|lra]]|lra].
Qed.
Lemma C134_wl_refuted_proof : forall m s s2 s2' beta kappa, 0 < s -> 0 < s2 < s2' -> 0 < kappa <= 1 -> exists m2 x x', m2 < m /\
  wl_rating (fst (weng_lin (mkWL (Fin m) (Fin s)) (mkWL (Fin m2) (Fin s2)) WIN (mkWLConfig (Fin beta) (Fin kappa)))) = Fin x /\
  wl_rating (fst (weng_lin (mkWL (Fin m) (Fin s)) (mkWL (Fin m2) (Fin s2')) WIN (mkWLConfig (Fin beta) (Fin kappa)))) = Fin x' /\ m < x < x'.
Proof.
  intros m s s2 s2' beta kappa H1 H2 Hk. set (c := sqrt (s ^ 2 + s2 ^ 2 + 2 * beta ^ 2)). set (c' := sqrt (s ^ 2 + s2' ^ 2 + 2 * beta ^ 2)).
  pose proof (pow_lt s 2 H1) as S0. pose proof (pow2_ge_0 s2). pose proof (pow2_ge_0 beta). assert (s2 ^ 2 < s2' ^ 2) by nra.
  assert (C0 : 0 < c) by (apply sqrt_lt_R0; lra). assert (CC : c < c') by (apply sqrt_lt_1_alt; lra). assert (IC : 0 < / c' < / c) by (split; [apply Rinv_0_lt_compat; lra|apply Rinv_lt_contravar; [apply Rmult_lt_0_compat; lra|lra]]).
  set (M := 2 * c' / c). assert (M0 : 0 < M) by (unfold M; apply Rdiv_lt_0_compat; lra). set (b := M / (/ c - / c')). assert (B0 : 0 < b) by (unfold b; apply Rdiv_lt_0_compat; lra).
  exists (m - b). destruct (C42_proof m s (m - b) s2 WIN beta kappa H1 ltac:(lra) Hk) as (x & u & y & v & -> & X & _). destruct (C42_proof m s (m - b) s2' WIN beta kappa H1 ltac:(lra) Hk) as (x' & u' & y' & v' & -> & X' & _).
  cbn [fst wl_rating]. exists x, x'. split; [lra|]. do 2 (split; [reflexivity|]). fold c in X. fold c' in X'. cbn [points] in X, X'.
  change (/ (1 + exp ((m - b - m) / c))) with (lg ((m - b - m) / c)) in X. change (/ (1 + exp ((m - b - m) / c'))) with (lg ((m - b - m) / c')) in X'.
  assert (E : forall d, lg ((m - b - m) / d) = 1 - lg (b / d)) by (intros d; rewrite <- lg_neg; f_equal; unfold Rdiv; ring). rewrite E in X, X'. clear E.
  assert (T1 : 0 < lg (b / c) < exp (- (b / c))). { split; [apply lg_range|]. unfold lg. rewrite exp_Ropp. pose proof (exp_pos (b / c)). apply Rinv_lt_contravar; [nra|lra]. }
  assert (T2 : exp (- (b / c')) / 2 <= lg (b / c')). { unfold lg. rewrite exp_Ropp. assert (0 < b / c') by (apply Rdiv_lt_0_compat; lra). assert (1 <= exp (b / c')) by (pose proof (exp_ineq1_le (b / c')); lra). replace (/ exp (b / c') / 2) with (/ (2 * exp (b / c'))) by (field; lra). apply Rinv_le_contravar; lra. }
  assert (T3 : M * exp (- (b / c)) < exp (- (b / c'))). { assert (WW : - (b / c') = M + - (b / c)) by (unfold b; field; repeat split; try lra; nra). rewrite WW, exp_plus. apply Rmult_lt_compat_r; [apply exp_pos|]. pose proof (exp_ineq1 M ltac:(lra)). lra. }
  assert (Y1 : 0 < s ^ 2 / c * lg (b / c) < s ^ 2 / c * exp (- (b / c))) by (assert (0 < s ^ 2 / c) by (apply Rdiv_lt_0_compat; lra); split; [apply Rmult_lt_0_compat; lra|apply Rmult_lt_compat_l; lra]).
  assert (Y2 : s ^ 2 / c * exp (- (b / c)) < s ^ 2 / c' * lg (b / c')).
  { replace (s ^ 2 / c * exp (- (b / c))) with (s ^ 2 / c' * (M * exp (- (b / c)) / 2)) by (unfold M; field; lra). apply Rmult_lt_compat_l; [apply Rdiv_lt_0_compat; lra|lra]. }
  rewrite X, X'. lra.
Qed.
(** TrueSkill *)
Lemma C134_ts_proof : forall m s m2 s2 s2' dp beta tau e o, 0 < s -> 0 < s2 < s2' -> 0 <= dp <= 1 -> 0 <= beta -> ts_draw_margin (Fin dp) (Fin beta) (Fin 2) = Fin e -> Rabs (m2 - m) + e <= 26 * sqrt (2 * beta ^ 2 + s ^ 2 + s2 ^ 2) -> exists x x',
  ts_rating (fst (trueskill (ts_in (m, s)) (ts_in (m2, s2)) o (ts_cfg dp beta tau))) = Fin x /\
  ts_rating (fst (trueskill (ts_in (m, s)) (ts_in (m2, s2')) o (ts_cfg dp beta tau))) = Fin x' /\
  (m <= m2 -> o = WIN -> m < x' < x) /\ (m2 <= m -> o = LOSS -> x < x' < m).
Proof.
  intros m s m2 s2 s2' dp beta tau e o H1 H2 Hd Hb He HT. destruct (ts_rate m s m2 s2 o dp beta tau e H1 ltac:(lra) He) as (Hc & HV & E1). destruct (ts_rate m s m2 s2' o dp beta tau e H1 ltac:(lra) He) as (Hc' & _ & E2).
  set (c := sqrt (2 * beta ^ 2 + s ^ 2 + s2 ^ 2)) in *. set (c' := sqrt (2 * beta ^ 2 + s ^ 2 + s2' ^ 2)) in *. do 2 eexists. split; [exact E1|]. split; [exact E2|]. clear E1 E2.
  assert (CC : c < c') by (apply sqrt_lt_1_alt; pose proof (pow2_ge_0 beta); pose proof (pow2_ge_0 s); pose proof (pow2_ge_0 s2); nra).
  assert (IC : 0 < / c' < / c) by (split; [apply Rinv_0_lt_compat; lra|apply Rinv_lt_contravar; [apply Rmult_lt_0_compat; lra|lra]]).
  assert (E0 : 0 <= e). { rewrite draw_margin_eval in He by lra. injection He as <-. apply Rmult_le_pos; [apply Rmult_le_pos; [apply unit_margin_acc; auto|apply sqrt_pos]|auto]. }
  assert (A : forall u, u <= 0 -> - (26 * c) <= u -> 0 < (s ^ 2 + tau ^ 2) / c' * vx (u / c') < (s ^ 2 + tau ^ 2) / c * vx (u / c)).
  { intros u Hu HU. assert (V : forall x, 0 < vx x) by (intros x; unfold vx; apply vwin_pos). pose proof (V (u / c')) as V1. assert (VV : vx (u / c') <= vx (u / c)).
    { destruct Hu as [Hu| ->]; [|right; unfold Rdiv; now rewrite !Rmult_0_l]. left. apply vx_lt; [unfold Rdiv; nra|left; unfold Rdiv; nra|right; apply Phi_not_tiny]. apply Rmult_le_reg_r with c; [auto|]. replace (u / c * c) with u by (field; lra). lra. }
    assert (K : 0 < (s ^ 2 + tau ^ 2) / c') by (apply Rdiv_lt_0_compat; lra). assert (KK : (s ^ 2 + tau ^ 2) / c' < (s ^ 2 + tau ^ 2) / c) by (apply Rmult_lt_compat_l; lra). split; [apply Rmult_lt_0_compat; lra|nra]. }
  split; intros Hm ->; rewrite !v_lead by (congruence || auto); unfold lead.
  - rewrite Rabs_right in HT by lra. pose proof (A (m - m2 - e) ltac:(lra) ltac:(lra)). lra.
  - rewrite Rabs_left1 in HT by lra. pose proof (A (m2 - m - e) ltac:(lra) ltac:(lra)). lra.
Qed.
