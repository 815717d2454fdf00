(** Proofs of the IEEE-754 binary64 properties, third part: draws between
    unequal players and the accuracy of Elo. *)
From Coq Require Import ZArith NArith List Bool Reals Lra Lia Psatz.
From Flocq Require Import Core.Core IEEE754.BinarySingleNaN Relative.
From Verif Require Import Arith B64 MathB64 SpecB64 ModelLib ModelElo ModelFifa Spec ProofB64 ProofB64b.
Import ListNotations.
Local Open Scope R_scope.

Lemma half_ge y : nn y -> 2 <= ext y -> ext (Bdiv mode_NE one64 y) <= / 2.
Proof.
  intros N P. destruct (is_finite y) eqn:E.
  - rewrite (proj2 (ext_div one64 y fin_one64 E ltac:(lra))), ext_one64, <- rnd_half. apply rnd_le.
    unfold Rdiv. rewrite Rmult_1_l. apply Rinv_le_contravar; lra.
  - destruct y as [|[|]| |]; try discriminate; simpl in P; [pose proof M64_pos; lra|]. simpl. lra.
Qed.
Lemma half_le y : nn y -> 1 <= ext y <= 2 -> / 2 <= ext (Bdiv mode_NE one64 y).
Proof.
  intros N P. assert (F : fin y) by (apply (fin_le _ 1); [exact N|lia|simpl; lra]).
  rewrite (proj2 (ext_div one64 y fin_one64 F ltac:(lra))), ext_one64, <- rnd_half. apply rnd_le.
  unfold Rdiv. rewrite Rmult_1_l. apply Rinv_le_contravar; lra.
Qed.
Lemma rnd_2 : rnd 2 = 2. Proof. apply (rnd_pow2 1). lia. Qed.
Lemma plus_ge2 p : nn p -> 1 <= ext p -> 2 <= ext (Bplus mode_NE one64 p).
Proof.
  intros N P. destruct (is_finite p) eqn:E.
  - rewrite (proj2 (ext_plus one64 p fin_one64 E)), ext_one64, <- rnd_2. apply rnd_le. lra.
  - destruct p as [|[|]| |]; try discriminate; simpl in P; [pose proof M64_pos; lra|].
    change (Bplus mode_NE one64 (B754_infinity false)) with (B754_infinity false : B64). simpl. unfold M64.
    apply (bpow_le radix2 1). lia.
Qed.
Lemma plus_le2 p : nn p -> 0 <= ext p <= 1 -> ext (Bplus mode_NE one64 p) <= 2.
Proof.
  intros N P. assert (F : fin p) by (apply (fin_le _ 0); [exact N|lia|simpl; lra]).
  rewrite (proj2 (ext_plus one64 p fin_one64 F)), ext_one64, <- rnd_2. apply rnd_le. lra.
Qed.
Lemma C67_draw_proof : forall (L : Libm) (p1 p2 : EloRating B64) (cfg : EloConfig B64),
  pow10_nonneg L -> pow10_unit L ->
  finite (elo_rating p1) -> finite (elo_rating p2) -> finite (elo_k cfg) -> le64 zero64 (elo_k cfg) ->
  let new := elo (A := B64A L) p1 p2 DRAW cfg in
  (le64 (elo_rating p1) (elo_rating p2) ->
     le64 (elo_rating p1) (elo_rating (fst new)) /\ le64 (elo_rating (snd new)) (elo_rating p2)) /\
  (le64 (elo_rating p2) (elo_rating p1) ->
     le64 (elo_rating (fst new)) (elo_rating p1) /\ le64 (elo_rating p2) (elo_rating (snd new))).
Proof.
  intros L p1 p2 cfg P [U1 U2] F1 F2 Fk Pk new.
  destruct (C66_elo_proof L p1 p2 P F1 F2) as [I1 I2]. apply le_Bleb in Pk. destruct Pk as [_ [_ Pk]]. rewrite ext_zero64 in Pk.
  set (e1 := fst (elo_expected_score (A := B64A L) p1 p2)) in *.
  set (e2 := snd (elo_expected_score (A := B64A L) p1 p2)) in *.
  assert (H1 : elo_rating (fst new) = upd (elo_k cfg) (to_chess_points (A := B64A L) DRAW) e1 (elo_rating p1)) by reflexivity.
  assert (H2 : elo_rating (snd new) = upd (elo_k cfg) (Bminus mode_NE one64 (to_chess_points (A := B64A L) DRAW)) e2 (elo_rating p2)) by reflexivity.
  rewrite H1, H2. destruct (in01_inv e1 I1) as [Fe1 B1]. destruct (in01_inv e2 I2) as [_ B2].
  destruct (ext_points L DRAW) as [Fp Ep]. destruct (ext_points2 L DRAW) as [Fq Eq]. cbv zeta in Fq, Eq.
  unfold points in Ep, Eq.
  set (d := Bminus mode_NE (elo_rating p2) (elo_rating p1)).
  destruct (ext_minus (elo_rating p2) (elo_rating p1) F2 F1) as [Nd Ed]. fold d in Nd, Ed.
  set (y := Bdiv mode_NE d (b64_of_Z 400)).
  assert (E400 : ext (b64_of_Z 400) = 400) by (apply (ext_ofZ 400); vm_compute; discriminate).
  assert (F400 : fin (b64_of_Z 400)) by reflexivity.
  assert (Ny : nn y) by (apply nn_div_c; [exact Nd|reflexivity|rewrite E400; lra]).
  destruct (pow_ext L y P Ny) as [Np Pp]. set (p := l_pow L (b64_of_Z 10) y) in *.
  assert (He1 : e1 = Bdiv mode_NE one64 (Bplus mode_NE one64 p)) by reflexivity.
  assert (He2 : ext e2 = rnd (1 - ext e1)).
  { change e2 with (Bminus mode_NE one64 e1). rewrite (proj2 (ext_minus one64 e1 fin_one64 Fe1)), ext_one64. reflexivity. }
  destruct (plus_nonneg p Np Pp) as [Ns [Ls _]].
  split; intro Hle; apply le_Bleb in Hle; destruct Hle as [_ [_ Hle]].
  - assert (Y : le64 zero64 y).
    { apply le64_iff; [reflexivity|exact Ny|]. rewrite ext_zero64.
      assert (D : 0 <= ext d) by (rewrite Ed; apply rnd_nonneg; lra).
      destruct (is_finite d) eqn:Fd.
      - unfold y. rewrite (proj2 (ext_div d (b64_of_Z 400) Fd F400 ltac:(rewrite E400; lra))). apply rnd_nonneg. rewrite E400. lra.
      - unfold y. destruct d as [|[|]| |]; try discriminate; simpl in D; [pose proof M64_pos; lra|]. simpl. pose proof M64_pos. lra. }
    specialize (U2 y Y). apply le_Bleb in U2. destruct U2 as [_ [_ U2]]. rewrite ext_one64 in U2. fold p in U2.
    assert (E1 : ext e1 <= / 2) by (rewrite He1; apply half_ge; [exact Ns|apply plus_ge2; auto]).
    assert (E2 : / 2 <= ext e2) by (rewrite He2, <- rnd_half; apply rnd_le; lra).
    split; [apply upd_up|apply upd_down]; auto; rewrite ?Ep, ?Eq; lra.
  - assert (Y : le64 y zero64).
    { apply le64_iff; [exact Ny|reflexivity|]. rewrite ext_zero64.
      assert (D : ext d <= 0) by (rewrite Ed, <- rnd_0; apply rnd_le; lra).
      destruct (is_finite d) eqn:Fd.
      - unfold y. rewrite (proj2 (ext_div d (b64_of_Z 400) Fd F400 ltac:(rewrite E400; lra))), <- rnd_0. apply rnd_le. rewrite E400. lra.
      - unfold y. destruct d as [|[|]| |]; try discriminate; simpl in D; [|pose proof M64_pos; lra]. simpl. pose proof M64_pos. lra. }
    specialize (U1 y Y). apply le_Bleb in U1. destruct U1 as [_ [_ U1]]. rewrite ext_one64 in U1. fold p in U1.
    assert (E1 : / 2 <= ext e1) by (rewrite He1; apply half_le; [exact Ns|split; [exact Ls|apply plus_le2; auto]]).
    assert (E2 : ext e2 <= / 2) by (rewrite He2, <- rnd_half; apply rnd_le; lra).
    split; [apply upd_down|apply upd_up]; auto; rewrite ?Ep, ?Eq; lra.
Qed.

(** ** Accuracy *)
Lemma exp_near t : Rabs t <= / 2 -> Rabs (exp t - 1) <= 2 * Rabs t.
Proof.
  intro H. assert (L : 1 + t <= exp t) by apply exp_ineq1_le.
  assert (L' : 1 - t <= exp (- t)) by (pose proof (exp_ineq1_le (- t)); lra).
  assert (P : exp t * exp (- t) = 1) by (rewrite <- exp_plus, <- exp_0; f_equal; ring).
  pose proof (exp_pos t). apply Rabs_le_inv in H as H'.
  apply Rabs_le. unfold Rabs in *. destruct Rcase_abs; split; nra.
Qed.
Lemma ln10_bounds : 0 < ln 10 < 3.
Proof.
  split; [rewrite <- ln_1; apply ln_increasing; lra|].
  rewrite <- (ln_exp 3). apply ln_increasing; [lra|].
  replace 3 with (1 + 1 + 1) by lra. rewrite !exp_plus. pose proof exp_1_bounds. nra.
Qed.
Lemma Rpower10_pos y : 0 < Rpower 10 y. Proof. apply exp_pos. Qed.
(** 10^y for an argument off by d *)
Lemma pow10_near y y' : Rabs (y' - y) <= / 10 -> Rabs (Rpower 10 y' - Rpower 10 y) <= 6 * Rabs (y' - y) * Rpower 10 y.
Proof.
  intro H. replace (Rpower 10 y') with (Rpower 10 y * exp ((y' - y) * ln 10)).
  2:{ unfold Rpower. rewrite <- exp_plus. f_equal. ring. }
  pose proof ln10_bounds. pose proof (Rpower10_pos y) as P.
  assert (A : Rabs ((y' - y) * ln 10) <= 3 * Rabs (y' - y)).
  { rewrite Rabs_mult, (Rabs_pos_eq (ln 10)) by lra. pose proof (Rabs_pos (y' - y)). nra. }
  assert (B : Rabs (exp ((y' - y) * ln 10) - 1) <= 6 * Rabs (y' - y)).
  { eapply Rle_trans; [apply exp_near; lra|]. lra. }
  replace (Rpower 10 y * exp ((y' - y) * ln 10) - Rpower 10 y) with (Rpower 10 y * (exp ((y' - y) * ln 10) - 1)) by ring.
  rewrite Rabs_mult, (Rabs_pos_eq (Rpower 10 y)) by lra. nra.
Qed.
Lemma recip_near p p' r : 0 <= p -> 0 < r < 1 -> Rabs (p' - p) <= r * p -> Rabs (/ (1 + p') - / (1 + p)) <= 2 * r.
Proof.
  intros Hp Hr H. apply Rabs_le_inv in H. assert (0 <= p') by nra.
  replace (/ (1 + p') - / (1 + p)) with ((p - p') * (/ (1 + p') * / (1 + p))) by (field; lra).
  assert (A : 0 < / (1 + p') * / (1 + p)) by (apply Rmult_lt_0_compat; apply Rinv_0_lt_compat; lra).
  assert (B : p * (/ (1 + p') * / (1 + p)) <= 1).
  { apply Rmult_le_reg_r with ((1 + p') * (1 + p)); [nra|]. field_simplify; [nra|lra]. }
  apply Rabs_le. split; nra.
Qed.
Lemma pow2_vals : bpow radix2 (-53) <= / 10 ^ 15 /\ bpow radix2 (-54) <= / 10 ^ 15 /\ bpow radix2 (-39) <= 2 / 10 ^ 12
  /\ bpow radix2 (-47) <= 8 / 10 ^ 15 /\ bpow radix2 (-40) <= / 10 ^ 12 /\ / 2 ^ 50 <= / 10 ^ 15.
Proof.
  assert (G : forall n, bpow radix2 (- Z.of_nat n) = / 2 ^ n).
  { intro n. rewrite bpow_opp. f_equal. rewrite <- (IZR_Zpower radix2) by lia. simpl radix_val.
    rewrite <- pow_IZR. reflexivity. }
  change (-53)%Z with (- Z.of_nat 53)%Z. change (-54)%Z with (- Z.of_nat 54)%Z. change (-39)%Z with (- Z.of_nat 39)%Z.
  change (-47)%Z with (- Z.of_nat 47)%Z. change (-40)%Z with (- Z.of_nat 40)%Z. rewrite !G.
  repeat split; lra.
Qed.
Lemma pow10_bound y : y <= 101 -> Rpower 10 y <= bpow radix2 1000.
Proof.
  intro H. apply Rle_trans with (Rpower 10 (INR 101)); [apply Rle_Rpower; [lra|rewrite INR_IZR_INZ; simpl; lra]|].
  rewrite Rpower_pow by lra. rewrite (pow_IZR 10 101).
  apply Rle_trans with (bpow radix2 400); [|apply bpow_le; lia].
  change (bpow radix2 400) with (IZR (2 ^ 400)). apply IZR_le. vm_compute. discriminate.
Qed.
(** 1/(1 + powf(10, y)) against 1/(1 + 10^ys) *)
Lemma logistic_acc L y ys : pow10_accurate L -> fin y -> Rabs (ext y) <= 100 -> Rabs (ext y - ys) <= 2 / 10 ^ 14 ->
  let e := Bdiv mode_NE one64 (Bplus mode_NE one64 (l_pow L (b64_of_Z 10) y)) in
  in01 e /\ Rabs (ext e - / (1 + Rpower 10 ys)) <= 3 / 10 ^ 13.
Proof.
  intros P F A D e. pose proof pow2_vals as (V1 & V2 & _ & _ & _ & V6).
  destruct (P y F) as [Fp Ap]; [rewrite <- (ext_fin y F); exact A|].
  set (p := l_pow L (b64_of_Z 10) y) in *. rewrite <- (ext_fin y F), <- (ext_fin p Fp) in Ap.
  pose proof (Rpower10_pos (ext y)) as Py. pose proof (Rpower10_pos ys) as Pys.
  pose proof (Rabs_le_inv _ _ A) as A'. pose proof (pow10_bound (ext y) ltac:(lra)) as Ub.
  assert (Ap' : Rabs (ext p - Rpower 10 (ext y)) <= / 10 ^ 15 * Rpower 10 (ext y)) by nra.
  assert (P0 : 0 <= ext p) by (apply Rabs_le_inv in Ap'; lra).
  assert (Pb : ext p <= bpow radix2 1001).
  { apply Rabs_le_inv in Ap'. replace (bpow radix2 1001) with (2 * bpow radix2 1000)
      by (change 1001%Z with (1 + 1000)%Z; rewrite bpow_plus; reflexivity). lra. }
  assert (Q : Rabs (ext p - Rpower 10 ys) <= 125 / 10 ^ 15 * Rpower 10 ys).
  { pose proof (pow10_near ys (ext y) ltac:(lra)) as Z1.
    assert (Z2 : Rabs (Rpower 10 (ext y) - Rpower 10 ys) <= 12 / 10 ^ 14 * Rpower 10 ys).
    { eapply Rle_trans; [exact Z1|]. apply Rmult_le_compat_r; lra. }
    apply Rabs_le_inv in Z2, Ap'. apply Rabs_le. split; lra. }
  assert (T1 : Rabs (/ (1 + ext p) - / (1 + Rpower 10 ys)) <= 25 / 10 ^ 14).
  { eapply Rle_trans; [apply (recip_near _ _ (125 / 10 ^ 15)); [lra|lra|exact Q]|]. lra. }
  destruct (ext_plus one64 p fin_one64 Fp) as [Ns Es]. rewrite ext_one64 in Es. set (s := Bplus mode_NE one64 p) in *.
  assert (S1 : 1 <= ext s) by (rewrite Es; rewrite <- rnd_1 at 1; apply rnd_le; lra).
  assert (B1 : bpow radix2 (-1022) <= 1) by (apply (bpow_le radix2 (-1022) 0); lia).
  assert (B2 : 1 + ext p <= bpow radix2 1002).
  { replace (bpow radix2 1002) with (2 * bpow radix2 1001)
      by (change 1002%Z with (1 + 1001)%Z; rewrite bpow_plus; reflexivity).
    assert (1 <= bpow radix2 1001) by (apply (bpow_le radix2 0); lia). lra. }
  assert (B3 : bpow radix2 1002 <= bpow radix2 1023) by (apply bpow_le; lia).
  assert (S2 : Rabs (ext s - (1 + ext p)) <= / 10 ^ 15 * (1 + ext p)).
  { rewrite Es. eapply Rle_trans; [apply rnd_rel; rewrite Rabs_pos_eq by lra; lra|].
    rewrite (Rabs_pos_eq (1 + ext p)) by lra. apply Rmult_le_compat_r; lra. }
  assert (Fs : fin s).
  { apply (fin_le _ 1002); [exact Ns|lia|]. split; [lra|]. rewrite Es. apply rnd_le_pow; [lia|exact B2]. }
  assert (T2 : Rabs (/ ext s - / (1 + ext p)) <= / 10 ^ 15).
  { replace (/ ext s - / (1 + ext p)) with ((1 + ext p - ext s) * / (1 + ext p) * / ext s) by (field; lra).
    apply Rabs_le_inv in S2.
    assert (I1 : 0 < / ext s <= 1) by (split; [apply Rinv_0_lt_compat; lra|rewrite <- Rinv_1; apply Rinv_le_contravar; lra]).
    assert (I2 : - / 10 ^ 15 <= (1 + ext p - ext s) * / (1 + ext p) <= / 10 ^ 15).
    { split; apply Rmult_le_reg_r with (1 + ext p); try lra; rewrite (Rmult_assoc (1 + ext p - ext s)), Rinv_l by lra; lra. }
    apply Rabs_le. split; nra. }
  destruct (ext_div one64 s fin_one64 Fs ltac:(lra)) as [Ne Ee]. fold e in Ne, Ee. rewrite ext_one64 in Ee.
  unfold Rdiv in Ee. rewrite Rmult_1_l in Ee.
  split; [apply recip_in01; auto|].
  assert (I : 0 < / ext s <= 1) by (split; [apply Rinv_0_lt_compat; lra|rewrite <- Rinv_1; apply Rinv_le_contravar; lra]).
  assert (T3 : Rabs (ext e - / ext s) <= / 10 ^ 15).
  { rewrite Ee. eapply Rle_trans; [apply (rnd_abs 0); [lia|]; rewrite Rabs_pos_eq by lra; simpl; lra|]. exact V2. }
  apply Rabs_le_inv in T1, T2, T3. apply Rabs_le. split; lra.
Qed.
(** (a - b)/c for |a|,|b| <= 10^4 and c = 400 or 600 *)
Lemma arg_acc a b c : fin a -> fin b -> Rabs (ext a) <= 10000 -> Rabs (ext b) <= 10000 -> (400 <= c <= 1000)%Z ->
  let y := Bdiv mode_NE (Bminus mode_NE a b) (b64_of_Z c) in
  fin y /\ Rabs (ext y) <= 100 /\ Rabs (ext y - (ext a - ext b) / IZR c) <= 2 / 10 ^ 14.
Proof.
  intros Fa Fb Ha Hb Hc y. pose proof pow2_vals as (_ & _ & V3 & V4 & _).
  destruct (ext_minus a b Fa Fb) as [Nd Ed]. set (d := Bminus mode_NE a b) in *.
  apply Rabs_le_inv in Ha, Hb.
  assert (D : Rabs (ext d - (ext a - ext b)) <= 2 / 10 ^ 12).
  { rewrite Ed. eapply Rle_trans; [apply (rnd_abs 15); [lia|]|exact V3]. apply Rabs_le. simpl. lra. }
  apply Rabs_le_inv in D.
  assert (Fd : fin d).
  { apply fin_iff; [exact Nd|]. apply Rle_lt_trans with (bpow radix2 15); [apply Rabs_le; simpl; lra|]. apply bpow_lt; lia. }
  destruct (ext_ofZ c ltac:(lia)) as [Fc Ec].
  assert (Hc' : 400 <= IZR c <= 1000) by (split; apply IZR_le; lia).
  destruct (ext_div d (b64_of_Z c) Fd Fc ltac:(rewrite Ec; lra)) as [Ny Ey]. fold y in Ny, Ey. rewrite Ec in Ey.
  assert (I : 0 < / IZR c <= / 400) by (split; [apply Rinv_0_lt_compat; lra|apply Rinv_le_contravar; lra]).
  assert (Q : Rabs (ext d / IZR c) <= 51) by (apply Rabs_le; unfold Rdiv; split; nra).
  assert (Y : Rabs (ext y - ext d / IZR c) <= 8 / 10 ^ 15).
  { rewrite Ey. eapply Rle_trans; [apply (rnd_abs 7); [lia|]|exact V4]. apply Rle_trans with (1 := Q). simpl. lra. }
  apply Rabs_le_inv in Q, Y.
  assert (Y100 : Rabs (ext y) <= 100) by (apply Rabs_le; lra).
  assert (Z : Rabs (ext d / IZR c - (ext a - ext b) / IZR c) <= 5 / 10 ^ 15).
  { replace (ext d / IZR c - (ext a - ext b) / IZR c) with ((ext d - (ext a - ext b)) * / IZR c) by (unfold Rdiv; ring).
    apply Rabs_le. split; nra. }
  apply Rabs_le_inv in Z.
  split; [|split; [exact Y100|apply Rabs_le; lra]].
  apply fin_iff; [exact Ny|]. apply Rle_lt_trans with (1 := Y100). apply Rlt_trans with (bpow radix2 7); [simpl; lra|].
  apply bpow_lt; lia.
Qed.
Lemma one_minus_acc e x : in01 e -> Rabs (ext e - x) <= 3 / 10 ^ 13 ->
  Rabs (ext (Bminus mode_NE one64 e) - (1 - x)) <= 4 / 10 ^ 13.
Proof.
  intros I H. destruct (in01_inv e I) as [F B]. pose proof pow2_vals as (_ & V2 & _).
  rewrite (proj2 (ext_minus one64 e fin_one64 F)), ext_one64.
  pose proof (rnd_abs 0 (1 - ext e) ltac:(lia) ltac:(apply Rabs_le; simpl; lra)) as R. change (0 - 54)%Z with (-54)%Z in R.
  apply Rabs_le_inv in R, H. apply Rabs_le. lra.
Qed.
Lemma upd_acc k o e r x : fin k -> fin o -> in01 e -> fin r -> 0 <= ext o <= 1 ->
  Rabs (ext k) <= 1000 -> Rabs (ext r) <= 10000 -> Rabs (ext e - x) <= 4 / 10 ^ 13 ->
  fin (upd k o e r) /\ Rabs (ext (upd k o e r) - (ext r + ext k * (ext o - x))) <= / 10 ^ 9.
Proof.
  intros Fk Fo Ie Fr Bo Hk Hr Hx. pose proof pow2_vals as (_ & V2 & _ & _ & V5 & _).
  destruct (in01_inv e Ie) as [Fe Be]. destruct (ext_upd k o e r Fk Fo Bo Ie Fr) as [N E].
  pose proof (rnd_abs 0 (ext o - ext e) ltac:(lia) ltac:(apply Rabs_le; simpl; lra)) as R. change (0 - 54)%Z with (-54)%Z in R.
  set (d := rnd (ext o - ext e)) in *. apply Rabs_le_inv in R, Hk, Hr, Hx.
  assert (Kd : -1001 <= ext k * d <= 1001) by nra.
  assert (A : Rabs (ext (upd k o e r) - (ext k * d + ext r)) <= / 10 ^ 12).
  { rewrite E. eapply Rle_trans; [apply (rnd_abs 14); [lia|]|exact V5]. apply Rabs_le. simpl. lra. }
  assert (K2 : Rabs (ext k * (d - (ext o - x))) <= 5 / 10 ^ 10).
  { rewrite Rabs_mult. assert (Rabs (ext k) <= 1000) by (apply Rabs_le; lra).
    assert (Rabs (d - (ext o - x)) <= 5 / 10 ^ 13) by (apply Rabs_le; lra).
    pose proof (Rabs_pos (ext k)). pose proof (Rabs_pos (d - (ext o - x))). nra. }
  apply Rabs_le_inv in A, K2. split; [|apply Rabs_le; split; nra].
  apply fin_iff; [exact N|]. apply Rle_lt_trans with (bpow radix2 14); [apply Rabs_le; simpl; lra|]. apply bpow_lt; lia.
Qed.
Lemma C82_elo_proof : forall (L : Libm) (p1 p2 : EloRating B64) (o : Outcomes) (cfg : EloConfig B64),
  pow10_accurate L -> finite (elo_rating p1) -> finite (elo_rating p2) -> finite (elo_k cfg) ->
  let r1 := B2R (elo_rating p1) in let r2 := B2R (elo_rating p2) in let k := B2R (elo_k cfg) in
  Rabs r1 <= 10000 -> Rabs r2 <= 10000 -> Rabs k <= 1000 ->
  let E := / (1 + Rpower 10 ((r2 - r1) / 400)) in
  let e := elo_expected_score (A := B64A L) p1 p2 in let new := elo (A := B64A L) p1 p2 o cfg in
  (Rabs (B2R (fst e) - E) <= / 10 ^ 12 /\ Rabs (B2R (snd e) - (1 - E)) <= / 10 ^ 12) /\
  (finite (elo_rating (fst new)) /\ Rabs (B2R (elo_rating (fst new)) - (r1 + k * (points o - E))) <= / 10 ^ 9) /\
  (finite (elo_rating (snd new)) /\ Rabs (B2R (elo_rating (snd new)) - (r2 + k * ((1 - points o) - (1 - E)))) <= / 10 ^ 9).
Proof.
  intros L p1 p2 o cfg P F1 F2 Fk r1 r2 k H1 H2 Hk E0 e new. unfold r1, r2, k in *. clear r1 r2 k.
  unfold E0. clear E0. rewrite <- (ext_fin _ F1), <- (ext_fin _ F2), <- (ext_fin _ Fk) in *.
  set (E := / (1 + Rpower 10 ((ext (elo_rating p2) - ext (elo_rating p1)) / 400))).
  destruct (arg_acc _ _ 400 F2 F1 H2 H1 ltac:(lia)) as [Fy [Ay Dy]].
  destruct (logistic_acc L _ _ P Fy Ay Dy) as [I1 A1].
  change (IZR 400) with 400 in A1. change (/ (1 + Rpower 10 ((ext (elo_rating p2) - ext (elo_rating p1)) / 400))) with E in A1.
  assert (E1 : fst e = Bdiv mode_NE one64 (Bplus mode_NE one64 (l_pow L (b64_of_Z 10)
     (Bdiv mode_NE (Bminus mode_NE (elo_rating p2) (elo_rating p1)) (b64_of_Z 400))))) by reflexivity.
  rewrite <- E1 in I1, A1. pose proof (one_minus_acc _ _ I1 A1) as A2. pose proof (one_minus_in01 _ I1) as I2.
  assert (E2 : snd e = Bminus mode_NE one64 (fst e)) by reflexivity. rewrite <- E2 in A2, I2.
  destruct (in01_inv _ I1) as [Fe1 _]. destruct (in01_inv _ I2) as [Fe2 _].
  destruct (ext_points L o) as [Fp Ep]. destruct (ext_points2 L o) as [Fq Eq]. cbv zeta in Fq, Eq. pose proof (points_range o).
  assert (A1' : Rabs (ext (fst e) - E) <= 4 / 10 ^ 13) by lra.
  pose proof (upd_acc (elo_k cfg) _ _ (elo_rating p1) E Fk Fp I1 F1) as G. rewrite Ep in G.
  destruct (G ltac:(lra) Hk H1 A1') as [G1 G2]. clear G.
  pose proof (upd_acc (elo_k cfg) _ _ (elo_rating p2) (1 - E) Fk Fq I2 F2) as G. rewrite Eq in G.
  destruct (G ltac:(lra) Hk H2 A2) as [G3 G4]. clear G.
  rewrite <- (ext_fin _ Fe1), <- (ext_fin _ Fe2).
  split; [split; lra|]. split.
  - split; [exact G1|]. rewrite <- ext_fin by exact G1. exact G2.
  - split; [exact G3|]. rewrite <- ext_fin by exact G3. exact G4.
Qed.

(** ** The correctly rounded libm meets the contracts *)
Lemma B2R_10 : B2R (b64_of_Z 10) = 10.
Proof. rewrite <- (ext_fin (b64_of_Z 10) eq_refl). apply (ext_ofZ 10). vm_compute. discriminate. Qed.
Lemma libm_pow_fin y : fin y -> nn (l_pow libm_rounded (b64_of_Z 10) y) /\
  ext (l_pow libm_rounded (b64_of_Z 10) y) = rnd (Rpower 10 (ext y)).
Proof.
  intro F. rewrite <- B2R_10.
  exact (real_fun_fin (Rpower (B2R (b64_of_Z 10))) (B754_infinity false) zero64 y F).
Qed.
Lemma libm_pow_accurate : pow10_accurate libm_rounded.
Proof.
  intros y F A. destruct (libm_pow_fin y F) as [N E]. rewrite <- (ext_fin y F) in *. apply Rabs_le_inv in A.
  pose proof (Rpower10_pos (ext y)) as P. pose proof (pow10_bound (ext y) ltac:(lra)) as U.
  assert (Lo : bpow radix2 (-1000) <= Rpower 10 (ext y)).
  { rewrite <- (Ropp_involutive (ext y)), Rpower_Ropp. change (-1000)%Z with (- (1000))%Z. rewrite bpow_opp.
    apply Rinv_le_contravar; [apply Rpower10_pos|]. apply pow10_bound. lra. }
  assert (B1 : bpow radix2 (-1022) <= bpow radix2 (-1000)) by (apply bpow_le; lia).
  assert (B2 : bpow radix2 1000 <= bpow radix2 1023) by (apply bpow_le; lia).
  assert (Fi : finite (l_pow libm_rounded (b64_of_Z 10) y)).
  { apply (fin_le _ 1000); [exact N|lia|]. rewrite E. split; [apply rnd_nonneg; lra|]. apply rnd_le_pow; [lia|exact U]. }
  split; [exact Fi|]. rewrite <- (ext_fin _ Fi), E.
  eapply Rle_trans; [apply rnd_rel; rewrite Rabs_pos_eq by lra; lra|]. rewrite (Rabs_pos_eq (Rpower 10 (ext y))) by lra.
  apply Rmult_le_compat_r; [lra|]. change (-53)%Z with (- (53))%Z. rewrite bpow_opp.
  apply Rinv_le_contravar; [apply pow_lt; lra|]. rewrite (pow_IZR 2 50). change (bpow radix2 53) with (IZR (2 ^ 53)).
  apply IZR_le. vm_compute. discriminate.
Qed.
Lemma libm_pow_unit : pow10_unit libm_rounded.
Proof.
  split; intros y H; apply le_Bleb in H as [H1 [H2 H3]]; rewrite ext_zero64 in H3.
  - destruct (is_finite y) eqn:F.
    + destruct (libm_pow_fin y F) as [N E]. apply le64_iff; [exact N|reflexivity|]. rewrite E, ext_one64, <- rnd_1. apply rnd_le.
      rewrite <- (Rpower_O 10) by lra. apply Rle_Rpower; lra.
    + destruct y as [|[|]| |]; try discriminate; simpl in H3; [reflexivity|pose proof M64_pos; lra].
  - destruct (is_finite y) eqn:F.
    + destruct (libm_pow_fin y F) as [N E]. apply le64_iff; [reflexivity|exact N|]. rewrite E, ext_one64, <- rnd_1. apply rnd_le.
      rewrite <- (Rpower_O 10) at 1 by lra. apply Rle_Rpower; lra.
    + destruct y as [|[|]| |]; try discriminate; simpl in H3; [pose proof M64_pos; lra|reflexivity].
Qed.
Lemma B2R_ofZ z : (Z.abs z <= 2 ^ 53)%Z -> B2R (b64_of_Z z) = IZR z.
Proof. intro H. destruct (ext_ofZ z H) as [F E]. rewrite <- (ext_fin _ F). exact E. Qed.
