(** Proofs of the IEEE-754 binary64 properties. *)
From Coq Require Import ZArith NArith List Bool Reals Lra Lia Psatz.
From Flocq Require Import Core.Core IEEE754.BinarySingleNaN.
From Verif Require Import Arith B64 MathB64 SpecB64 ModelLib ModelElo ModelFifa ModelUscf ModelEgf ModelDwz ModelGlicko ModelSticko
  ModelBoost ModelGlicko2 ModelWengLin Spec.
Import ListNotations.
Local Open Scope R_scope.

(** ** Constants *)
Lemma ext_zero64 : ext zero64 = 0. Proof. reflexivity. Qed.
Lemma fin_zero64 : fin zero64. Proof. reflexivity. Qed.
Lemma ext_one64 : ext one64 = 1. Proof. apply (ext_ofZ 1). vm_compute; discriminate. Qed.
Lemma fin_one64 : fin one64. Proof. reflexivity. Qed.
Lemma le64_iff x y : nn x -> nn y -> le64 x y <-> ext x <= ext y.
Proof.
  intros. unfold le64. rewrite Bleb_ext by auto. case Rle_bool_spec; intros; split; auto; try lra; discriminate.
Qed.
Lemma in01_of x : nn x -> 0 <= ext x <= 1 -> in01 x.
Proof.
  intros N H. pose proof M64_pos. assert (1 < M64) by (unfold M64; apply (bpow_lt radix2 0 1024); lia).
  assert (fin x) by (apply fin_iff; [exact N|]; apply Rabs_lt; lra).
  repeat split; [assumption| |]; apply le64_iff; auto; try reflexivity;
  rewrite ?ext_zero64, ?ext_one64; lra.
Qed.
Lemma in01_inv x : in01 x -> fin x /\ 0 <= ext x <= 1.
Proof.
  intros [F [A B]]. split; [exact F|]. apply le_Bleb in A, B. rewrite ext_zero64, ext_one64 in *. lra.
Qed.

(** ** 1/(1+p) *)
Lemma plus_nonneg p : nn p -> 0 <= ext p ->
  nn (Bplus mode_NE one64 p) /\ 1 <= ext (Bplus mode_NE one64 p) /\
  (fin p -> ext (Bplus mode_NE one64 p) = rnd (1 + ext p)).
Proof.
  intros N P. destruct (is_finite p) eqn:E.
  - destruct (ext_plus one64 p fin_one64 E) as [N1 E1]. rewrite ext_one64 in E1. rewrite E1.
    split; [exact N1|]. split; [|reflexivity]. rewrite <- rnd_1 at 1. apply rnd_le. lra.
  - destruct p as [|[|]| |]; try discriminate; simpl in P; [pose proof M64_pos; lra|].
    change (Bplus mode_NE one64 (B754_infinity false)) with (B754_infinity false : B64).
    split; [reflexivity|]. split; [|discriminate]. simpl. unfold M64. apply (bpow_le radix2 0). lia.
Qed.
Lemma plus_nonneg' p : nn p -> 0 <= ext p ->
  nn (Bplus mode_NE p one64) /\ 1 <= ext (Bplus mode_NE p one64).
Proof.
  intros N P. destruct (is_finite p) eqn:E.
  - destruct (ext_plus p one64 E fin_one64) as [N1 E1]. rewrite ext_one64 in E1. rewrite E1.
    split; [exact N1|]. rewrite <- rnd_1 at 1. apply rnd_le. lra.
  - destruct p as [|[|]| |]; try discriminate; simpl in P; [pose proof M64_pos; lra|].
    change (Bplus mode_NE (B754_infinity false) one64) with (B754_infinity false : B64).
    split; [reflexivity|]. simpl. unfold M64. apply (bpow_le radix2 0). lia.
Qed.
Lemma recip_in01 y : nn y -> 1 <= ext y -> in01 (Bdiv mode_NE one64 y).
Proof.
  intros N P. destruct (is_finite y) eqn:E.
  - destruct (ext_div one64 y fin_one64 E) as [N1 E1]; [lra|]. apply in01_of; [exact N1|].
    rewrite E1, ext_one64. split.
    + rewrite <- rnd_0. apply rnd_le. unfold Rdiv. rewrite Rmult_1_l. apply Rinv_ge_0. lra.
    + rewrite <- rnd_1 at 2. apply rnd_le. unfold Rdiv. rewrite Rmult_1_l, <- Rinv_1. apply Rinv_le_contravar; lra.
  - destruct y as [|[|]| |]; try discriminate; simpl in P; [pose proof M64_pos; lra|].
    repeat split; reflexivity.
Qed.
Lemma one_minus_in01 x : in01 x -> in01 (Bminus mode_NE one64 x).
Proof.
  intro H. destruct (in01_inv x H) as [F B].
  destruct (ext_minus one64 x fin_one64 F) as [N1 E1]. apply in01_of; [exact N1|].
  rewrite E1, ext_one64. split.
  - rewrite <- rnd_0. apply rnd_le. lra.
  - rewrite <- rnd_1 at 2. apply rnd_le. lra.
Qed.
Lemma pow_ext L y : pow10_nonneg L -> nn y -> nn (l_pow L (b64_of_Z 10) y) /\ 0 <= ext (l_pow L (b64_of_Z 10) y).
Proof. intros P N. specialize (P y N). apply le_Bleb in P. rewrite ext_zero64 in P. tauto. Qed.
Lemma logistic_in01 L y : pow10_nonneg L -> nn y ->
  in01 (Bdiv mode_NE one64 (Bplus mode_NE one64 (l_pow L (b64_of_Z 10) y))).
Proof.
  intros P N. destruct (pow_ext L y P N). destruct (plus_nonneg _ H H0) as [? [? _]]. apply recip_in01; auto.
Qed.
Lemma logistic_in01' L y : pow10_nonneg L -> nn y ->
  in01 (Bdiv mode_NE one64 (Bplus mode_NE (l_pow L (b64_of_Z 10) y) one64)).
Proof.
  intros P N. destruct (pow_ext L y P N). destruct (plus_nonneg' _ H H0) as [? ?]. apply recip_in01; auto.
Qed.
Lemma nn_minus x y : fin x -> fin y -> nn (Bminus mode_NE x y).
Proof. intros. apply ext_minus; auto. Qed.
Lemma nn_div_c x c : nn x -> fin c -> ext c <> 0 -> nn (Bdiv mode_NE x c).
Proof.
  intros N F C. destruct (is_finite x) eqn:E; [apply ext_div; auto|].
  destruct x as [|s| |]; try discriminate. destruct c as [s'|s'| |s' m e h]; try discriminate; reflexivity.
Qed.
Lemma nn_mult_c x c : nn x -> fin c -> ext c <> 0 -> nn (Bmult mode_NE c x).
Proof.
  intros N F C. destruct (is_finite x) eqn:E; [apply ext_mult; auto|].
  destruct x as [|s| |]; try discriminate. destruct c as [s'|s'| |s' m e h]; try discriminate; try reflexivity.
  simpl in C. lra.
Qed.
Lemma nn_opp x : nn x -> nn (Bopp x). Proof. intro. now apply ext_opp. Qed.

Lemma nz_ofZ z : (Z.abs z <= 2 ^ 53)%Z -> z <> 0%Z -> ext (b64_of_Z z) <> 0.
Proof. intros H N. rewrite (proj2 (ext_ofZ z H)). intro E. apply N. now apply eq_IZR. Qed.
Lemma C66_elo_proof : forall (L : Libm) (p1 p2 : EloRating B64),
  pow10_nonneg L -> finite (elo_rating p1) -> finite (elo_rating p2) ->
  let e := elo_expected_score (A := B64A L) p1 p2 in in01 (fst e) /\ in01 (snd e).
Proof.
  intros L [a] [b] P Fa Fb e. unfold finite in *. simpl in Fa, Fb.
  assert (H : in01 (fst e)).
  { apply logistic_in01; auto. apply nn_div_c; [apply nn_minus; auto|reflexivity|].
    apply (nz_ofZ 400); [vm_compute|]; discriminate. }
  split; [exact H|]. apply one_minus_in01. exact H.
Qed.
Lemma C66_fifa_proof : forall (L : Libm) (p1 p2 : FifaRating B64),
  pow10_nonneg L -> finite (fifa_rating p1) -> finite (fifa_rating p2) ->
  let e := fifa_expected_score (A := B64A L) p1 p2 in in01 (fst e) /\ in01 (snd e).
Proof.
  intros L [a] [b] P Fa Fb e. unfold finite in *. simpl in Fa, Fb.
  assert (H : in01 (fst e)).
  { apply logistic_in01; auto. apply nn_div_c; [apply nn_opp, nn_minus; auto|reflexivity|].
    apply (nz_ofZ 600); [vm_compute|]; discriminate. }
  split; [exact H|]. apply one_minus_in01. exact H.
Qed.
Lemma C66_uscf_proof : forall (L : Libm) (p1 p2 : USCFRating B64),
  pow10_nonneg L -> finite (uscf_rating p1) -> finite (uscf_rating p2) ->
  let e := uscf_expected_score (A := B64A L) p1 p2 in in01 (fst e) /\ in01 (snd e).
Proof.
  intros L [a na] [b nb] P Fa Fb e. unfold finite in *. simpl in Fa, Fb.
  assert (H : in01 (fst e)).
  { apply logistic_in01'; auto. apply nn_div_c; [apply nn_opp, nn_minus; auto|reflexivity|].
    apply (nz_ofZ 400); [vm_compute|]; discriminate. }
  split; [exact H|]. apply one_minus_in01. exact H.
Qed.
Lemma C66_dwz_proof : forall (L : Libm) (p1 p2 : DWZRating B64),
  pow10_nonneg L -> finite (dwz_rating p1) -> finite (dwz_rating p2) ->
  let e := dwz_expected_score (A := B64A L) p1 p2 in in01 (fst e) /\ in01 (snd e).
Proof.
  intros L [a na aa] [b nb ab] P Fa Fb e. unfold finite in *. simpl in Fa, Fb.
  assert (H : in01 (fst e)).
  { apply logistic_in01; auto. apply nn_mult_c; [apply nn_minus; auto|reflexivity|].
    set (c := Bdiv mode_NE (b64_of_Z 1) (b64_of_Z 400)).
    assert (Q : Bltb zero64 c = true) by reflexivity.
    assert (nn c) by reflexivity. rewrite Bltb_ext in Q by (auto; reflexivity).
    rewrite ext_zero64 in Q. revert Q. case Rlt_bool_spec; intros Q ?; [|discriminate].
    change (ext (Bopp c) <> 0). rewrite (proj2 (ext_opp c H)). lra. }
  split; [exact H|]. apply one_minus_in01. exact H.
Qed.
Lemma C66_period_proof : forall (L : Libm), pow10_nonneg L ->
  (forall p os, finite (elo_rating p) -> Forall (fun o => finite (elo_rating o)) os ->
     Forall in01 (elo_expected_score_rating_period (A := B64A L) p os)) /\
  (forall p os, finite (fifa_rating p) -> Forall (fun o => finite (fifa_rating o)) os ->
     Forall in01 (fifa_expected_score_rating_period (A := B64A L) p os)) /\
  (forall p os, finite (uscf_rating p) -> Forall (fun o => finite (uscf_rating o)) os ->
     Forall in01 (uscf_expected_score_rating_period (A := B64A L) p os)) /\
  (forall p os, finite (dwz_rating p) -> Forall (fun o => finite (dwz_rating o)) os ->
     Forall in01 (dwz_expected_score_rating_period (A := B64A L) p os)).
Proof.
  intros L P. repeat split; intros p os Fp Fo; apply Forall_map; revert Fo; apply Forall_impl; intros o Fo.
  - exact (proj1 (C66_elo_proof L p o P Fp Fo)).
  - exact (proj1 (C66_fifa_proof L p o P Fp Fo)).
  - exact (proj1 (C66_uscf_proof L p o P Fp Fo)).
  - exact (proj1 (C66_dwz_proof L p o P Fp Fo)).
Qed.

(** ** Elo updates *)
Lemma lit_half : b64_lit 5 10 = b64 1 (-1).
Proof. apply B2SF_inj. vm_compute. reflexivity. Qed.
Lemma ext_half : fin (b64_lit 5 10) /\ ext (b64_lit 5 10) = / 2.
Proof.
  rewrite lit_half. split; [reflexivity|]. rewrite (proj2 (ext_b64 1 (-1))).
  replace (F2R (Float radix2 1 (-1))) with (bpow radix2 (-1)) by (unfold F2R; simpl; ring).
  rewrite rnd_pow2 by lia. reflexivity.
Qed.
Lemma rnd_half : rnd (/ 2) = / 2.
Proof. apply (rnd_pow2 (-1)). lia. Qed.
Lemma ext_points L o : fin (to_chess_points (A := B64A L) o) /\ ext (to_chess_points (A := B64A L) o) = points o.
Proof.
  destruct o.
  - split; [reflexivity|]. exact ext_one64.
  - split; reflexivity.
  - change (fin (b64_lit 5 10) /\ ext (b64_lit 5 10) = points DRAW).
    destruct ext_half as [A B]. split; [exact A|]. rewrite B. unfold points. lra.
Qed.
Lemma points_range o : 0 <= points o <= 1. Proof. destruct o; unfold points; lra. Qed.
Lemma ext_points2 L o :
  let o2 := Bminus mode_NE one64 (to_chess_points (A := B64A L) o) in fin o2 /\ ext o2 = 1 - points o.
Proof.
  intro o2. destruct (ext_points L o) as [F E]. destruct (ext_minus one64 _ fin_one64 F) as [N Q].
  fold o2 in N, Q. rewrite E, ext_one64 in Q.
  assert (R : rnd (1 - points o) = 1 - points o).
  { destruct o; unfold points.
    - replace (1 - 1) with 0 by lra. apply rnd_0.
    - replace (1 - 0) with 1 by lra. apply rnd_1.
    - replace (1 - 1 / 2) with (/ 2) by lra. apply rnd_half. }
  rewrite R in Q. split; [|exact Q]. apply in01_of; [exact N|]. pose proof (points_range o). lra.
Qed.

(** [k.mul_add(o - e, r)] for a score [o] and an expectation [e] in [0,1]. *)
Definition upd (k o e r : B64) : B64 := Bfma mode_NE k (Bminus mode_NE o e) r.
Lemma ext_upd k o e r : fin k -> fin o -> 0 <= ext o <= 1 -> in01 e -> fin r ->
  nn (upd k o e r) /\ ext (upd k o e r) = rnd (ext k * rnd (ext o - ext e) + ext r).
Proof.
  intros Fk Fo Bo Ie Fr. destruct (in01_inv e Ie) as [Fe Be].
  destruct (ext_minus o e Fo Fe) as [N1 E1].
  assert (F1 : fin (Bminus mode_NE o e)).
  { apply fin_iff; [exact N1|]. rewrite E1.
    assert (-1 <= rnd (ext o - ext e) <= 1).
    { split.
      - replace (-1) with (rnd (-1)) by (apply (rnd_Z (-1)); vm_compute; discriminate). apply rnd_le. lra.
      - apply Rle_trans with (rnd 1); [apply rnd_le; lra|rewrite rnd_1; lra]. }
    apply Rle_lt_trans with 1; [apply Rabs_le; lra|]. unfold M64. apply (bpow_lt radix2 0). lia. }
  destruct (ext_fma k _ r Fk F1 Fr) as [N2 E2]. rewrite E1 in E2. split; assumption.
Qed.
Lemma upd_mono k o o' e r : fin k -> 0 <= ext k -> fin o -> 0 <= ext o <= 1 -> fin o' -> 0 <= ext o' <= 1 ->
  in01 e -> fin r -> ext o <= ext o' -> le64 (upd k o e r) (upd k o' e r).
Proof.
  intros Fk Pk Fo Bo Fo' Bo' Ie Fr Hle.
  destruct (ext_upd k o e r Fk Fo Bo Ie Fr) as [N1 E1]. destruct (ext_upd k o' e r Fk Fo' Bo' Ie Fr) as [N2 E2].
  apply le64_iff; auto. rewrite E1, E2. apply rnd_le.
  assert (rnd (ext o - ext e) <= rnd (ext o' - ext e)) by (apply rnd_le; lra). nra.
Qed.
Lemma upd_up k o e r : fin k -> 0 <= ext k -> fin o -> 0 <= ext o <= 1 -> in01 e -> fin r -> ext e <= ext o ->
  le64 r (upd k o e r).
Proof.
  intros Fk Pk Fo Bo Ie Fr H. destruct (ext_upd k o e r Fk Fo Bo Ie Fr) as [N1 E1].
  apply le64_iff; auto; [apply fin_nn; auto|]. rewrite E1. rewrite <- (rnd_ext r Fr) at 1. apply rnd_le.
  assert (0 <= rnd (ext o - ext e)) by (rewrite <- rnd_0; apply rnd_le; lra). nra.
Qed.
Lemma upd_down k o e r : fin k -> 0 <= ext k -> fin o -> 0 <= ext o <= 1 -> in01 e -> fin r -> ext o <= ext e ->
  le64 (upd k o e r) r.
Proof.
  intros Fk Pk Fo Bo Ie Fr H. destruct (ext_upd k o e r Fk Fo Bo Ie Fr) as [N1 E1].
  apply le64_iff; auto; [apply fin_nn; auto|]. rewrite E1. rewrite <- (rnd_ext r Fr) at 2. apply rnd_le.
  assert (rnd (ext o - ext e) <= 0) by (rewrite <- rnd_0; apply rnd_le; lra). nra.
Qed.
Lemma upd_finite k o e r : fin k -> fin o -> 0 <= ext o <= 1 -> in01 e -> fin r ->
  Rabs (ext k) <= bpow radix2 1000 -> Rabs (ext r) <= bpow radix2 1000 -> fin (upd k o e r).
Proof.
  intros Fk Fo Bo Ie Fr Hk Hr. destruct (ext_upd k o e r Fk Fo Bo Ie Fr) as [N1 E1].
  destruct (in01_inv e Ie) as [_ Be]. apply fin_iff; [exact N1|]. rewrite E1.
  assert (D : -1 <= rnd (ext o - ext e) <= 1).
  { split.
    - replace (-1) with (rnd (-1)) by (apply (rnd_Z (-1)); vm_compute; discriminate). apply rnd_le. lra.
    - apply Rle_trans with (rnd 1); [apply rnd_le; lra|rewrite rnd_1; lra]. }
  assert (X : Rabs (ext k * rnd (ext o - ext e) + ext r) <= bpow radix2 1001).
  { replace (bpow radix2 1001) with (2 * bpow radix2 1000) by (change 1001%Z with (1 + 1000)%Z; rewrite bpow_plus; reflexivity).
    eapply Rle_trans; [apply Rabs_triang|]. rewrite Rabs_mult.
    assert (Rabs (rnd (ext o - ext e)) <= 1) by (apply Rabs_le; lra).
    pose proof (Rabs_pos (ext k)). pose proof (Rabs_pos (rnd (ext o - ext e))). nra. }
  apply Rle_lt_trans with (bpow radix2 1001); [|apply bpow_lt; lia].
  apply Rabs_le. assert (Y : - bpow radix2 1001 <= ext k * rnd (ext o - ext e) + ext r <= bpow radix2 1001)
    by (apply Rabs_le_inv; exact X).
  assert (B : rnd (bpow radix2 1001) = bpow radix2 1001) by (apply rnd_pow2; lia).
  split.
  - replace (- bpow radix2 1001) with (rnd (- bpow radix2 1001)); [apply rnd_le; lra|].
    apply rnd_id; [apply generic_format_opp, generic_format_bpow; rewrite fexp64_FLT; unfold FLT_exp; lia|].
    rewrite Rabs_Ropp, Rabs_pos_eq by apply bpow_ge_0. apply bpow_le; lia.
  - rewrite <- B. apply rnd_le; lra.
Qed.

Lemma C67_elo_proof : forall (L : Libm) (p1 p2 : EloRating B64) (cfg : EloConfig B64),
  pow10_nonneg L -> finite (elo_rating p1) -> finite (elo_rating p2) -> finite (elo_k cfg) -> le64 zero64 (elo_k cfg) ->
  let one o := elo_rating (fst (elo (A := B64A L) p1 p2 o cfg)) in
  let two o := elo_rating (snd (elo (A := B64A L) p1 p2 o cfg)) in
  le64 (elo_rating p1) (one WIN) /\ le64 (one LOSS) (elo_rating p1) /\
  le64 (two WIN) (elo_rating p2) /\ le64 (elo_rating p2) (two LOSS) /\
  le64 (one LOSS) (one DRAW) /\ le64 (one DRAW) (one WIN) /\
  le64 (two WIN) (two DRAW) /\ le64 (two DRAW) (two LOSS).
Proof.
  intros L p1 p2 cfg P F1 F2 Fk Pk one two.
  destruct (C66_elo_proof L p1 p2 P F1 F2) as [I1 I2]. apply le_Bleb in Pk. destruct Pk as [_ [_ Pk]]. rewrite ext_zero64 in Pk.
  set (e1 := fst (elo_expected_score (A := B64A L) p1 p2)) in *.
  set (e2 := snd (elo_expected_score (A := B64A L) p1 p2)) in *.
  assert (H1 : forall o, one o = upd (elo_k cfg) (to_chess_points (A := B64A L) o) e1 (elo_rating p1)) by reflexivity.
  assert (H2 : forall o, two o = upd (elo_k cfg) (Bminus mode_NE one64 (to_chess_points (A := B64A L) o)) e2 (elo_rating p2)) by reflexivity.
  rewrite !H1, !H2. destruct (in01_inv e1 I1) as [_ B1]. destruct (in01_inv e2 I2) as [_ B2].
  pose proof (fun o => proj1 (ext_points L o)) as Fp. pose proof (fun o => proj2 (ext_points L o)) as Ep.
  pose proof (fun o => proj1 (ext_points2 L o)) as Fq. pose proof (fun o => proj2 (ext_points2 L o)) as Eq. cbv zeta in Fq, Eq.
  repeat match goal with |- _ /\ _ => split end;
  [apply upd_up|apply upd_down|apply upd_down|apply upd_up|apply upd_mono..];
  rewrite ?Ep, ?Eq; auto; try (apply Fp); try (apply Fq); unfold points; try lra.
Qed.
Lemma C67_finite_proof : forall (L : Libm) (p1 p2 : EloRating B64) (o : Outcomes) (cfg : EloConfig B64),
  pow10_nonneg L -> finite (elo_rating p1) -> finite (elo_rating p2) -> finite (elo_k cfg) ->
  le64 (Babs (elo_rating p1)) (b64 1 1000) -> le64 (Babs (elo_rating p2)) (b64 1 1000) -> le64 (Babs (elo_k cfg)) (b64 1 1000) ->
  finite (elo_rating (fst (elo (A := B64A L) p1 p2 o cfg))) /\ finite (elo_rating (snd (elo (A := B64A L) p1 p2 o cfg))).
Proof.
  intros L p1 p2 o cfg P F1 F2 Fk A1 A2 Ak.
  destruct (C66_elo_proof L p1 p2 P F1 F2) as [I1 I2].
  assert (A : forall x, finite x -> le64 (Babs x) (b64 1 1000) -> Rabs (ext x) <= bpow radix2 1000).
  { intros x Fx Ax. apply le_Bleb in Ax. destruct Ax as [_ [_ Ax]]. rewrite (proj2 (ext_b64 1 1000)) in Ax.
    replace (F2R (Float radix2 1 1000)) with (bpow radix2 1000) in Ax by (unfold F2R; simpl Fnum; simpl Fexp; ring).
    rewrite rnd_pow2 in Ax by lia. rewrite ext_fin in Ax by (unfold fin; rewrite is_finite_Babs; exact Fx).
    rewrite B2R_Babs in Ax. rewrite ext_fin by exact Fx. exact Ax. }
  destruct (ext_points L o) as [Fp Ep]. destruct (ext_points2 L o) as [Fq Eq]. cbv zeta in Fq, Eq. pose proof (points_range o).
  split.
  - apply (upd_finite (elo_k cfg) (to_chess_points (A := B64A L) o) _ (elo_rating p1)); auto; rewrite ?Ep; auto.
  - apply (upd_finite (elo_k cfg) (Bminus mode_NE one64 (to_chess_points (A := B64A L) o)) _ (elo_rating p2)); auto;
    rewrite ?Eq; auto; lra.
Qed.

(** ** Floors and caps *)
Lemma max_floor x c : nn c -> le64 c (b64_max x c).
Proof.
  intro N. unfold b64_max. destruct (is_nan x) eqn:E; [apply le64_iff; auto; lra|]. rewrite N.
  destruct (Bleb x c) eqn:Q; [apply le64_iff; auto; lra|]. apply le64_iff; auto.
  rewrite Bleb_ext in Q by auto. revert Q. case Rle_bool_spec; [discriminate|]. intros; lra.
Qed.
Lemma min_cap x c : nn c -> le64 (b64_min x c) c.
Proof.
  intro N. unfold b64_min. destruct (is_nan x) eqn:E; [apply le64_iff; auto; lra|]. rewrite N.
  destruct (Bleb x c) eqn:Q; [exact Q|]. apply le64_iff; auto; lra.
Qed.
Lemma C68_uscf_proof : forall (L : Libm) (p1 p2 : USCFRating B64) (o : Outcomes) (cfg : USCFConfig B64),
  le64 (b64_of_Z 100) (uscf_rating (fst (uscf (A := B64A L) p1 p2 o cfg))) /\
  le64 (b64_of_Z 100) (uscf_rating (snd (uscf (A := B64A L) p1 p2 o cfg))).
Proof. intros. split; apply max_floor; reflexivity. Qed.
Lemma C68_egf_proof : forall (L : Libm) (p1 p2 : EGFRating B64) (o : Outcomes) (cfg : EGFConfig B64),
  le64 (b64_of_Z (-900)) (egf_rating (fst (egf (A := B64A L) p1 p2 o cfg))) /\
  le64 (b64_of_Z (-900)) (egf_rating (snd (egf (A := B64A L) p1 p2 o cfg))).
Proof.
  intros. unfold egf. destruct (egf_expected_score p1 p2 cfg). split; apply max_floor; reflexivity.
Qed.
Lemma C68_decay_proof : forall (L : Libm),
  (forall p cfg, le64 (gl_deviation (glicko_decay_deviation (A := B64A L) p cfg)) (b64_of_Z 350)) /\
  (forall p cfg, le64 (st_deviation (sticko_decay_deviation (A := B64A L) p cfg)) (b64_of_Z 350)) /\
  (forall p cfg, le64 (gb_deviation (boost_decay_deviation (A := B64A L) p cfg)) (b64_of_Z 350)) /\
  (forall p, le64 (g2_deviation (glicko2_decay_deviation (A := B64A L) p)) (b64_of_Z 350)).
Proof. intros. repeat split; intros; apply min_cap; reflexivity. Qed.
Lemma C68_games_proof : forall (L : Libm),
  (forall p1 p2 o cfg, le64 (st_deviation (fst (sticko (A := B64A L) p1 p2 o cfg))) (b64_of_Z 350) /\
                       le64 (st_deviation (snd (sticko (A := B64A L) p1 p2 o cfg))) (b64_of_Z 350)) /\
  (forall p rs cfg, le64 (st_deviation (sticko_rating_period (A := B64A L) p rs cfg)) (b64_of_Z 350)) /\
  (forall p1 p2 o cfg, le64 (gb_deviation (fst (glicko_boost (A := B64A L) p1 p2 o cfg))) (b64_of_Z 350) /\
                       le64 (gb_deviation (snd (glicko_boost (A := B64A L) p1 p2 o cfg))) (b64_of_Z 350)) /\
  (forall p rs cfg, le64 (gb_deviation (glicko_boost_rating_period (A := B64A L) p rs cfg)) (b64_of_Z 350)).
Proof.
  intros L. repeat split; intros; try (apply min_cap; reflexivity).
  - destruct rs; apply min_cap; reflexivity.
  - destruct rs; apply min_cap; reflexivity.
Qed.

(** ** FIFA knock-out *)
Lemma Bltb_irrefl (x : B64) : Bltb x x = false.
Proof.
  destruct (is_nan x) eqn:E; [destruct x; try discriminate; reflexivity|].
  rewrite Bltb_ext by exact E. apply Rlt_bool_false. lra.
Qed.
Lemma C69_game_proof : forall (L : Libm) (p1 p2 : FifaRating B64) (o : Outcomes) (cfg : FifaConfig B64),
  fifa_knockout cfg = true ->
  not_below (fifa_rating (fst (fifa (A := B64A L) p1 p2 o cfg))) (fifa_rating p1) /\
  not_below (fifa_rating (snd (fifa (A := B64A L) p1 p2 o cfg))) (fifa_rating p2).
Proof.
  intros L p1 p2 o cfg K. unfold fifa. destruct (fifa_expected_score p1 p2) as [e1 e2]. rewrite K. cbv zeta. cbn [andb fst snd fifa_rating].
  change (@fltb B64 (B64A L)) with (@Bltb 53 1024). unfold not_below.
  split; match goal with |- Bltb (if ?b then _ else _) _ = _ => destruct b eqn:E end; try apply Bltb_irrefl; exact E.
Qed.
Lemma Bfma_nan (k d : B64) : Bfma mode_NE k d B754_nan = B754_nan.
Proof. destruct k as [|[|]| |], d as [|[|]| |]; reflexivity. Qed.
Lemma not_below_trans (a b c : B64) : is_nan b = false -> not_below c b -> not_below b a -> not_below c a.
Proof.
  unfold not_below. intros N H1 H2.
  destruct (is_nan a) eqn:Ea; [destruct a; try discriminate; apply Bltb_nan_r|].
  destruct (is_nan c) eqn:Ec; [destruct c; try discriminate; apply Bltb_nan_l|].
  rewrite Bltb_ext in * by auto. revert H1 H2. repeat case Rlt_bool_spec; intros; try discriminate; try reflexivity; lra.
Qed.
Lemma fifa_nan L rs : fold_left (fifa_period_step (A := B64A L)) rs B754_nan = B754_nan.
Proof.
  induction rs as [|[[opp o] cfg] rs IH]; [reflexivity|]. simpl fold_left.
  change (@ffma B64 (B64A L)) with (@Bfma 53 1024 _ _ mode_NE). rewrite Bfma_nan.
  destruct (negb _); exact IH.
Qed.
Lemma C69_period_proof : forall (L : Libm) (p : FifaRating B64) (rs : list (FifaRating B64 * Outcomes * FifaConfig B64)),
  Forall (fun r => fifa_knockout (snd r) = true) rs ->
  not_below (fifa_rating (fifa_rating_period (A := B64A L) p rs)) (fifa_rating p).
Proof.
  intros L [r] rs K. unfold fifa_rating_period. simpl fifa_rating.

  generalize dependent r. induction K as [|[[opp o] cfg] rs K _ IH]; intro s; [apply Bltb_irrefl|].
  simpl fold_left. simpl in K. rewrite K. cbn [andb].
  change (@fltb B64 (B64A L)) with (@Bltb 53 1024).
  match goal with |- context [Bltb ?n s] => set (n' := n) end.
  destruct (is_nan n') eqn:E.
  - assert (Q : n' = B754_nan) by (destruct n'; try discriminate; reflexivity). rewrite Q, Bltb_nan_l. cbn [negb].
    rewrite fifa_nan. apply Bltb_nan_l.
  - destruct (Bltb n' s) eqn:B; cbn [negb]; [apply IH|]. apply not_below_trans with n'; auto.
Qed.
