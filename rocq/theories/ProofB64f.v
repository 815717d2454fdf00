(** Proofs of the IEEE-754 binary64 properties, sixth part: FIFA, USCF and DWZ. *)
From Coq Require Import ZArith NArith List Bool Reals Lra Lia Psatz.
From Flocq Require Import Core.Core IEEE754.BinarySingleNaN.
From Verif Require Import Arith B64 MathB64 MathB64b SpecB64 ModelLib ModelFifa ModelUscf ModelDwz Spec ProofB64 ProofB64b ProofB64c ProofB64d ProofB64e.
Import ListNotations.
Local Open Scope R_scope.

(** ** FIFA *)
Lemma lit_between m d : nn (b64_lit m d) -> Bleb zero64 (b64_lit m d) = true -> Bleb (b64_lit m d) one64 = true ->
  fin (b64_lit m d) /\ 0 <= ext (b64_lit m d) <= 1.
Proof.
  intros N H1 H2. apply le_Bleb in H1, H2. rewrite ext_zero64 in H1. rewrite ext_one64 in H2.
  split; [apply (fin_le _ 0); [exact N|lia|simpl; tauto]|tauto].
Qed.
Lemma fifa_o1 L cfg o : fin (fifa_outcome1 (A := B64A L) cfg o) /\ 0 <= ext (fifa_outcome1 (A := B64A L) cfg o) <= 1 /\
  (fifa_penalties cfg = false -> ext (fifa_outcome1 (A := B64A L) cfg o) = points o).
Proof.
  unfold fifa_outcome1. destruct (fifa_penalties cfg).
  - destruct (outcome_eqb o WIN).
    + destruct (lit_between 75 100) as [F B]; try (vm_compute; reflexivity). split; [exact F|]. split; [exact B|discriminate].
    + destruct (lit_between 5 10) as [F B]; try (vm_compute; reflexivity). split; [exact F|]. split; [exact B|discriminate].
  - destruct (ext_points L o) as [F E]. pose proof (points_range o). split; [exact F|]. rewrite E. split; [lra|reflexivity].
Qed.
Lemma fifa_o2 L cfg o : fin (fifa_outcome2 (A := B64A L) cfg o) /\ 0 <= ext (fifa_outcome2 (A := B64A L) cfg o) <= 1 /\
  (fifa_penalties cfg = false -> ext (fifa_outcome2 (A := B64A L) cfg o) = 1 - points o).
Proof.
  unfold fifa_outcome2, fifa_outcome1. destruct (fifa_penalties cfg).
  - destruct (outcome_eqb o WIN).
    + destruct (lit_between 75 100) as [F B]; try (vm_compute; reflexivity). split; [exact F|]. split; [exact B|discriminate].
    + destruct (lit_between 5 10) as [F B]; try (vm_compute; reflexivity). split; [exact F|]. split; [exact B|discriminate].
  - destruct (ext_points2 L o) as [F E]. cbv zeta in F, E. pose proof (points_range o). split; [exact F|].
    change (@fsub B64 (B64A L)) with (Bminus mode_NE (prec := 53) (emax := 1024)). change (@fofZ B64 (B64A L) 1) with one64. rewrite E. split; [lra|reflexivity].
Qed.
#[local] Opaque Bplus Bminus Bmult Bdiv Bsqrt Bfma Bopp b64 b64_of_Z b64_min b64_max b64_lit.
Lemma C97_fifa_proof : forall (L : Libm) (p1 p2 : FifaRating B64) (o : Outcomes) (cfg : FifaConfig B64),
  pow10_nonneg L -> finite (fifa_rating p1) -> finite (fifa_rating p2) -> finite (fifa_importance cfg) ->
  le_2 1000 (fifa_rating p1) -> le_2 1000 (fifa_rating p2) -> le_2 1000 (fifa_importance cfg) ->
  finite (fifa_rating (fst (fifa (A := B64A L) p1 p2 o cfg))) /\ finite (fifa_rating (snd (fifa (A := B64A L) p1 p2 o cfg))).
Proof.
  intros L p1 p2 o cfg P F1 F2 Fk A1 A2 Ak. destruct (C66_fifa_proof L p1 p2 P F1 F2) as [I1 I2].
  pose proof (fun x F A => le_2_ext 1000 x ltac:(lia) F A) as T.
  destruct (fifa_o1 L cfg o) as [Fo1 [Bo1 _]]. destruct (fifa_o2 L cfg o) as [Fo2 [Bo2 _]].
  unfold fifa. destruct (fifa_expected_score p1 p2) as [e1 e2]. cbn [fst snd] in I1, I2. cbn [fst snd fifa_rating].
  split; match goal with |- finite (if ?b then _ else _) => destruct b end; auto.
  - exact (upd_finite _ _ _ _ Fk Fo1 Bo1 I1 F1 (T _ Fk Ak) (T _ F1 A1)).
  - exact (upd_finite _ _ _ _ Fk Fo2 Bo2 I2 F2 (T _ Fk Ak) (T _ F2 A2)).
Qed.
Lemma C98_fifa_proof : forall (L : Libm) (p1 p2 : FifaRating B64) (cfg : FifaConfig B64),
  pow10_nonneg L -> finite (fifa_rating p1) -> finite (fifa_rating p2) -> finite (fifa_importance cfg) ->
  le64 zero64 (fifa_importance cfg) -> fifa_penalties cfg = false ->
  let one o := fifa_rating (fst (fifa (A := B64A L) p1 p2 o cfg)) in
  let two o := fifa_rating (snd (fifa (A := B64A L) p1 p2 o cfg)) in
  le64 (fifa_rating p1) (one WIN) /\ le64 (one LOSS) (fifa_rating p1) /\
  le64 (two WIN) (fifa_rating p2) /\ le64 (fifa_rating p2) (two LOSS).
Proof.
  intros L p1 p2 cfg P F1 F2 Fk Pk Np one two. destruct (C66_fifa_proof L p1 p2 P F1 F2) as [I1 I2].
  apply le64_ext in Pk. rewrite ext_zero64 in Pk. subst one two. unfold fifa.
  destruct (fifa_expected_score p1 p2) as [e1 e2]. cbn [fst snd] in I1, I2. cbn [fst snd fifa_rating].
  destruct (in01_inv e1 I1) as [_ B1]. destruct (in01_inv e2 I2) as [_ B2].
  assert (R : forall r, fin r -> le64 r r) by (intros r Fr; apply le64_iff; [apply fin_nn, Fr..|lra]).
  repeat match goal with |- _ /\ _ => split end;
  match goal with |- context [if ?b then _ else _] => destruct b end; auto.
  - destruct (fifa_o1 L cfg WIN) as [Fo [Bo Eo]]. apply (upd_up _ _ _ _ Fk Pk Fo Bo I1 F1). rewrite (Eo Np). unfold points. lra.
  - destruct (fifa_o1 L cfg LOSS) as [Fo [Bo Eo]]. apply (upd_down _ _ _ _ Fk Pk Fo Bo I1 F1). rewrite (Eo Np). unfold points. lra.
  - destruct (fifa_o2 L cfg WIN) as [Fo [Bo Eo]]. apply (upd_down _ _ _ _ Fk Pk Fo Bo I2 F2). rewrite (Eo Np). unfold points. lra.
  - destruct (fifa_o2 L cfg LOSS) as [Fo [Bo Eo]]. apply (upd_up _ _ _ _ Fk Pk Fo Bo I2 F2). rewrite (Eo Np). unfold points. lra.
Qed.

(** ** USCF *)
Lemma c739 : fin (b64_lit 739 100000000) /\ 0 <= ext (b64_lit 739 100000000) <= 1.
Proof. apply lit_between; vm_compute; reflexivity. Qed.
Lemma c662 : fin (b64_lit 662 1000) /\ / 4 <= ext (b64_lit 662 1000) <= 1.
Proof.
  destruct (lit_between 662 1000) as [F B]; try (vm_compute; reflexivity). split; [exact F|]. split; [|apply B].
  assert (H : Bleb (b64 1 (-2)) (b64_lit 662 1000) = true) by (vm_compute; reflexivity). apply le64_ext in H.
  rewrite (proj2 (ext_pow2 (-2) ltac:(lia))) in H. simpl in H. exact H.
Qed.
Lemma min_range x y a : nn x -> nn y -> 0 <= ext x -> 0 <= ext y <= a -> nn (b64_min x y) /\ 0 <= ext (b64_min x y) <= a.
Proof.
  Transparent b64_min. intros Nx Ny Px By. unfold b64_min. rewrite Nx, Ny. rewrite Bleb_ext by assumption.
  case Rle_bool_spec; intro H; split; auto; lra.
Qed.
#[local] Opaque b64_min.
Lemma max_range x y : nn x -> nn y -> nn (b64_max x y) /\ ext (b64_max x y) = Rmax (ext x) (ext y).
Proof.
  Transparent b64_max. intros Nx Ny. unfold b64_max. rewrite Nx, Ny. rewrite Bleb_ext by assumption.
  case Rle_bool_spec; intro H; split; auto; [rewrite Rmax_right|rewrite Rmax_left]; lra.
Qed.
#[local] Opaque b64_max.
Lemma ofN_ge0 L n : nn (fofN (A := B64A L) n) /\ 0 <= ext (fofN (A := B64A L) n).
Proof.
  unfold fofN. change (fofZ (Arith := B64A L) (Z.of_N n)) with (b64 (Z.of_N n) 0). destruct (ext_b64 (Z.of_N n) 0) as [N E]. split; [exact N|].
  rewrite E. apply rnd_nonneg. apply F2R_ge_0. simpl. lia.
Qed.
Lemma Z50 : fin (b64_of_Z 50) /\ ext (b64_of_Z 50) = 50. Proof. apply ext_ofZ. vm_compute. discriminate. Qed.
Lemma uscf_ne L r n : fin r -> Rabs (ext r) <= bpow radix2 500 ->
  let ne := uscf_effective_game_number (A := B64A L) r n in nn ne /\ 0 <= ext ne <= 50.
Proof.
  intros Fr Br ne. subst ne. unfold uscf_effective_game_number. destruct Z50 as [F50 E50].
  destruct (ofN_ge0 L n) as [Nn Pn].
  destruct (min_range (fofN (A := B64A L) n) (b64_of_Z 50) 50 Nn (fin_nn _ F50) Pn ltac:(lra)) as [Nm Bm].
  apply min_range; auto.
  - match goal with |- nn (if ?b then _ else _) => destruct b; [|apply fin_nn, F50] end.
    destruct c739 as [Fc Bc], c662 as [Fd Bd].
    destruct (ext_ofZ 2569 ltac:(vm_compute; discriminate)) as [F1 E1].
    assert (B1 : Rabs (ext (b64_of_Z 2569)) <= bpow radix2 500).
    { rewrite E1, Rabs_pos_eq by lra. apply Rle_trans with (bpow radix2 12); [simpl; lra|apply bpow_le; lia]. }
    destruct (minus_pow _ r 500 F1 Fr ltac:(lia) B1 Br) as [F2 B2].
    destruct (mult_pow _ _ 501 501 F2 F2 ltac:(lia) ltac:(lia) ltac:(lia) B2 B2) as [F3 B3].
    pose proof (sp_ge0 _ (sp_sq _ (fin_nn _ F2))) as P3.
    destruct (ext_fma _ _ _ Fc F3 Fd) as [N4 E4].
    match type of E4 with ext ?x = _ => set (t := x) in * end.
    assert (B4 : / 4 <= ext t).
    { rewrite E4. replace (/ 4) with (rnd (bpow radix2 (-2))) by (rewrite rnd_pow2 by lia; reflexivity). apply rnd_le.
      simpl. pose proof (Rmult_le_pos _ _ (proj1 Bc) P3). lra. }
    assert (S4 : sp t) by (apply sp_of; [exact N4|lra]). destruct (sp_sqrt t S4) as [S5 _].
    destruct (sp_div (b64_of_Z 50) _ ltac:(apply sp_ofZ; lia) F50 ltac:(lra) S5) as [S6 _]. apply S6.
  - match goal with |- 0 <= ext (if ?b then _ else _) => destruct b; [|change (0 <= ext (b64_of_Z 50)); rewrite E50; lra] end.
    destruct c739 as [Fc Bc], c662 as [Fd Bd].
    destruct (ext_ofZ 2569 ltac:(vm_compute; discriminate)) as [F1 E1].
    assert (B1 : Rabs (ext (b64_of_Z 2569)) <= bpow radix2 500).
    { rewrite E1, Rabs_pos_eq by lra. apply Rle_trans with (bpow radix2 12); [simpl; lra|apply bpow_le; lia]. }
    destruct (minus_pow _ r 500 F1 Fr ltac:(lia) B1 Br) as [F2 B2].
    destruct (mult_pow _ _ 501 501 F2 F2 ltac:(lia) ltac:(lia) ltac:(lia) B2 B2) as [F3 B3].
    pose proof (sp_ge0 _ (sp_sq _ (fin_nn _ F2))) as P3.
    destruct (ext_fma _ _ _ Fc F3 Fd) as [N4 E4].
    match type of E4 with ext ?x = _ => set (t := x) in * end.
    assert (B4 : / 4 <= ext t).
    { rewrite E4. replace (/ 4) with (rnd (bpow radix2 (-2))) by (rewrite rnd_pow2 by lia; reflexivity). apply rnd_le.
      simpl. pose proof (Rmult_le_pos _ _ (proj1 Bc) P3). lra. }
    assert (S4 : sp t) by (apply sp_of; [exact N4|lra]). destruct (sp_sqrt t S4) as [S5 _].
    destruct (sp_div (b64_of_Z 50) _ ltac:(apply sp_ofZ; lia) F50 ltac:(lra) S5) as [S6 _]. exact (sp_ge0 _ S6).
Qed.
(** 800 / (x + 1) for 0 <= x <= 1000 *)
Lemma k800 x : nn x -> 0 <= ext x <= 1000 ->
  let k := Bdiv mode_NE (b64_of_Z 800) (Bplus mode_NE x one64) in fin k /\ 0 <= ext k <= 800.
Proof.
  intros Nx Bx k. assert (Fx : fin x) by (apply (fin_le _ 10); [exact Nx|lia|simpl; lra]).
  destruct (ext_plus x one64 Fx fin_one64) as [Ns Es]. rewrite ext_one64 in Es.
  assert (Bs : 1 <= ext (Bplus mode_NE x one64) <= bpow radix2 10).
  { rewrite Es. split; [rewrite <- rnd_1 at 1; apply rnd_le; lra|]. apply rnd_le_pow; [lia|]. simpl. lra. }
  assert (Fs : fin (Bplus mode_NE x one64)) by (apply (fin_le _ 10); [exact Ns|lia|lra]).
  destruct (ext_ofZ 800 ltac:(vm_compute; discriminate)) as [F8 E8].
  destruct (ext_div _ _ F8 Fs ltac:(lra)) as [Nk Ek]. fold k in Nk, Ek. rewrite E8 in Ek.
  set (s := ext (Bplus mode_NE x one64)) in *. clearbody s.
  assert (Bk : 0 <= ext k <= 800).
  { rewrite Ek. split; [apply rnd_nonneg; apply Rmult_le_pos; [lra|]; left; apply Rinv_0_lt_compat; lra|].
    replace 800 with (rnd 800) at 2 by (apply (rnd_Z 800); vm_compute; discriminate). apply rnd_le.
    unfold Rdiv. rewrite <- (Rmult_1_r 800) at 2. apply Rmult_le_compat_l; [lra|]. rewrite <- Rinv_1. apply Rinv_le_contravar; lra. }
  split; [|exact Bk]. apply (fin_le _ 10); [exact Nk|lia|simpl; lra].
Qed.
Lemma b800 k : 0 <= k <= 800 -> Rabs k <= bpow radix2 1000.
Proof. intro H. rewrite Rabs_pos_eq by lra. apply Rle_trans with (bpow radix2 10); [simpl; lra|apply bpow_le; lia]. Qed.
Lemma plus0 x : fin x -> fin (Bplus mode_NE x (b64_of_Z 0)) /\ ext (Bplus mode_NE x (b64_of_Z 0)) = ext x.
Proof.
  intro F. destruct (ext_plus x zero64 F eq_refl) as [N E]. rewrite ext_zero64, Rplus_0_r, rnd_ext in E by exact F.
  split; [|exact E]. apply (proj2 (fin_iff _ N)). fold zero64. rewrite E. apply ext_abs_fin, F.
Qed.
Lemma uscf_est L r n o e cfg : fin r -> Rabs (ext r) <= bpow radix2 500 -> fin o -> 0 <= ext o <= 1 -> in01 e ->
  let new := uscf_new_rating (A := B64A L) r n 1 o e cfg in
  fin new /\ (ext o = 1 -> ext r <= ext new) /\ (ext o = 0 -> ext new <= ext r).
Proof.
  intros Fr Br Fo Bo Ie new. destruct (uscf_ne L r n Fr Br) as [Nn Bn]. set (ne := uscf_effective_game_number (A := B64A L) r n) in *.
  destruct (k800 ne Nn ltac:(lra)) as [Fk Bk]. set (k := Bdiv mode_NE (b64_of_Z 800) (Bplus mode_NE ne one64)) in *.
  assert (H : new = Bplus mode_NE (upd k o e r) (b64_of_Z 0)) by reflexivity.
  pose proof (upd_finite k o e r Fk Fo Bo Ie Fr (b800 _ Bk) (le_up _ 500 1000 ltac:(lia) Br)) as Fu.
  destruct (plus0 _ Fu) as [Fn En]. rewrite <- H in Fn, En. split; [exact Fn|]. rewrite En. destruct (in01_inv e Ie) as [_ Be]. split; intro Ho.
  - apply le64_ext, upd_up; auto; lra.
  - apply le64_ext, upd_down; auto; lra.
Qed.
Lemma uscf_prov L r n r2 (a b : Z) : fin r -> fin r2 -> Rabs (ext r) <= bpow radix2 500 -> Rabs (ext r2) <= bpow radix2 500 ->
  (n <= 8)%N -> (-1 <= a - b <= 1)%Z -> fin (uscf_new_rating_provisional (A := B64A L) r n 1 r2 a b).
Proof.
  intros Fr F2 Br B2 Hn Hab. unfold uscf_new_rating_provisional.
  destruct (ext_ofZ (a - b) ltac:(lia)) as [Fd Ed]. destruct (ext_ofZ 400 ltac:(vm_compute; discriminate)) as [F4 E4].
  destruct (ext_ofZ (Z.of_N n) ltac:(lia)) as [Fn En]. destruct (ext_ofZ 1 ltac:(vm_compute; discriminate)) as [F1 E1].
  assert (Bn : Rabs (ext (b64_of_Z (Z.of_N n))) <= bpow radix2 3).
  { rewrite En, <- abs_IZR. change (bpow radix2 3) with (IZR 8). apply IZR_le. lia. }
  destruct (mult_pow (b64_of_Z 1) r2 0 500 F1 F2 ltac:(lia) ltac:(lia) ltac:(lia) ltac:(rewrite E1, Rabs_pos_eq; simpl; lra) B2) as [Fm Bm].
  set (m := Bmult mode_NE (b64_of_Z 1) r2) in *. change (0 + 500)%Z with 500%Z in Bm.
  assert (G : forall x y z a b c, fin x -> fin y -> fin z -> (0 <= a)%Z -> (0 <= b)%Z -> (a + b <= c)%Z -> (c <= 1022)%Z ->
    Rabs (ext x) <= bpow radix2 a -> Rabs (ext y) <= bpow radix2 b -> Rabs (ext z) <= bpow radix2 c ->
    fin (Bfma mode_NE x y z) /\ Rabs (ext (Bfma mode_NE x y z)) <= bpow radix2 (c + 1)).
  { intros x y z a0 b0 c0 Fx Fy Fz Ha Hb Hc Hc' Bx By Bz. destruct (ext_fma x y z Fx Fy Fz) as [N E].
    assert (B : Rabs (ext (Bfma mode_NE x y z)) <= bpow radix2 (c0 + 1)).
    { rewrite E. apply rnd_abs_pow; [lia|]. rewrite bpow_1. eapply Rle_trans; [apply Rabs_triang|]. rewrite Rabs_mult.
      assert (Rabs (ext x) * Rabs (ext y) <= bpow radix2 c0).
      { apply Rle_trans with (bpow radix2 a0 * bpow radix2 b0); [apply Rmult_le_compat; auto using Rabs_pos|]. rewrite <- bpow_plus. apply bpow_le, Hc. }
      lra. }
    split; [|exact B]. apply (fin_abs_le _ (c0 + 1)); [exact N|lia|exact B]. }
  destruct (G (b64_of_Z (Z.of_N n)) r m 3%Z 500%Z 503%Z Fn Fr Fm ltac:(lia) ltac:(lia) ltac:(lia) ltac:(lia) Bn Br (le_up _ 500 503 ltac:(lia) Bm)) as [Ff Bf].
  assert (Bd : Rabs (ext (b64_of_Z (a - b))) <= bpow radix2 0).
  { rewrite Ed, <- abs_IZR. change (bpow radix2 0) with (IZR 1). apply IZR_le. lia. }
  assert (B4 : Rabs (ext (b64_of_Z 400)) <= bpow radix2 9) by (rewrite E4, Rabs_pos_eq; simpl; lra).
  destruct (G _ _ _ 0%Z 9%Z 504%Z Fd F4 Ff ltac:(lia) ltac:(lia) ltac:(lia) ltac:(lia) Bd B4 Bf) as [Fs Bs].
  set (s := Bfma mode_NE (b64_of_Z (a - b)) (b64_of_Z 400) (Bfma mode_NE (b64_of_Z (Z.of_N n)) r m)) in *.
  assert (U : usize_add n 1 = (n + 1)%N) by (unfold usize_add, usize_max_plus1; apply N.mod_small; lia).
  rewrite U. destruct (ext_ofZ (Z.of_N (n + 1)) ltac:(lia)) as [Fk Ek].
  assert (Pk : 1 <= ext (b64_of_Z (Z.of_N (n + 1)))) by (rewrite Ek; apply (IZR_le 1); lia).
  destruct (ext_div s (b64_of_Z (Z.of_N (n + 1))) Fs Fk ltac:(lra)) as [N E].
  apply (fin_abs_le _ 505); [exact N|lia|]. change (Rabs (ext (Bdiv mode_NE s (b64_of_Z (Z.of_N (n + 1))))) <= bpow radix2 505).
  rewrite E. apply rnd_abs_pow; [lia|].
  unfold Rdiv. rewrite Rabs_mult, (Rabs_inv (ext (b64_of_Z _))), (Rabs_pos_eq (ext (b64_of_Z _))) by lra.
  apply Rle_trans with (2 := Bs). rewrite <- (Rmult_1_r (Rabs (ext s))) at 2. apply Rmult_le_compat_l; [apply Rabs_pos|].
  rewrite <- Rinv_1. apply Rinv_le_contravar; lra.
Qed.
Lemma fin_max x z : fin x -> (Z.abs z <= 2 ^ 53)%Z -> fin (b64_max x (b64_of_Z z)) /\ ext (b64_max x (b64_of_Z z)) = Rmax (ext x) (IZR z).
Proof.
  intros F Hz. destruct (ext_ofZ z Hz) as [Fz Ez]. destruct (max_range x _ (fin_nn _ F) (fin_nn _ Fz)) as [N E]. rewrite Ez in E.
  split; [|exact E]. apply (proj2 (fin_iff _ N)). rewrite E, <- Ez. unfold Rmax. destruct (Rle_dec _ _); apply ext_abs_fin; assumption.
Qed.
Lemma zb o : (-1 <= Z_of_bool (outcome_eqb o WIN) - Z_of_bool (outcome_eqb o LOSS) <= 1)%Z /\
  (-1 <= Z_of_bool (outcome_eqb o LOSS) - Z_of_bool (outcome_eqb o WIN) <= 1)%Z.
Proof. destruct o; simpl; lia. Qed.
Lemma C97_uscf_proof : forall (L : Libm) (p1 p2 : USCFRating B64) (o : Outcomes) (cfg : USCFConfig B64),
  pow10_nonneg L -> finite (uscf_rating p1) -> finite (uscf_rating p2) -> le_2 500 (uscf_rating p1) -> le_2 500 (uscf_rating p2) ->
  finite (uscf_rating (fst (uscf (A := B64A L) p1 p2 o cfg))) /\ finite (uscf_rating (snd (uscf (A := B64A L) p1 p2 o cfg))).
Proof.
  intros L p1 p2 o cfg P F1 F2 A1 A2. pose proof (le_2_ext 500 _ ltac:(lia) F1 A1) as B1. pose proof (le_2_ext 500 _ ltac:(lia) F2 A2) as B2.
  destruct (C66_uscf_proof L p1 p2 P F1 F2) as [I1 _]. destruct (C66_uscf_proof L p2 p1 P F2 F1) as [I2 _].
  destruct (ext_points L o) as [Fp Ep]. destruct (ext_points2 L o) as [Fs Es]. cbv zeta in Fs, Es. pose proof (points_range o) as R.
  unfold uscf. cbn [fst snd uscf_rating]. destruct (zb o) as [Z1 Z2].
  split; (eapply fin_max; [|vm_compute; discriminate]); match goal with |- context [(?n <=? 8)%N] => destruct (N.leb_spec n 8) end.
  - apply uscf_prov; auto.
  - apply (uscf_est L _ _ _ _ cfg F1 B1 Fp ltac:(rewrite Ep; lra) I1).
  - apply uscf_prov; auto.
  - apply (uscf_est L _ _ _ _ cfg F2 B2 Fs ltac:(rewrite Es; lra) I2).
Qed.
Lemma C98_uscf_proof : forall (L : Libm) (p1 p2 : USCFRating B64) (cfg : USCFConfig B64),
  pow10_nonneg L -> finite (uscf_rating p1) -> finite (uscf_rating p2) -> le_2 500 (uscf_rating p1) -> le_2 500 (uscf_rating p2) ->
  le64 (b64_of_Z 100) (uscf_rating p1) -> le64 (b64_of_Z 100) (uscf_rating p2) ->
  let one o := uscf_rating (fst (uscf (A := B64A L) p1 p2 o cfg)) in
  let two o := uscf_rating (snd (uscf (A := B64A L) p1 p2 o cfg)) in
  ((8 < uscf_games p1)%N -> le64 (uscf_rating p1) (one WIN) /\ le64 (one LOSS) (uscf_rating p1)) /\
  ((8 < uscf_games p2)%N -> le64 (two WIN) (uscf_rating p2) /\ le64 (uscf_rating p2) (two LOSS)).
Proof.
  intros L p1 p2 cfg P F1 F2 A1 A2 G1 G2 one two.
  pose proof (le_2_ext 500 _ ltac:(lia) F1 A1) as B1. pose proof (le_2_ext 500 _ ltac:(lia) F2 A2) as B2.
  destruct (C66_uscf_proof L p1 p2 P F1 F2) as [I1 _]. destruct (C66_uscf_proof L p2 p1 P F2 F1) as [I2 _].
  pose proof (fun o => proj1 (ext_points L o)) as Fp. pose proof (fun o => proj2 (ext_points L o)) as Ep.
  pose proof (fun o => proj1 (ext_points2 L o)) as Fs. pose proof (fun o => proj2 (ext_points2 L o)) as Es. cbv zeta in Fs, Es.
  assert (E100 : ext (b64_of_Z 100) = 100) by (apply (ext_ofZ 100); vm_compute; discriminate).
  apply le64_ext in G1, G2. rewrite E100 in G1, G2.
  subst one two. unfold uscf. cbn [fst snd uscf_rating].
  assert (M : forall r x, fin r -> fin x -> 100 <= ext r -> (ext r <= ext x -> le64 r (b64_max x (b64_of_Z 100))) /\
                                          (ext x <= ext r -> le64 (b64_max x (b64_of_Z 100)) r)).
  { intros r x Fr Fx Hr. destruct (fin_max x 100 Fx ltac:(vm_compute; discriminate)) as [Fm Em].
    split; intro H; apply le64_iff; try (apply fin_nn; assumption); rewrite Em; unfold Rmax; destruct (Rle_dec _ _); lra. }
  split; intro Hg; (rewrite (proj2 (N.leb_gt _ _) Hg)).
  - destruct (uscf_est L _ (uscf_games p1) _ _ cfg F1 B1 (Fp WIN) ltac:(rewrite Ep; unfold points; lra) I1) as [Fw [W _]].
    destruct (uscf_est L _ (uscf_games p1) _ _ cfg F1 B1 (Fp LOSS) ltac:(rewrite Ep; unfold points; lra) I1) as [Fl [_ V]].
    rewrite Ep in W, V. split; [apply (M _ _ F1 Fw G1), W|apply (M _ _ F1 Fl G1), V]; reflexivity.
  - destruct (uscf_est L _ (uscf_games p2) _ _ cfg F2 B2 (Fs LOSS) ltac:(rewrite Es; unfold points; lra) I2) as [Fw [W _]].
    destruct (uscf_est L _ (uscf_games p2) _ _ cfg F2 B2 (Fs WIN) ltac:(rewrite Es; unfold points; lra) I2) as [Fl [_ V]].
    rewrite Es in W, V. split; [apply (M _ _ F2 Fl G2), V|apply (M _ _ F2 Fw G2), W]; unfold points; lra.
Qed.

(** ** DWZ *)
Lemma fma_pow x y z a b c : fin x -> fin y -> fin z -> (0 <= a)%Z -> (0 <= b)%Z -> (a + b <= c)%Z -> (c <= 1022)%Z ->
  Rabs (ext x) <= bpow radix2 a -> Rabs (ext y) <= bpow radix2 b -> Rabs (ext z) <= bpow radix2 c ->
  fin (Bfma mode_NE x y z) /\ Rabs (ext (Bfma mode_NE x y z)) <= bpow radix2 (c + 1).
Proof.
  intros Fx Fy Fz Ha Hb Hc Hc' Bx By Bz. destruct (ext_fma x y z Fx Fy Fz) as [N E].
  assert (B : Rabs (ext (Bfma mode_NE x y z)) <= bpow radix2 (c + 1)).
  { rewrite E. apply rnd_abs_pow; [lia|]. rewrite bpow_1. eapply Rle_trans; [apply Rabs_triang|]. rewrite Rabs_mult.
    assert (Rabs (ext x) * Rabs (ext y) <= bpow radix2 c).
    { apply Rle_trans with (bpow radix2 a * bpow radix2 b); [apply Rmult_le_compat; auto using Rabs_pos|]. rewrite <- bpow_plus. apply bpow_le, Hc. }
    lra. }
  split; [|exact B]. apply (fin_abs_le _ (c + 1)); [exact N|lia|exact B].
Qed.
Lemma div_ge1 x z e : fin x -> (1 <= z <= 2 ^ 53)%Z -> (0 <= e <= 1022)%Z -> Rabs (ext x) <= bpow radix2 e ->
  fin (Bdiv mode_NE x (b64_of_Z z)) /\ Rabs (ext (Bdiv mode_NE x (b64_of_Z z))) <= bpow radix2 e.
Proof.
  intros Fx Hz He Bx. destruct (ext_ofZ z ltac:(lia)) as [Fz Ez]. assert (1 <= IZR z) by (apply (IZR_le 1); lia).
  destruct (ext_div x (b64_of_Z z) Fx Fz ltac:(rewrite Ez; lra)) as [N E].
  assert (B : Rabs (ext (Bdiv mode_NE x (b64_of_Z z))) <= bpow radix2 e).
  { rewrite E, Ez. apply rnd_abs_pow; [lia|]. unfold Rdiv. rewrite Rabs_mult, Rabs_inv, (Rabs_pos_eq (IZR z)) by lra.
    apply Rle_trans with (2 := Bx). rewrite <- (Rmult_1_r (Rabs (ext x))) at 2. apply Rmult_le_compat_l; [apply Rabs_pos|].
    rewrite <- Rinv_1. apply Rinv_le_contravar; lra. }
  split; [|exact B]. apply (fin_abs_le _ e); [exact N|lia|exact B].
Qed.
Lemma Zc z : (0 <= z <= 1000)%Z -> fin (b64_of_Z z) /\ ext (b64_of_Z z) = IZR z.
Proof. intro. apply ext_ofZ. lia. Qed.
Lemma Zabs z : (0 <= z <= 1000)%Z -> Rabs (ext (b64_of_Z z)) <= bpow radix2 10.
Proof.
  intro H. rewrite (proj2 (Zc z H)), <- abs_IZR. apply Rle_trans with (IZR 1024); [apply IZR_le; lia|]. simpl. lra.
Qed.
Lemma min_range' x y a : nn x -> nn y -> 0 <= ext x <= a -> 0 <= ext y -> nn (b64_min x y) /\ 0 <= ext (b64_min x y) <= a.
Proof.
  Transparent b64_min. intros Nx Ny Bx Py. unfold b64_min. rewrite Nx, Ny. rewrite Bleb_ext by assumption.
  case Rle_bool_spec; intro H; split; auto; lra.
Qed.
#[local] Opaque b64_min.
Lemma ofN_sp L n : sp (fofN (A := B64A L) n).
Proof.
  destruct (ofN_ge0 L n) as [N _]. unfold fofN in *. change (fofZ (Arith := B64A L) (Z.of_N n)) with (b64 (Z.of_N n) 0) in *.
  destruct n as [|p]; [split; reflexivity|]. apply sp_of; [exact N|]. destruct (ext_b64 (Z.of_N (Npos p)) 0) as [_ E]. rewrite E.
  apply Rlt_le_trans with 1; [lra|]. rewrite <- rnd_1 at 1. apply rnd_le. unfold F2R. simpl Fnum. simpl Fexp. simpl bpow.
  rewrite Rmult_1_r. apply (IZR_le 1). lia.
Qed.
Lemma Bfma_inf a e0 : fin a -> fin e0 -> nn (Bfma mode_NE a e0 (B754_infinity false)).
Proof. Transparent Bfma. intros Fa Fe. destruct a, e0; try discriminate; reflexivity. Qed.
#[local] Opaque Bfma.
Lemma dwz_ev L r age s x i : expm1_nonneg L -> fin r -> Rabs (ext r) <= bpow radix2 200 ->
  let e := dwz_e_value (A := B64A L) r age s x i in nn e /\ 0 <= ext e <= 1000.
Proof.
  intros Hm Fr Br e.
  destruct (Zc 5 ltac:(lia)) as [F5 E5]. destruct (Zc 30 ltac:(lia)) as [F30 E30]. destruct (Zc 150 ltac:(lia)) as [F150 E150].
  assert (J : exists j, (0 <= j <= 1000)%Z /\ (if (age <=? 20)%N then b64_of_Z 5 else if (age <=? 25)%N then b64_of_Z 10 else b64_of_Z 15) = b64_of_Z j).
  { destruct (age <=? 20)%N; [exists 5%Z|destruct (age <=? 25)%N; [exists 10%Z|exists 15%Z]]; split; auto; lia. }
  destruct J as [j [Hj Ej]]. destruct (Zc j Hj) as [Fj _]. pose proof (Zabs j Hj) as Bj.
  destruct (div_ge1 r 1000 200 Fr ltac:(lia) ltac:(lia) Br) as [Fd Bd].
  destruct (mult_pow _ _ 200 200 Fd Fd ltac:(lia) ltac:(lia) ltac:(lia) Bd Bd) as [Fq Bq].
  destruct (mult_pow _ _ 400 400 Fq Fq ltac:(lia) ltac:(lia) ltac:(lia) Bq Bq) as [Fr4 Br4].
  destruct (plus_pow _ (b64_of_Z j) 800 Fr4 Fj ltac:(lia) Br4 (le_up _ 10 800 ltac:(lia) Bj)) as [Fe0 Be0].
  assert (Aa : exists a, fin a /\ Rabs (ext a) <= bpow radix2 200 /\
    a = if (age <? 20)%N && fleb (Arith := B64A L) x s then Bdiv mode_NE r (b64_of_Z 2000) else b64_of_Z 1).
  { eexists. split; [|split; [|reflexivity]].
    - destruct (_ && _); [apply (div_ge1 r 2000 200); auto; lia|reflexivity].
    - destruct (_ && _); [apply (div_ge1 r 2000 200); auto; lia|]. apply le_up with 10%Z; [lia|]. apply Zabs. lia. }
  destruct Aa as [a [Fa [Ba Ea]]].
  assert (Bb : exists b, nn b /\ 0 <= ext b /\
    b = if fltb (Arith := B64A L) r (b64_of_Z 1300) && fleb (Arith := B64A L) s x then l_expm1 L (Bdiv mode_NE (Bminus mode_NE (b64_of_Z 1300) r) (b64_of_Z 150)) else b64_of_Z 0).
  { destruct (fltb (Arith := B64A L) r (b64_of_Z 1300)) eqn:Lt; cbn [andb].
    2: { eexists. split; [|split; [|reflexivity]]; [reflexivity|]. change (0 <= ext zero64). rewrite ext_zero64. lra. }
    destruct (fleb (Arith := B64A L) s x).
    2: { eexists. split; [|split; [|reflexivity]]; [reflexivity|]. change (0 <= ext zero64). rewrite ext_zero64. lra. }
    change (Bltb r (b64_of_Z 1300) = true) in Lt. destruct (ext_ofZ 1300 ltac:(vm_compute; discriminate)) as [F13 E13].
    rewrite Bltb_ext in Lt by (apply fin_nn; assumption). rewrite E13 in Lt. revert Lt. case Rlt_bool_spec; [|discriminate]. intros Lt _.
    assert (B13 : Rabs (ext (b64_of_Z 1300)) <= bpow radix2 200).
    { rewrite E13, Rabs_pos_eq by lra. apply Rle_trans with (bpow radix2 11); [simpl; lra|apply bpow_le; lia]. }
    destruct (minus_pow _ r 200 F13 Fr ltac:(lia) B13 Br) as [Fm Bm]. destruct (ext_minus _ r F13 Fr) as [_ Em]. rewrite E13 in Em.
    destruct (ext_div _ (b64_of_Z 150) Fm F150 ltac:(rewrite E150; lra)) as [Nd Ed]. rewrite E150 in Ed.
    assert (H : le64 zero64 (Bdiv mode_NE (Bminus mode_NE (b64_of_Z 1300) r) (b64_of_Z 150))).
    { apply le64_iff; [reflexivity|exact Nd|]. rewrite ext_zero64, Ed. apply rnd_nonneg.
      assert (0 <= ext (Bminus mode_NE (b64_of_Z 1300) r)) by (rewrite Em; apply rnd_nonneg; lra). lra. }
    apply Hm in H. apply le_Bleb in H. rewrite ext_zero64 in H. eexists. split; [|split; [|reflexivity]]; tauto. }
  destruct Bb as [b [Nb [Pb Eb]]].
  assert (He : e = let e1 := Bfma mode_NE a (Bplus mode_NE (Bmult mode_NE (Bmult mode_NE (Bdiv mode_NE r (b64_of_Z 1000)) (Bdiv mode_NE r (b64_of_Z 1000)))
       (Bmult mode_NE (Bdiv mode_NE r (b64_of_Z 1000)) (Bdiv mode_NE r (b64_of_Z 1000)))) (b64_of_Z j)) b in
     if Bleb e1 (b64_of_Z 5) then b64_of_Z 5 else
     if Beqb b (b64_of_Z 0) then let c := b64_min (b64_of_Z 30) (Bmult mode_NE (b64_of_Z 5) (fofN (A := B64A L) i)) in if Bleb c e1 then c else e1
     else if Bleb (b64_of_Z 150) e1 then b64_of_Z 150 else e1).
  { rewrite <- Ej, Ea, Eb. reflexivity. }
  set (e0 := Bplus mode_NE _ (b64_of_Z j)) in *. cbv zeta in He.
  set (e1 := Bfma mode_NE a e0 b) in *.
  assert (N1 : nn e1).
  { destruct (is_finite b) eqn:Fb; [apply ext_fma; assumption|]. 
    destruct b as [|[|]| |]; try discriminate Fb; try discriminate Nb; [simpl in Pb; pose proof M64_pos; lra|]. apply Bfma_inf; assumption. }
  assert (C : let c := b64_min (b64_of_Z 30) (Bmult mode_NE (b64_of_Z 5) (fofN (A := B64A L) i)) in nn c /\ 0 <= ext c <= 30).
  { cbv zeta. pose proof (sp_mult_c (b64_of_Z 5) _ ltac:(apply sp_ofZ; lia) F5 ltac:(lra) (ofN_sp L i)) as S.
    apply min_range'; [apply fin_nn, F30|apply S|lra|apply sp_ge0, S]. }
  rewrite He. clear He.
  destruct (Bleb e1 (b64_of_Z 5)) eqn:Q1; [split; [apply fin_nn, F5|rewrite E5; lra]|].
  rewrite Bleb_ext in Q1 by auto using fin_nn. revert Q1. case Rle_bool_spec; [discriminate|]. rewrite E5. intros Q1 _.
  destruct (Beqb b (b64_of_Z 0)); [cbv zeta in C; set (c := b64_min _ _) in *; destruct C as [Nc Bc]|].
  - destruct (Bleb c e1) eqn:Q2; [split; [exact Nc|lra]|]. rewrite Bleb_ext in Q2 by auto. revert Q2. case Rle_bool_spec; [discriminate|].
    intros Q2 _. split; [exact N1|lra].
  - destruct (Bleb (b64_of_Z 150) e1) eqn:Q2; [split; [apply fin_nn, F150|rewrite E150; lra]|].
    rewrite Bleb_ext in Q2 by auto using fin_nn. revert Q2. case Rle_bool_spec; [discriminate|]. rewrite E150. intros Q2 _. split; [exact N1|lra].
Qed.
Lemma C97_dwz_proof : forall (L : Libm) (p1 p2 : DWZRating B64) (o : Outcomes),
  pow10_nonneg L -> expm1_nonneg L ->
  finite (dwz_rating p1) -> finite (dwz_rating p2) -> le_2 200 (dwz_rating p1) -> le_2 200 (dwz_rating p2) ->
  finite (dwz_rating (fst (dwz (A := B64A L) p1 p2 o))) /\ finite (dwz_rating (snd (dwz (A := B64A L) p1 p2 o))).
Proof.
  intros L p1 p2 o P Hm F1 F2 A1 A2. pose proof (le_2_ext 200 _ ltac:(lia) F1 A1) as B1. pose proof (le_2_ext 200 _ ltac:(lia) F2 A2) as B2.
  destruct (C66_dwz_proof L p1 p2 P F1 F2) as [I1 I2].
  destruct (ext_points L o) as [Fp Ep]. destruct (ext_points2 L o) as [Fs Es]. cbv zeta in Fs, Es. pose proof (points_range o) as R.
  unfold dwz. destruct (dwz_expected_score p1 p2) as [e1 e2]. cbn [fst snd] in I1, I2. cbn [fst snd dwz_rating].
  split; match goal with |- context [dwz_e_value (A := B64A L) ?r ?a ?s ?x ?i] => destruct (dwz_ev L r a s x i Hm ltac:(assumption) ltac:(assumption)) as [Ne Be] end;
  destruct (k800 _ Ne Be) as [Fk Bk].
  - apply (upd_finite _ _ _ _ Fk Fp ltac:(rewrite Ep; lra) I1 F1 (b800 _ Bk) (le_up _ 200 1000 ltac:(lia) B1)).
  - apply (upd_finite _ _ _ _ Fk Fs ltac:(rewrite Es; lra) I2 F2 (b800 _ Bk) (le_up _ 200 1000 ltac:(lia) B2)).
Qed.
Lemma C98_dwz_proof : forall (L : Libm) (p1 p2 : DWZRating B64),
  pow10_nonneg L -> expm1_nonneg L ->
  finite (dwz_rating p1) -> finite (dwz_rating p2) -> le_2 200 (dwz_rating p1) -> le_2 200 (dwz_rating p2) ->
  let one o := dwz_rating (fst (dwz (A := B64A L) p1 p2 o)) in
  let two o := dwz_rating (snd (dwz (A := B64A L) p1 p2 o)) in
  le64 (dwz_rating p1) (one WIN) /\ le64 (one LOSS) (dwz_rating p1) /\
  le64 (two WIN) (dwz_rating p2) /\ le64 (dwz_rating p2) (two LOSS).
Proof.
  intros L p1 p2 P Hm F1 F2 A1 A2 one two. pose proof (le_2_ext 200 _ ltac:(lia) F1 A1) as B1. pose proof (le_2_ext 200 _ ltac:(lia) F2 A2) as B2.
  destruct (C66_dwz_proof L p1 p2 P F1 F2) as [I1 I2].
  pose proof (fun o => proj1 (ext_points L o)) as Fp. pose proof (fun o => proj2 (ext_points L o)) as Ep.
  pose proof (fun o => proj1 (ext_points2 L o)) as Fs. pose proof (fun o => proj2 (ext_points2 L o)) as Es. cbv zeta in Fs, Es.
  subst one two. unfold dwz. destruct (dwz_expected_score p1 p2) as [e1 e2]. cbn [fst snd] in I1, I2. cbn [fst snd dwz_rating].
  destruct (in01_inv e1 I1) as [_ C1]. destruct (in01_inv e2 I2) as [_ C2].
  repeat match goal with |- _ /\ _ => split end;
  match goal with |- context [dwz_e_value (A := B64A L) ?r ?a ?s ?x ?i] => destruct (dwz_ev L r a s x i Hm ltac:(assumption) ltac:(assumption)) as [Ne Be] end;
  destruct (k800 _ Ne Be) as [Fk Bk].
  - apply (upd_up _ _ _ _ Fk (proj1 Bk) (Fp WIN) ltac:(rewrite Ep; unfold points; lra) I1 F1). rewrite Ep. unfold points. lra.
  - apply (upd_down _ _ _ _ Fk (proj1 Bk) (Fp LOSS) ltac:(rewrite Ep; unfold points; lra) I1 F1). rewrite Ep. unfold points. lra.
  - apply (upd_down _ _ _ _ Fk (proj1 Bk) (Fs WIN) ltac:(rewrite Es; unfold points; lra) I2 F2). rewrite Es. unfold points. lra.
  - apply (upd_up _ _ _ _ Fk (proj1 Bk) (Fs LOSS) ltac:(rewrite Es; unfold points; lra) I2 F2). rewrite Es. unfold points. lra.
Qed.
