(** TrueSkill draws: the variance correction computed from the fitted normal
    distribution lies strictly between 0 and 1 when the draw margin is at least
    c/30.  No model code here. *)
From Coq Require Import ZArith List Bool Reals Lra Lia.
From Coquelicot Require Import Coquelicot.
From Verif Require Import Tac Spec SpecTS SpecNormal MathTS MathIval MathPoly MathTSW MathTSInv.
Import ListNotations.
Local Open Scope R_scope.

(** ** The slope of the fit away from 0: relative error below 2e-7 *)
Ltac anchor k :=
  unfold rr; rewrite hP_eq, hB_eq; unfold ksp;
  match goal with |- _ < exp (hP ?v) * _ < _ => let u := fresh "u" in set (u := v);
  split; apply Rminus_gt_0_lt; unfold hP, hB; ival_pos u 0%nat k 100%Z k 100%Z; unfold u; lra end.
Lemma rr_a0 : ksp * (1 + (-112) / 1000000000) < rr (0 / 100) < ksp * (1 + (-101) / 1000000000).
Proof. anchor 0%Z. Qed.
Lemma rr_a1 : ksp * (1 + (46) / 1000000000) < rr (1 / 100) < ksp * (1 + (57) / 1000000000).
Proof. anchor 1%Z. Qed.
Lemma rr_a3 : ksp * (1 + (73) / 1000000000) < rr (3 / 100) < ksp * (1 + (84) / 1000000000).
Proof. anchor 3%Z. Qed.
Lemma rr_a9 : ksp * (1 + (-107) / 1000000000) < rr (9 / 100) < ksp * (1 + (-96) / 1000000000).
Proof. anchor 9%Z. Qed.
Lemma rr_a18 : ksp * (1 + (91) / 1000000000) < rr (18 / 100) < ksp * (1 + (102) / 1000000000).
Proof. anchor 18%Z. Qed.
Lemma rr_a30 : ksp * (1 + (-109) / 1000000000) < rr (30 / 100) < ksp * (1 + (-98) / 1000000000).
Proof. anchor 30%Z. Qed.
Lemma rr_a43 : ksp * (1 + (85) / 1000000000) < rr (43 / 100) < ksp * (1 + (96) / 1000000000).
Proof. anchor 43%Z. Qed.
Lemma rr_a55 : ksp * (1 + (-127) / 1000000000) < rr (55 / 100) < ksp * (1 + (-116) / 1000000000).
Proof. anchor 55%Z. Qed.
Lemma rr_a61 : ksp * (1 + (12) / 1000000000) < rr (61 / 100) < ksp * (1 + (23) / 1000000000).
Proof. anchor 61%Z. Qed.
Lemma rr_two s a b u qa pa qb pb : slope_ok Bz Lz s a b = true -> (0 < b)%Z -> 0 <= IZR a / 100 -> IZR (a + b) / 100 <= 1 ->
  IZR a / 100 <= u <= IZR (a + b) / 100 ->
  ksp * (1 + qa) < rr (IZR a / 100) < ksp * (1 + pa) -> ksp * (1 + qb) < rr (IZR (a + b) / 100) < ksp * (1 + pb) ->
  let w := IZR s / 100000000 * (IZR b / 100) in
  pa <= 0.00001 -> pb <= 0.00001 -> 0 <= w <= 0.001 -> pa + pb + 1.00001 * w <= 0.0000004 -> -0.0000004 <= qa + qb - 1.00001 * w ->
  ksp * 0.9999998 <= rr u <= ksp * 1.0000002.
Proof.
  intros H Hb H0 H1 Hu RA RB w P1 P2 W Up Lo. pose proof ksp_close as KC.
  assert (HA : IZR a / 100 <= IZR a / 100 <= IZR (a + b) / 100) by lra. assert (HB : IZR a / 100 <= IZR (a + b) / 100 <= IZR (a + b) / 100) by lra.
  assert (Eb : IZR b / 100 = IZR (a + b) / 100 - IZR a / 100) by (rewrite plus_IZR; field).
  set (da := IZR s / 100000000 * (u - IZR a / 100)). set (db := IZR s / 100000000 * (IZR (a + b) / 100 - u)).
  assert (Ew : da + db = w) by (unfold da, db, w; rewrite Eb; ring).
  assert (B100 : 0 < IZR b / 100) by (apply IZR_lt in Hb; lra).
  assert (S0 : 0 <= IZR s / 100000000). { apply Rmult_le_reg_r with (IZR b / 100); auto. fold w. lra. }
  assert (A0 : 0 <= da) by (unfold da; apply Rmult_le_pos; lra). assert (B0 : 0 <= db) by (unfold db; apply Rmult_le_pos; lra).
  destruct (rr_flat s a b u (IZR a / 100) H Hb H0 H1 Hu HA da) as [L1 U1]. { unfold da. rewrite Rabs_pos_eq by lra. lra. }
  destruct (rr_flat s a b u (IZR (a + b) / 100) H Hb H0 H1 Hu HB db) as [L2 U2]. { unfold db. rewrite Rabs_left1 by lra. lra. }
  assert (R0 : 0 < rr u) by (unfold rr; apply Rmult_lt_0_compat; [apply exp_pos|apply sB_pos; lra]).
  set (k := ksp) in *. set (r := rr u) in *. set (ra := rr (IZR a / 100)) in *. set (rb := rr (IZR (a + b) / 100)) in *. split.
  - assert (ra * da <= k * 1.00001 * da) by (apply Rmult_le_compat_r; [auto|nra]).
    assert (rb * db <= k * 1.00001 * db) by (apply Rmult_le_compat_r; [auto|nra]).
    assert (k * (1.00001 * (da + db)) <= k * (qa + qb + 0.0000004)) by (apply Rmult_le_compat_l; lra). lra.
  - (* r (2 - w) <= k (2 + pa + pb) *)
    assert (E1 : r * (2 - w) <= k * (2 + pa + pb)) by (rewrite <- Ew; lra).
    assert (E2 : k * (2 + pa + pb) <= k * (1.0000002 * (2 - w))) by (apply Rmult_le_compat_l; lra).
    apply Rmult_le_reg_r with (2 - w); [lra|]. lra.
Qed.
Lemma rr_tight u : 0 <= u <= 61 / 100 -> ksp * 0.9999998 <= rr u <= ksp * 1.0000002.
Proof.
  intros H.
  destruct (Rle_dec u (1 / 100)).
  { eapply (rr_two 2586 0 1 u); [vm_cast_no_check (eq_refl true)|reflexivity|cbn [Z.add Pos.add]; lra|change (0 + 1)%Z with 1%Z; lra|change (0 + 1)%Z with 1%Z; lra|apply rr_a0|apply rr_a1|lra..]. }
  destruct (Rle_dec u (3 / 100)).
  { eapply (rr_two 1011 1 2 u); [vm_cast_no_check (eq_refl true)|reflexivity|cbn [Z.add Pos.add]; lra|change (1 + 2)%Z with 3%Z; lra|change (1 + 2)%Z with 3%Z; lra|apply rr_a1|apply rr_a3|lra..]. }
  destruct (Rle_dec u (9 / 100)).
  { eapply (rr_two 590 3 6 u); [vm_cast_no_check (eq_refl true)|reflexivity|cbn [Z.add Pos.add]; lra|change (3 + 6)%Z with 9%Z; lra|change (3 + 6)%Z with 9%Z; lra|apply rr_a3|apply rr_a9|lra..]. }
  destruct (Rle_dec u (18 / 100)).
  { eapply (rr_two 376 9 9 u); [vm_cast_no_check (eq_refl true)|reflexivity|cbn [Z.add Pos.add]; lra|change (9 + 9)%Z with 18%Z; lra|change (9 + 9)%Z with 18%Z; lra|apply rr_a9|apply rr_a18|lra..]. }
  destruct (Rle_dec u (30 / 100)).
  { eapply (rr_two 299 18 12 u); [vm_cast_no_check (eq_refl true)|reflexivity|cbn [Z.add Pos.add]; lra|change (18 + 12)%Z with 30%Z; lra|change (18 + 12)%Z with 30%Z; lra|apply rr_a18|apply rr_a30|lra..]. }
  destruct (Rle_dec u (43 / 100)).
  { eapply (rr_two 272 30 13 u); [vm_cast_no_check (eq_refl true)|reflexivity|cbn [Z.add Pos.add]; lra|change (30 + 13)%Z with 43%Z; lra|change (30 + 13)%Z with 43%Z; lra|apply rr_a30|apply rr_a43|lra..]. }
  destruct (Rle_dec u (55 / 100)).
  { eapply (rr_two 294 43 12 u); [vm_cast_no_check (eq_refl true)|reflexivity|cbn [Z.add Pos.add]; lra|change (43 + 12)%Z with 55%Z; lra|change (43 + 12)%Z with 55%Z; lra|apply rr_a43|apply rr_a55|lra..]. }
  { eapply (rr_two 405 55 6 u); [vm_cast_no_check (eq_refl true)|reflexivity|cbn [Z.add Pos.add]; lra|change (55 + 6)%Z with 61%Z; lra|change (55 + 6)%Z with 61%Z; lra|apply rr_a55|apply rr_a61|lra..]. }
Qed.

(** The fit's tail differences have relative error below 2e-7 from 2 on. *)
Lemma Phip_tight x y : 2 <= x <= y -> 0.9999998 * (Ncdf y - Ncdf x) <= Phip y - Phip x <= 1.0000002 * (Ncdf y - Ncdf x).
Proof.
  intros H. pose proof ksp_close as K. pose proof sqrt2_pos.
  assert (S2 : sqrt 2 <= 1.5) by (rewrite <- (sqrt_square 1.5) by lra; apply sqrt_le_1_alt; lra).
  assert (Q : forall c, 2 <= c -> 0.9999998 * phi c <= rr (/ (1 + c / sqrt 2 / 2)) / ksp * phi c <= 1.0000002 * phi c).
  { intros c Hc. assert (HC : 1.333 <= c / sqrt 2). { apply Rmult_le_reg_r with (sqrt 2); auto. unfold Rdiv. rewrite Rmult_assoc, Rinv_l by lra. lra. }
    assert (T : 0 <= / (1 + c / sqrt 2 / 2) <= 61 / 100).
    { split; [apply Rlt_le, Rinv_0_lt_compat; lra|]. replace (61 / 100) with (/ (100 / 61)) by field. apply Rinv_le_contravar; lra. }
    pose proof (rr_tight _ T) as B. pose proof (phi_pos c).
    assert (0.9999998 <= rr (/ (1 + c / sqrt 2 / 2)) / ksp <= 1.0000002); [|split; apply Rmult_le_compat_r; lra].
    split; apply Rmult_le_reg_r with ksp; try lra; unfold Rdiv; rewrite Rmult_assoc, Rinv_l by lra; lra. }
  rewrite !Rmult_minus_distr_l. split.
  - apply (mono_diff (fun x => 0.9999998 * Ncdf x) Phip (fun x => 0.9999998 * phi x) (fun x => rr (/ (1 + x / sqrt 2 / 2)) / ksp * phi x)); try lra.
    + intros c Hc. apply (is_derive_scal Ncdf), Ncdf_deriv.
    + intros c Hc. apply Phip_deriv. lra.
    + intros c Hc. apply Q. lra.
  - apply (mono_diff Phip (fun x => 1.0000002 * Ncdf x) (fun x => rr (/ (1 + x / sqrt 2 / 2)) / ksp * phi x) (fun x => 1.0000002 * phi x)); try lra.
    + intros c Hc. apply Phip_deriv. lra.
    + intros c Hc. apply (is_derive_scal Ncdf), Ncdf_deriv.
    + intros c Hc. apply Q. lra.
Qed.

(** ** The normal distribution truncated to an interval
    mass T, first moment N, and J = T^2 times the variance *)
Lemma phi_deriv x : is_derive phi x (- x * phi x).
Proof.
  pose proof PI_RGT_0. assert (0 < sqrt (2 * PI)) by pos. evar_last.
  - apply (is_derive_ext (fun x => / sqrt (2 * PI) * exp (- (x * x / 2)))); [intros t; unfold phi; replace (t ^ 2) with (t * t) by ring; cbn; field; lra|].
    auto_derive; [exact I|reflexivity].
  - unfold phi. replace (x ^ 2) with (x * x) by ring. change (x * x / 2) with (x * x * / 2). generalize (exp (- (x * x * / 2))). intros e. field. lra.
Qed.
Definition mT (a y : R) : R := Ncdf y - Ncdf a.
Definition mN (a y : R) : R := phi a - phi y.
Definition mB (a y : R) : R := y * phi y - a * phi a.
Definition mS (a y : R) : R := y * mT a y - mN a y.
Definition mK (a y : R) : R := (1 + y ^ 2) * mT a y - 2 * y * mN a y - mB a y.
Definition mJ (a y : R) : R := mT a y ^ 2 - mN a y ^ 2 - mB a y * mT a y.
Lemma mT_d a y : is_derive (mT a) y (phi y).
Proof. unfold mT. evar_last; [apply (is_derive_minus Ncdf (fun _ => Ncdf a)); [apply Ncdf_deriv|apply (is_derive_const (Ncdf a) y)]|]. unfold minus, plus, opp, zero; cbn. ring. Qed.
Lemma mN_d a y : is_derive (mN a) y (y * phi y).
Proof. unfold mN. evar_last; [apply (is_derive_minus (fun _ => phi a) phi); [apply (is_derive_const (phi a) y)|apply phi_deriv]|]. unfold minus, plus, opp, zero; cbn. ring. Qed.
Lemma mB_d a y : is_derive (mB a) y ((1 - y ^ 2) * phi y).
Proof.
  unfold mB. evar_last.
  - apply (is_derive_minus (fun y => y * phi y) (fun _ => a * phi a)); [|apply (is_derive_const (a * phi a) y)].
    apply (is_derive_mult (fun y => y) phi y 1 (- y * phi y)); [apply (is_derive_id y)|apply phi_deriv|intros; apply Rmult_comm].
  - unfold minus, plus, opp, zero, mult; cbn. ring.
Qed.
Lemma mult_d f g x df dg : is_derive f x df -> is_derive g x dg -> is_derive (fun x => f x * g x) x (df * g x + f x * dg).
Proof. intros Hf Hg. exact (is_derive_mult f g x df dg Hf Hg (fun n m => Rmult_comm n m)). Qed.
Lemma minus_d f g x df dg : is_derive f x df -> is_derive g x dg -> is_derive (fun x => f x - g x) x (df - dg).
Proof. intros Hf Hg. exact (is_derive_minus f g x df dg Hf Hg). Qed.
Lemma poly1_d y : is_derive (fun y => 1 + y ^ 2) y (2 * y).
Proof. auto_derive; [exact I|ring]. Qed.
Lemma twice_d y : is_derive (fun y => 2 * y) y 2.
Proof. auto_derive; [exact I|ring]. Qed.
Lemma mS_d a y : is_derive (mS a) y (mT a y).
Proof.
  unfold mS. evar_last; [apply (minus_d (fun y => y * mT a y) (mN a)); [apply (mult_d (fun y => y) (mT a)); [apply (is_derive_id y)|apply mT_d]|apply mN_d]|]. unfold one; cbn. ring.
Qed.
Lemma mK_d a y : is_derive (mK a) y (2 * mS a y).
Proof.
  unfold mK. evar_last.
  - apply (minus_d (fun y => (1 + y ^ 2) * mT a y - 2 * y * mN a y) (mB a)); [|apply mB_d].
    apply (minus_d (fun y => (1 + y ^ 2) * mT a y) (fun y => 2 * y * mN a y)).
    + apply (mult_d (fun y => 1 + y ^ 2) (mT a)); [apply poly1_d|apply mT_d].
    + apply (mult_d (fun y => 2 * y) (mN a)); [apply twice_d|apply mN_d].
  - unfold mS. ring.
Qed.
Lemma mJ_d a y : is_derive (mJ a) y (phi y * mK a y).
Proof.
  apply (is_derive_ext (fun y => mT a y * mT a y - mN a y * mN a y - mB a y * mT a y)); [intros t; unfold mJ; cbn -[mT mN mB pow]; ring|]. evar_last.
  - apply (minus_d (fun y => mT a y * mT a y - mN a y * mN a y) (fun y => mB a y * mT a y)).
    + apply (minus_d (fun y => mT a y * mT a y) (fun y => mN a y * mN a y)); [apply (mult_d (mT a) (mT a)); apply mT_d|apply (mult_d (mN a) (mN a)); apply mN_d].
    + apply (mult_d (mB a) (mT a)); [apply mB_d|apply mT_d].
  - unfold mK. ring.
Qed.
Lemma m_start a : mT a a = 0 /\ mS a a = 0 /\ mK a a = 0 /\ mJ a a = 0.
Proof. unfold mJ, mK, mS, mT, mN, mB. repeat split; ring. Qed.

(** A density below phi has a smaller J. *)
Lemma J_ge a b (g Tg Sg Kg Jg : R -> R) : a <= b ->
  (forall y, a <= y <= b -> 0 <= g y <= phi y) ->
  (forall y, is_derive Tg y (g y)) -> (forall y, is_derive Sg y (Tg y)) -> (forall y, is_derive Kg y (2 * Sg y)) -> (forall y, is_derive Jg y (g y * Kg y)) ->
  Tg a = 0 -> Sg a = 0 -> Kg a = 0 -> Jg a = 0 ->
  (forall y, a <= y <= b -> 0 <= Kg y) -> Jg b <= mJ a b /\ Sg b <= mS a b.
Proof.
  intros Hab Hg DT DS DK DJ T0 S0 K0 J0 Kp. destruct (m_start a) as (mT0 & mS0 & mK0 & mJ0).
  assert (HT : forall y, a <= y <= b -> Tg y <= mT a y).
  { intros y Hy. pose proof (mono_diff Tg (mT a) g phi a y (fun c _ => DT c) (fun c _ => mT_d a c)) as M. 
    enough (Tg y - Tg a <= mT a y - mT a a) by lra. apply M; [|lra]. intros c Hc. apply Hg. lra. }
  assert (HS : forall y, a <= y <= b -> Sg y <= mS a y).
  { intros y Hy. enough (Sg y - Sg a <= mS a y - mS a a) by lra. apply (mono_diff Sg (mS a) Tg (mT a)); [intros; apply DS|intros; apply mS_d| |lra].
    intros c Hc. apply HT. lra. }
  assert (HK : forall y, a <= y <= b -> Kg y <= mK a y).
  { intros y Hy. enough (Kg y - Kg a <= mK a y - mK a a) by lra. apply (mono_diff Kg (mK a) (fun y => 2 * Sg y) (fun y => 2 * mS a y)); [intros; apply DK|intros; apply mK_d| |lra].
    intros c Hc. pose proof (HS c ltac:(lra)). lra. }
  split; [|apply HS; lra].
  enough (Jg b - Jg a <= mJ a b - mJ a a) by lra. apply (mono_diff Jg (mJ a) (fun y => g y * Kg y) (fun y => phi y * mK a y)); [intros; apply DJ|intros; apply mJ_d| |lra].
  intros c Hc. apply Rmult_le_compat; [apply Hg; lra|apply Kp; lra|apply Hg; lra|apply HK; lra].
Qed.
Lemma J_const a b m : a <= b -> 0 <= m -> (forall y, a <= y <= b -> m <= phi y) -> m ^ 2 * (b - a) ^ 4 / 12 <= mJ a b /\ m * (b - a) ^ 2 / 2 <= mS a b.
Proof.
  intros Hab Hm H.
  apply (J_ge a b (fun _ => m) (fun y => m * (y - a)) (fun y => m * (y - a) ^ 2 / 2) (fun y => m * (y - a) ^ 3 / 3) (fun y => m ^ 2 * (y - a) ^ 4 / 12)); auto; try (field; fail).
  - intros y. auto_derive; [exact I|ring].
  - intros y. auto_derive; [exact I|field].
  - intros y. auto_derive; [exact I|field].
  - intros y. auto_derive; [exact I|field].
  - intros y Hy. assert (0 <= (y - a) ^ 3) by (apply pow_le; lra). apply Rmult_le_pos; [apply Rmult_le_pos; lra|lra].
Qed.
Lemma J_exp a b m l : a <= b -> 0 <= m -> 0 < l -> (forall y, a <= y <= b -> m * exp (- (l * (y - a))) <= phi y) ->
  let x := l * (b - a) in m ^ 2 * ((1 - exp (- x)) ^ 2 - x ^ 2 * exp (- x)) / l ^ 4 <= mJ a b.
Proof.
  intros Hab Hm Hl H. cbv zeta. pose (E := fun y => exp (- (l * (y - a)))).
  assert (Ea : E a = 1) by (unfold E; replace (- (l * (a - a))) with 0 by ring; apply exp_0).
  assert (DE : forall y, is_derive E y (- l * E y)). { intros y. unfold E. auto_derive; [exact I|unfold Rminus; ring]. }
  enough (J : m ^ 2 * ((1 - E b) ^ 2 - (l * (b - a)) ^ 2 * E b) / l ^ 4 <= mJ a b /\ m * ((b - a) / l - (1 - E b) / l ^ 2) <= mS a b) by apply J.
  assert (E0 : forall y, 0 <= E y) by (intros y; unfold E; apply Rlt_le, exp_pos).
  assert (E2 : forall y, a <= y -> E y <= 1 - l * (y - a) + (l * (y - a)) ^ 2 / 2).
  { intros y Hy. assert (X : 0 <= l * (y - a)) by (apply Rmult_le_pos; lra). unfold E. set (x := l * (y - a)) in *.
    pose proof (proj2 (proj2 (exp_tay_sign 2) eq_refl (- x)) ltac:(lra)) as K. unfold tay in K. cbn in K. lra. }
  assert (HE : forall y, a <= y <= b -> m * E y <= phi y) by exact H.
  assert (DV : forall y, Derive (fun x => E x) y = - l * E y) by (intros y; apply (is_derive_unique E y), DE).
  clearbody E. clear H.
  apply (J_ge a b (fun y => m * E y) (fun y => m * (1 - E y) / l) (fun y => m * ((y - a) / l - (1 - E y) / l ^ 2))
    (fun y => m * ((l * (y - a)) ^ 2 - 2 * (l * (y - a)) + 2 - 2 * E y) / l ^ 3) (fun y => m ^ 2 * ((1 - E y) ^ 2 - (l * (y - a)) ^ 2 * E y) / l ^ 4)); auto.
  - intros y Hy. split; [apply Rmult_le_pos; [auto|apply E0]|apply HE; auto].
  - intros y. auto_derive; [repeat split; eexists; apply DE|]. rewrite ?DV. field. lra.
  - intros y. auto_derive; [repeat split; eexists; apply DE|]. rewrite ?DV. field. lra.
  - intros y. auto_derive; [repeat split; eexists; apply DE|]. rewrite ?DV. field. lra.
  - intros y. auto_derive; [repeat split; eexists; apply DE|]. rewrite ?DV. field. lra.
  - rewrite Ea. field. lra.
  - rewrite Ea. field. lra.
  - rewrite Ea. field. lra.
  - rewrite Ea. field. lra.
  - intros y Hy. assert (X : 0 <= l * (y - a)) by (apply Rmult_le_pos; lra). set (x := l * (y - a)) in *.
    pose proof (E2 y ltac:(lra)) as K. fold x in K.
    assert (0 < l ^ 3) by (apply pow_lt; auto). apply Rmult_le_pos; [|apply Rlt_le, Rinv_0_lt_compat; auto]. apply Rmult_le_pos; lra.
Qed.
Lemma mT_ge0 a y : a <= y -> 0 <= mT a y.
Proof. intros H. destruct (m_start a) as (E & _). rewrite <- E. apply (mono_of_deriv (mT a) phi); [intros; apply mT_d|intros; apply Rlt_le, phi_pos|auto]. Qed.
Lemma mS_ge0 a y : a <= y -> 0 <= mS a y.
Proof. intros H. destruct (m_start a) as (_ & E & _). rewrite <- E. apply (mono_of_deriv (mS a) (mT a)); [intros; apply mS_d|intros; apply mT_ge0; lra|auto]. Qed.
Lemma mK_ge0 a y : a <= y -> 0 <= mK a y.
Proof. intros H. destruct (m_start a) as (_ & _ & E & _). rewrite <- E. apply (mono_of_deriv (mK a) (fun y => 2 * mS a y)); [intros; apply mK_d|intros c Hc; pose proof (mS_ge0 a c ltac:(lra)); lra|auto]. Qed.
Lemma mJ_mono_r a b b' : a <= b' <= b -> mJ a b' <= mJ a b.
Proof.
  intros H. apply (mono_of_deriv (mJ a) (fun y => phi y * mK a y)); [intros; apply mJ_d| |lra].
  intros c Hc. apply Rmult_le_pos; [apply Rlt_le, phi_pos|apply mK_ge0; lra].
Qed.
Lemma mJ_refl a b : mJ (- b) (- a) = mJ a b.
Proof. unfold mJ, mT, mN, mB. rewrite !Ncdf_neg, !phi_even. ring. Qed.
Lemma mJ_mono a a' b' b : a <= a' -> a' <= b' -> b' <= b -> mJ a' b' <= mJ a b.
Proof.
  intros H1 H2 H3. apply Rle_trans with (mJ a b'); [|apply mJ_mono_r; lra]. rewrite <- (mJ_refl a' b'), <- (mJ_refl a b'). apply mJ_mono_r. lra.
Qed.
Lemma phi_ratio x y : phi y = phi x * exp (- ((y - x) * (y + x) / 2)).
Proof.
  unfold phi. pose proof PI_RGT_0. assert (0 < sqrt (2 * PI)) by pos.
  replace (- (y ^ 2 / 2)) with (- (x ^ 2 / 2) + - ((y - x) * (y + x) / 2)) by field. rewrite exp_plus. field. lra.
Qed.
Lemma phi_dec x y : 0 <= x <= y -> phi y <= phi x.
Proof.
  intros H. rewrite (phi_ratio x y). pose proof (phi_pos x). assert (exp (- ((y - x) * (y + x) / 2)) <= 1); [|nra].
  rewrite <- exp_0. apply exp_mono. nra.
Qed.
Lemma phi0_close : 0.3989 < phi 0 < 0.39895.
Proof. rewrite kap_phi. replace (- (0 ^ 2 / 2)) with 0 by field. rewrite exp_0. pose proof kap_close. lra. Qed.
Lemma phi_le0 x : phi x <= 0.39895.
Proof.
  pose proof phi0_close. destruct (Rle_dec 0 x); [pose proof (phi_dec 0 x ltac:(lra)); lra|]. rewrite <- phi_even. pose proof (phi_dec 0 (- x) ltac:(lra)); lra.
Qed.
(** N = int x phi >= a T and N <= phi a *)
Lemma mills a y : a <= y -> a * mT a y <= mN a y.
Proof.
  intros H. enough (0 <= mN a y - a * mT a y) by lra. replace 0 with (mN a a - a * mT a a) by (unfold mN, mT; ring).
  apply (mono_of_deriv (fun y => mN a y - a * mT a y) (fun y => y * phi y - a * phi y)); [|intros c Hc; pose proof (phi_pos c); nra|auto].
  intros c Hc. apply (minus_d (mN a) (fun y => a * mT a y)); [apply mN_d|apply (is_derive_scal (mT a) c a), mT_d].
Qed.
Lemma T_le a y m : a <= y -> (forall c, a <= c <= y -> phi c <= m) -> mT a y <= m * (y - a).
Proof.
  intros H Hm. destruct (m_start a) as (E & _).
  pose proof (mono_diff (mT a) (fun y => m * (y - a)) phi (fun _ => m) a y (fun c _ => mT_d a c)) as M.
  enough (mT a y - mT a a <= m * (y - a) - m * (a - a)) by lra. apply M; auto. intros c _. auto_derive; [exact I|ring].
Qed.

(** ** Draws *)
Lemma one_minus D T N B J d : D = T + d -> J = T ^ 2 - N ^ 2 - B * T -> D ^ 2 - B * D - N ^ 2 = J + d * (2 * T + d - B).
Proof. intros -> ->. ring. Qed.
Lemma rel_case D T N B J r : J = T ^ 2 - N ^ 2 - B * T -> 0 <= T -> 0 <= r <= 0.00001 -> (1 - r) * T <= D <= (1 + r) * T ->
  r * (T ^ 2 * (1 + r) + N ^ 2) < 0.99999 * J -> N ^ 2 + B * D < D ^ 2.
Proof.
  intros EJ T0 Hr HD H. pose proof (one_minus D T N B J (D - T) ltac:(ring) EJ) as E.
  set (d := D - T) in *. assert (Hd : - (r * T) <= d <= r * T) by (unfold d; lra).
  assert (J0 : 0 <= J). { assert (0 <= r * (T ^ 2 * (1 + r) + N ^ 2)); [|lra]. apply Rmult_le_pos; [lra|]. assert (0 <= T ^ 2) by nra. assert (0 <= N ^ 2) by nra. nra. }
  enough (- (0.99999 * J) - 0.00001 * J < d * (2 * T + d - B)) by lra.
  destruct (Req_dec T 0) as [->|HT]. { assert (d = 0) by lra. rewrite H0. assert (0 <= N ^ 2) by nra. nra. }
  assert (TP : 0 < T) by lra. assert (EB : B = (T ^ 2 - N ^ 2 - J) / T) by (rewrite EJ; field; lra).
  pose (z := d / T). assert (Ez : d = z * T) by (unfold z; field; lra).
  assert (Hz : - r <= z <= r). { split; apply Rmult_le_reg_r with T; auto; rewrite <- Ez; lra. }
  replace (d * (2 * T + d - B)) with (z * (T ^ 2 * (1 + z) + N ^ 2 + J)) by (rewrite EB, Ez; field; lra).
  assert (T2 : 0 < T ^ 2) by (apply pow_lt; auto). assert (N2 : 0 <= N ^ 2) by nra.
  assert (A : - (r * (T ^ 2 * (1 + r) + N ^ 2 + J)) <= z * (T ^ 2 * (1 + z) + N ^ 2 + J)).
  { assert (0 <= T ^ 2 * (1 + z) + N ^ 2 + J <= T ^ 2 * (1 + r) + N ^ 2 + J) by (split; nra).
    set (P := T ^ 2 * (1 + z) + N ^ 2 + J) in *. set (Q := T ^ 2 * (1 + r) + N ^ 2 + J) in *. nra. }
  assert (r * J <= 0.00001 * J) by (apply Rmult_le_compat_r; lra). lra.
Qed.

Lemma exp4 z : 0 <= z <= 4 -> (1 - z / 4) ^ 4 <= exp (- z).
Proof.
  intros H. replace (- z) with (INR 4 * - (z / 4)) by (cbn [INR]; field). rewrite exp_n. pose proof (exp_ineq1_le (- (z / 4))).
  apply pow_incr. lra.
Qed.
Lemma jfun x : 0 < x <= 19 / 10 -> 0.0137 * x ^ 4 <= (1 - exp (- x)) ^ 2 - x ^ 2 * exp (- x).
Proof.
  intros H. assert (EE : exp x * exp (- x) = 1) by (rewrite <- exp_plus, Rplus_opp_r; apply exp_0).
  pose proof (exp_pos (- x)) as EP. pose proof (exp_pos x) as EX.
  replace ((1 - exp (- x)) ^ 2 - x ^ 2 * exp (- x)) with (exp (- x) * (exp x + exp (- x) - 2 - x ^ 2)) by (replace (exp (- x) * (exp x + exp (- x) - 2 - x ^ 2)) with (exp x * exp (- x) + exp (- x) ^ 2 - 2 * exp (- x) - x ^ 2 * exp (- x)) by ring; rewrite EE; ring).
  pose proof (exp_tay_odd 7 x eq_refl) as T1. pose proof (exp_tay_odd 7 (- x) eq_refl) as T2.
  assert (TS : tay 7 x + tay 7 (- x) = 2 + x ^ 2 + x ^ 4 / 12 + x ^ 6 / 360) by (cbn [tay]; rewrite !INR_IZR_INZ; repeat match goal with |- context [Z.of_nat ?k] => let v := eval vm_compute in (Z.of_nat k) in change (Z.of_nat k) with v end; field).
  assert (X4 : 0 < x ^ 4) by (apply pow_lt; lra).
  assert (P : 0 < 1 / 12 + x ^ 2 / 360 - 137 / 10000 * exp x) by (ival_pos x 12%nat 0%Z 1%Z 19%Z 10%Z; lra).
  apply Rle_trans with (exp (- x) * (x ^ 4 * (1 / 12 + x ^ 2 / 360))).
  - replace (x ^ 4 * (1 / 12 + x ^ 2 / 360)) with (x ^ 4 * (1 / 12 + x ^ 2 / 360 - 137 / 10000 * exp x) + x ^ 4 * (137 / 10000) * exp x) by ring.
    rewrite Rmult_plus_distr_l. replace (exp (- x) * (x ^ 4 * (137 / 10000) * exp x)) with (x ^ 4 * (137 / 10000) * (exp x * exp (- x))) by ring. rewrite EE.
    assert (0 <= exp (- x) * (x ^ 4 * (1 / 12 + x ^ 2 / 360 - 137 / 10000 * exp x))) by (apply Rmult_le_pos; [lra|apply Rmult_le_pos; lra]). lra.
  - apply Rmult_le_compat_l; [lra|]. replace (x ^ 4 * (1 / 12 + x ^ 2 / 360)) with (x ^ 4 / 12 + x ^ 6 / 360) by field. lra.
Qed.

(** Tail case: a >= 2. *)
Lemma tail_J a b : 2 <= a <= 283 / 10 -> a + 1 / 15 <= b -> 0.00000027 * phi a ^ 2 <= mJ a b.
Proof.
  intros Ha Hb. apply Rle_trans with (mJ a (a + 1 / 15)); [|apply mJ_mono; lra].
  pose (l := a + 1 / 30). pose proof (J_exp a (a + 1 / 15) (phi a) l ltac:(lra) ltac:(apply Rlt_le, phi_pos) ltac:(unfold l; lra)) as K. cbv zeta in K.
  eapply Rle_trans; [|apply K].
  - replace (l * (a + 1 / 15 - a)) with (l / 15) by field. pose proof (jfun (l / 15) ltac:(unfold l; lra)) as Jx.
    assert (L4 : 0 < l ^ 4) by (apply pow_lt; unfold l; lra). assert (P2 : 0 <= phi a ^ 2) by nra.
    unfold Rdiv. rewrite Rmult_assoc, (Rmult_comm (phi a ^ 2)). apply Rmult_le_compat_r; [auto|].
    apply Rmult_le_reg_r with (l ^ 4); auto. rewrite Rmult_assoc, Rinv_l, Rmult_1_r by lra. 
    eapply Rle_trans; [|exact Jx]. replace (0.0137 * (l / 15) ^ 4) with (0.0137 / 50625 * l ^ 4) by (set (q := 0.0137); field). lra.
  - intros y Hy. rewrite (phi_ratio a y). pose proof (phi_pos a). apply Rmult_le_compat_l; [lra|]. apply exp_mono. unfold l. nra.
Qed.
Lemma case_tail a b D : 2 <= a <= 283 / 10 -> a + 1 / 15 <= b -> 0.9999998 * mT a b <= D <= 1.0000002 * mT a b ->
  mN a b ^ 2 + mB a b * D < D ^ 2.
Proof.
  intros Ha Hb HD. pose proof (tail_J a b Ha Hb) as J. pose proof (mT_ge0 a b ltac:(lra)) as T0. pose proof (mills a b ltac:(lra)) as M.
  pose proof (phi_pos a) as PA. pose proof (phi_pos b) as PB. assert (NP : mN a b <= phi a) by (unfold mN; lra).
  apply (rel_case D (mT a b) (mN a b) (mB a b) (mJ a b) 0.0000002); [reflexivity|auto|lra|lra|].
  assert (T2 : mT a b <= phi a / 2) by nra. assert (N0 : 0 <= mN a b) by nra.
  assert (mT a b ^ 2 <= phi a ^ 2 / 4) by nra. assert (mN a b ^ 2 <= phi a ^ 2) by nra. assert (0 < phi a ^ 2) by (apply pow_lt; auto). lra.
Qed.
(** Middle case: 0 <= a <= 2. *)
Lemma case_mid a b D : 0 <= a <= 2 -> a + 1 / 15 <= b -> 0.99999 * mT a b <= D <= 1.00001 * mT a b ->
  mN a b ^ 2 + mB a b * D < D ^ 2.
Proof.
  intros Ha Hb HD. pose proof (mT_ge0 a b ltac:(lra)) as T0. pose proof (mills a b ltac:(lra)) as M.
  pose proof (phi_pos a) as PA. pose proof (phi_pos b) as PB. assert (NP : mN a b <= phi a) by (unfold mN; lra).
  apply (rel_case D (mT a b) (mN a b) (mB a b) (mJ a b) 0.00001); [reflexivity|auto|lra|lra|].
  assert (N0 : 0 <= mN a b) by nra. assert (P2 : 0 < phi a ^ 2) by (apply pow_lt; auto).
  (* J on [a, a+h] *)
  assert (JH : forall h z, 0 < h -> a + h <= b -> 2 * a * h + h ^ 2 <= z -> 0 <= z <= 4 -> phi a ^ 2 * ((1 - z / 4) ^ 4 * h ^ 4 / 12) <= mJ a b).
  { intros h z H0 H1 Hz Hz4. apply Rle_trans with (mJ a (a + h)); [|apply mJ_mono; lra].
    pose proof (J_const a (a + h) (phi (a + h)) ltac:(lra) ltac:(apply Rlt_le, phi_pos)) as [K _]. { intros y Hy. apply phi_dec; lra. }
    eapply Rle_trans; [|exact K]. replace (a + h - a) with h by ring.
    rewrite (phi_ratio a (a + h)), Rpow_mult_distr. replace (exp (- ((a + h - a) * (a + h + a) / 2)) ^ 2) with (exp (- (2 * a * h + h ^ 2))).
    - pose proof (exp4 z Hz4) as E4. assert (EM : exp (- z) <= exp (- (2 * a * h + h ^ 2))) by (apply exp_mono; lra). set (ee := exp (- (2 * a * h + h ^ 2))) in *. set (zz := (1 - z / 4) ^ 4) in *.
      assert (0 < h ^ 4) by (apply pow_lt; auto). unfold Rdiv. rewrite !Rmult_assoc. apply Rmult_le_compat_l; [lra|].
      apply Rmult_le_compat_r; [lra|lra].
    - symmetry. match goal with |- ?X ^ 2 = _ => replace (X ^ 2) with (X * X) by ring end. rewrite <- exp_plus. f_equal. field. }
  destruct (Rle_dec (b - a) (1 / 2)) as [S|S].
  - set (h := b - a) in *. assert (T1 : mT a b <= phi a * h) by (apply T_le; [lra|intros c Hc; apply phi_dec; lra]).
    assert (N1 : mN a b <= 2.5 * (phi a * h)).
    { assert (mN a b <= b * mT a b) by (pose proof (mS_ge0 a b ltac:(lra)) as SS; unfold mS in SS; lra). assert (b * mT a b <= 2.5 * mT a b) by (apply Rmult_le_compat_r; unfold h in S; lra). lra. }
    assert (HP : 1 / 15 <= h) by (unfold h; lra). assert (AH : a * h <= 2 * h) by (apply Rmult_le_compat_r; lra). assert (H2 : 1 / 225 <= h ^ 2) by nra. set (P := phi a * h) in *. assert (P0 : 0 < P) by (unfold P, h; apply Rmult_lt_0_compat; lra).
    assert (PP : P ^ 2 = phi a ^ 2 * h ^ 2) by (unfold P; ring).
    assert (T3 : mT a b ^ 2 <= P ^ 2) by nra. assert (N3 : mN a b ^ 2 <= 6.25 * P ^ 2) by nra.
    assert (JJ : 0.00009 * P ^ 2 <= mJ a b).
    { destruct (Rle_dec h (1 / 5)) as [S5|S5].
      - assert (K := JH h 0.84 ltac:(unfold h; lra) ltac:(unfold h; lra) ltac:(nra) ltac:(lra)). eapply Rle_trans; [|exact K]. rewrite PP, Rmult_comm, Rmult_assoc.
        apply Rmult_le_compat_l; [lra|]. replace ((1 - 0.84 / 4) ^ 4 * h ^ 4 / 12) with ((1 - 0.84 / 4) ^ 4 / 12 * h ^ 2 * h ^ 2) by (set (q := 0.84); field). 
        assert (0.0324 <= (1 - 0.84 / 4) ^ 4 / 12) by lra. nra.
      - assert (K := JH h 2.25 ltac:(unfold h; lra) ltac:(unfold h; lra) ltac:(nra) ltac:(lra)). eapply Rle_trans; [|exact K]. rewrite PP, Rmult_comm, Rmult_assoc.
        apply Rmult_le_compat_l; [lra|]. replace ((1 - 2.25 / 4) ^ 4 * h ^ 4 / 12) with ((1 - 2.25 / 4) ^ 4 / 12 * h ^ 2 * h ^ 2) by (set (q := 2.25); field). 
        assert (0.003 <= (1 - 2.25 / 4) ^ 4 / 12) by lra. assert (0.04 <= h ^ 2) by nra. nra. }
    assert (0 < P ^ 2) by (apply pow_lt; auto). lra.
  - assert (T1 : mT a b <= 2 * phi a).
    { destruct (Rle_dec b (a + 1)).
      - pose proof (T_le a b (phi a) ltac:(lra) ltac:(intros c Hc; apply phi_dec; lra)). nra.
      - pose proof (T_le a (a + 1) (phi a) ltac:(lra) ltac:(intros c Hc; apply phi_dec; lra)). pose proof (mills (a + 1) b ltac:(lra)) as M1.
        pose proof (phi_dec a (a + 1) ltac:(lra)). pose proof (mT_ge0 (a + 1) b ltac:(lra)). assert (mN (a + 1) b <= phi a) by (unfold mN; lra).
        assert (mT (a + 1) b <= phi a) by nra. unfold mT in *. lra. }
    assert (K := JH (1 / 2) 2.25 ltac:(lra) ltac:(lra) ltac:(nra) ltac:(lra)).
    assert (0.00019 <= (1 - 2.25 / 4) ^ 4 * (1 / 2) ^ 4 / 12) by lra. assert (mT a b ^ 2 <= 4 * phi a ^ 2) by nra. assert (mN a b ^ 2 <= phi a ^ 2) by nra. nra.
Qed.
(** The interval contains 0. *)
Lemma xphi_le x : 0 <= x -> x * phi x <= 0.39895 * x /\ x * phi x <= 1 / 2.
Proof.
  intros H. pose proof (phi_le0 x). pose proof (phi_pos x). split; [nra|]. destruct (Rle_dec x 1); [nra|].
  pose proof (mills x (x + 1) ltac:(lra)) as M. 
  (* x phi x <= phi 0, since (x^2/2) e^(-x^2/2) <= 1/2 *)
  rewrite (phi_ratio 0 x). replace (- ((x - 0) * (x + 0) / 2)) with (- (x ^ 2 / 2)) by field. pose proof (phi_le0 0). pose proof (phi_pos 0).
  assert (E : exp (- (x ^ 2 / 2)) <= / x).
  { rewrite exp_Ropp. apply Rinv_le_contravar; [lra|]. pose proof (exp_ineq1_le (x ^ 2 / 2)). nra. }
  apply Rle_trans with (x * (phi 0 * / x)).
  - apply Rmult_le_compat_l; [auto|]. apply Rmult_le_compat_l; lra.
  - replace (x * (phi 0 * / x)) with (phi 0) by (field; lra). lra.
Qed.
Lemma case_zero a b D : a < 0 -> - a <= b -> 1 / 15 <= b - a -> Rabs (D - mT a b) <= 0.00001 * mT a b + 0.0000001 ->
  mN a b ^ 2 + mB a b * D < D ^ 2.
Proof.
  intros Ha Hb Hw HD. pose proof (mT_ge0 a b ltac:(lra)) as T0.
  assert (B1 : mB a b <= 0.39895 * (b - a) /\ mB a b <= 1 /\ 0 <= mB a b).
  { unfold mB. pose proof (xphi_le b ltac:(lra)). pose proof (xphi_le (- a) ltac:(lra)) as [A1 A2]. rewrite phi_even in A1, A2.
    pose proof (phi_pos a). pose proof (phi_pos b). repeat split; try lra. nra. }
  assert (T1 : mT a b <= 0.39895 * (b - a)) by (apply T_le; [lra|intros; apply phi_le0]).
  assert (T2 : mT a b <= 1.1). { unfold mT. pose proof (Phi_close b) as P1. pose proof (Phi_close a) as P2. apply Rabs_le_between in P1, P2. pose proof (Phi_range b). pose proof (Phi_range a). lra. }
  pose proof (one_minus D (mT a b) (mN a b) (mB a b) (mJ a b) (D - mT a b) ltac:(ring) eq_refl) as E.
  set (d := D - mT a b) in *. set (T := mT a b) in *. set (B := mB a b) in *. set (w := b - a) in *.
  enough (- mJ a b < d * (2 * T + d - B)) by lra.
  assert (A : - (Rabs d * (2 * T + Rabs d + B)) <= d * (2 * T + d - B)).
  { pose proof (Rabs_pos d). destruct (Rle_dec 0 d); [rewrite Rabs_pos_eq by auto; nra|rewrite Rabs_left by lra; nra]. }
  enough (Rabs d * (2 * T + Rabs d + B) < mJ a b) by lra. clear A E.
  assert (PHI : forall m y, 0 <= m -> - m <= y <= m -> phi m <= phi y).
  { intros m y Hm Hy. destruct (Rle_dec 0 y); [apply phi_dec; lra|]. rewrite <- (phi_even y). apply phi_dec; lra. }
  assert (PHI4 : forall m z, 0 <= m -> m ^ 2 <= z -> z <= 4 -> 0.159 * (1 - z / 4) ^ 4 <= phi m ^ 2).
  { intros m z Hm Hz Hz4. rewrite (phi_ratio 0 m). pose proof phi0_close. rewrite Rpow_mult_distr.
    replace (exp (- ((m - 0) * (m + 0) / 2)) ^ 2) with (exp (- m ^ 2)).
    - pose proof (exp4 z ltac:(nra)). assert (exp (- z) <= exp (- m ^ 2)) by (apply exp_mono; lra). apply Rmult_le_compat; [lra|apply pow_le; lra|nra|lra].
    - symmetry. match goal with |- ?X ^ 2 = _ => replace (X ^ 2) with (X * X) by ring end. rewrite <- exp_plus. f_equal. field. }
  destruct (Rle_dec w 1) as [L|L].
  - assert (JJ : phi b ^ 2 * w ^ 4 / 12 <= mJ a b). { apply (J_const a b (phi b)); [lra|apply Rlt_le, phi_pos|]. intros y Hy. apply PHI; lra. }
    assert (bw : b <= w) by (unfold w; lra).
    assert (W0 : 0 < w) by lra. assert (W2 : 1 / 225 <= w ^ 2) by nra.
    assert (DD : Rabs d <= 0.0000055 * w) by lra. pose proof (Rabs_pos d).
    assert (Q : Rabs d * (2 * T + Rabs d + B) <= 0.0000055 * w * (1.2 * w)) by (apply Rmult_le_compat; lra).
    assert (G : 0.0000066 * w ^ 2 < phi b ^ 2 * w ^ 4 / 12).
    { replace (w ^ 4) with (w ^ 2 * w ^ 2) by ring. assert (0.00008 < phi b ^ 2 * w ^ 2); [|nra].
      pose proof (PHI4 b 1 ltac:(lra) ltac:(nra) ltac:(lra)). assert (0.05 <= phi b ^ 2) by lra. nra. }
    nra.
  - assert (JJ : phi (1 / 2) ^ 2 * (1 / 2 - 0) ^ 4 / 12 <= mJ a b).
    { apply Rle_trans with (mJ 0 (1 / 2)); [|apply mJ_mono; unfold w in L; lra]. apply (J_const 0 (1 / 2) (phi (1 / 2))); [lra|apply Rlt_le, phi_pos|]. intros y Hy. apply PHI; lra. }
    pose proof (PHI4 (1 / 2) (1 / 4) ltac:(lra) ltac:(lra) ltac:(lra)).
    pose proof (Rabs_pos d). assert (Q : Rabs d * (2 * T + Rabs d + B) <= 0.0000112 * 3.3) by (apply Rmult_le_compat; lra). lra.
Qed.

Lemma mM_ge a b h : 0 <= a -> 0 <= h -> a + h <= b -> phi (a + h) * h ^ 2 / 2 <= mN a b - a * mT a b.
Proof.
  intros Ha Hh Hb. assert (DM : forall c, is_derive (fun y => mN a y - a * mT a y) c (c * phi c - a * phi c)).
  { intros c. apply (minus_d (mN a) (fun y => a * mT a y)); [apply mN_d|apply (is_derive_scal (mT a) c a), mT_d]. }
  apply Rle_trans with (mN a (a + h) - a * mT a (a + h)).
  - pose proof (mono_diff (fun y => phi (a + h) * (y - a) ^ 2 / 2) (fun y => mN a y - a * mT a y) (fun y => phi (a + h) * (y - a)) (fun y => y * phi y - a * phi y) a (a + h)) as M.
    cbv beta in M. replace (a + h - a) with h in M by ring. replace (a - a) with 0 in M by ring.
    enough (phi (a + h) * h ^ 2 / 2 - phi (a + h) * 0 ^ 2 / 2 <= mN a (a + h) - a * mT a (a + h) - (mN a a - a * mT a a)).
    { unfold mN at 2, mT at 2 in H. lra. }
    apply M; [|intros; apply DM| |lra].
    + intros c _. auto_derive; [exact I|field].
    + intros c Hc. pose proof (phi_dec c (a + h) ltac:(lra)). nra.
  - apply (mono_of_deriv (fun y => mN a y - a * mT a y) (fun y => y * phi y - a * phi y)); [intros; apply DM| |lra].
    intros c Hc. pose proof (phi_pos c). nra.
Qed.
Lemma draw_core t e : 1 / 30 <= e -> 0 <= t -> tiny <= drawnorm t e ->
  let N := phi (e - t) - phi (e + t) in let B := (e + t) * phi (e + t) + (e - t) * phi (e - t) in let D := drawnorm t e in
  0 < D /\ 0 < N ^ 2 + B * D < D ^ 2.
Proof.
  intros He Ht Hn N B D. pose proof tiny_small as TS. assert (D0 : 0 < D) by (unfold D; lra). split; [auto|].
  pose (a := t - e). pose (b := e + t).
  assert (EN : N = mN a b) by (unfold N, mN, a, b; rewrite <- (phi_even (t - e)); do 3 f_equal; ring).
  assert (EB : B = mB a b) by (unfold B, mB, a, b; rewrite <- (phi_even (t - e)); replace (- (t - e)) with (e - t) by ring; ring).
  assert (PN : Phi (- e - t) = 1 - Phip b).
  { unfold b. rewrite Phi_neg by lra. unfold Phip. replace (- (- e - t)) with (e + t) by ring. field. }
  rewrite EN, EB. destruct (Rle_dec 0 a) as [A|A].
  - (* tail *)
    assert (ED : D = Phip b - Phip a).
    { unfold D, drawnorm. rewrite (Rabs_pos_eq t Ht), PN, Phi_neg by (unfold a in A; lra). unfold Phip, a. replace (- (e - t)) with (t - e) by ring. field. }
    assert (HB : a + 1 / 15 <= b) by (unfold a, b; lra).
    assert (A28 : a <= 283 / 10).
    { destruct (Req_dec a 0) as [->|NZ]; [lra|]. assert (X : tiny <= Phi (- a)).
      { rewrite Phi_neg by lra. assert (Phip b <= 1); [|unfold Phip in *; replace (- - a) with a by ring; unfold D in ED; lra].
        unfold Phip. pose proof sqrt2_pos. pose proof (nr_pos_gt0 (b / sqrt 2) ltac:(unfold b; assert (0 < / sqrt 2) by pos; unfold Rdiv; apply Rmult_le_pos; lra)). lra. }
      pose proof (not_tiny_u (- a) ltac:(lra) X) as [U _]. replace (- - a) with a in U by ring. pose proof sqrt2_pos as S2.
      assert (S3 : sqrt 2 <= 1.415) by (rewrite <- (sqrt_square 1.415) by lra; apply sqrt_le_1_alt; lra).
      assert (Y0 : 0 <= a / sqrt 2) by (unfold Rdiv; apply Rmult_le_pos; [lra|apply Rlt_le, Rinv_0_lt_compat; auto]).
      assert (Y : a / sqrt 2 <= 20).
      { assert (1 + a / sqrt 2 / 2 <= 11); [|lra]. rewrite <- (Rinv_inv (1 + a / sqrt 2 / 2)), <- (Rinv_inv 11).
        apply Rinv_le_contravar; lra. }
      replace a with (a / sqrt 2 * sqrt 2) by (field; lra). apply Rle_trans with (20 * 1.415); [apply Rmult_le_compat; lra|lra]. }
    pose proof (Phip_close a b ltac:(lra)) as PC. fold (mT a b) in PC. rewrite <- ED in PC. split.
    + (* positive *)
      pose proof (mills a b ltac:(lra)) as M. pose proof (phi_pos a) as PA. pose proof (phi_pos b) as PB.
      assert (T0 : 0 <= mT a b) by (apply mT_ge0; lra).
      destruct (Rle_dec 0 (mB a b)) as [BP|BN].
      { assert (0 < mN a b). { unfold mN. rewrite (phi_ratio a b). assert (exp (- ((b - a) * (b + a) / 2)) < 1); [|nra]. rewrite <- exp_0. apply exp_increasing. nra. }
        assert (0 < mN a b ^ 2) by (apply pow_lt; auto). assert (0 <= mB a b * D) by (apply Rmult_le_pos; lra). lra. }
      assert (SH : phi (a + 1 / 15) * (1 / 15) ^ 2 / 2 <= mN a b - a * mT a b).
      { apply mM_ge; lra. }
      assert (Z : phi a * 0.0759 <= phi (a + 1 / 15)).
      { rewrite (phi_ratio a (a + 1 / 15)). apply Rmult_le_compat_l; [lra|]. eapply Rle_trans; [|apply exp_mono with (a := - (1.9)); lra].
        pose proof (exp4 1.9 ltac:(lra)). lra. }
      assert (NP : mN a b <= phi a) by (unfold mN; lra).
      assert (B1 : - (a * phi a) <= mB a b) by (unfold mB; assert (0 <= b * phi b) by (apply Rmult_le_pos; [unfold b; lra|lra]); lra).
      assert (I1 : mN a b ^ 2 + mB a b * mT a b = phi a * (mN a b - a * mT a b) + phi b * (b * mT a b - mN a b)) by (unfold mN, mB; ring).
      assert (S0 : 0 <= b * mT a b - mN a b) by (pose proof (mS_ge0 a b ltac:(lra)) as S0; exact S0).
      assert (I2 : mB a b * (1.00001 * mT a b) <= mB a b * D) by nra.
      assert (I3 : - (a * phi a) * (0.00001 * mT a b) <= mB a b * (0.00001 * mT a b)) by (apply Rmult_le_compat_r; lra).
      assert (I4 : 0 <= phi b * (b * mT a b - mN a b)) by (apply Rmult_le_pos; lra).
      assert (I5 : phi a * (0.00016 * phi a) <= phi a * (mN a b - a * mT a b)) by (apply Rmult_le_compat_l; lra).
      assert (I6 : phi a * (a * mT a b) <= phi a * phi a) by (apply Rmult_le_compat_l; lra).
      assert (0 < phi a * phi a) by (apply Rmult_lt_0_compat; auto). lra.
    + destruct (Rle_dec 2 a).
      * apply case_tail; [lra|auto|]. rewrite ED. apply Phip_tight. lra.
      * apply case_mid; lra.
  - assert (ED : D = Phip (- a) + Phip b - 1).
    { unfold D, drawnorm. rewrite (Rabs_pos_eq t Ht), PN. rewrite Phi_pos by (unfold a in A; lra). unfold Phip, a. replace (- (t - e)) with (e - t) by ring. field. }
    assert (A0 : a < 0) by lra. assert (AB : - a <= b) by (unfold a, b; lra). split.
    + assert (0 < mB a b). { unfold mB. pose proof (phi_pos a). pose proof (phi_pos b). nra. }
      assert (0 < mB a b * D) by (apply Rmult_lt_0_compat; auto). assert (0 <= mN a b ^ 2) by nra. lra.
    + apply case_zero; auto; [unfold a, b; lra|].
      pose proof (Phip_close 0 (- a) ltac:(lra)) as C1. pose proof (Phip_close 0 b ltac:(lra)) as C2. rewrite Ncdf_0 in C1, C2. rewrite Ncdf_neg in C1.
      assert (P0 : -0.0000001 < 2 * Phip 0 - 1 < 0). { unfold Phip. replace (0 / sqrt 2) with 0 by (unfold Rdiv; ring). pose proof nr_pos_0. lra. }
      unfold mT. apply Rabs_le. rewrite ED. lra.
Qed.
Lemma wdraw_range t e : 1 / 30 <= e -> tiny <= drawnorm t e -> 0 < wdraw t e < 1.
Proof.
  intros He Hn. assert (Hn' : tiny <= drawnorm (Rabs t) e) by (unfold drawnorm in *; rewrite Rabs_Rabsolu; exact Hn).
  pose proof (draw_core (Rabs t) e He (Rabs_pos t) Hn') as (D0 & C). cbv zeta in C.
  assert (ED : drawnorm (Rabs t) e = drawnorm t e) by (unfold drawnorm; now rewrite Rabs_Rabsolu). rewrite ED in *.
  set (D := drawnorm t e) in *.
  assert (EW : wdraw t e = ((phi (e - Rabs t) - phi (e + Rabs t)) ^ 2 + ((e + Rabs t) * phi (e + Rabs t) + (e - Rabs t) * phi (e - Rabs t)) * D) / D ^ 2).
  { unfold wdraw, vdraw. fold D. destruct (Rlt_dec D tiny); [lra|]. replace (- e - t) with (- (e + t)) by ring. rewrite phi_even.
    destruct (Rle_dec 0 t); [rewrite Rabs_pos_eq by auto; field; lra|]. rewrite Rabs_left by lra.
    replace (e - - t) with (e + t) by ring. replace (e + - t) with (e - t) by ring. field. lra. }
  rewrite EW. assert (D2 : 0 < D ^ 2) by (apply pow_lt; auto). split.
  - apply Rdiv_lt_0_compat; lra.
  - apply Rmult_lt_reg_r with (D ^ 2); auto. unfold Rdiv. rewrite Rmult_assoc, Rinv_l by lra. lra.
Qed.

