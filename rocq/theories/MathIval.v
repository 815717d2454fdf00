(** A small verified interval evaluator: proves [0 < e(x)] for all [x] of a
    closed interval, for expressions built from rationals, PI, + - * / ^, exp
    and sqrt.  No model code here.  Numbers are integers scaled by 2^40;
    bounds are improved by bisection and the mean value theorem. *)
From Coq Require Import ZArith List Bool Reals Lra Lia.
From Coquelicot Require Import Coquelicot.
From Verif Require Import Tac.
Import ListNotations.
Local Open Scope R_scope.

(** ** Taylor polynomials bound exp *)
Fixpoint tay (n : nat) (x : R) : R :=
  match n with O => 1 | S n' => tay n' x + x ^ n / INR (fact n) end.
Definition dtay (n : nat) (x : R) : R :=
  match n with O => 0 | S n' => tay n' x end.
Lemma tay_0 n : tay n 0 = 1.
Proof. induction n as [|n IH]; [reflexivity|]. cbn [tay]. rewrite IH. replace (0 ^ S n) with 0 by (cbn; ring). unfold Rdiv. ring. Qed.
Lemma tay_deriv n x : is_derive (tay n) x (dtay n x).
Proof.
  induction n as [|n IH].
  - cbn. apply @is_derive_const.
  - apply is_derive_ext with (fun y => tay n y + y ^ S n / INR (fact (S n))); [reflexivity|].
    replace (dtay (S n) x) with (dtay n x + x ^ n / INR (fact n)).
    2:{ destruct n; cbn; [field|reflexivity]. }
    apply @is_derive_plus; [exact IH|]. auto_derive; [exact I|].
    change (match n with O => 1 | S _ => INR n + 1 end) with (INR (S n)). change (fact n + n * fact n)%nat with (fact (S n)).
    rewrite fact_simpl, mult_INR. cbn [Init.Nat.pred]. field. split; apply not_0_INR; [apply fact_neq_0|lia].
Qed.
Lemma exp_tay_sign n :
  (Nat.odd n = true -> forall x, tay n x <= exp x) /\
  (Nat.odd n = false -> forall x, (0 <= x -> tay n x <= exp x) /\ (x <= 0 -> exp x <= tay n x)).
Proof.
  assert (MV : forall m a b, a < b -> exists c, a < c < b /\ (exp b - tay m b) - (exp a - tay m a) = (exp c - dtay m c) * (b - a)).
  { intros m a b H. destruct (MVT_cor2 (fun y => exp y - tay m y) (fun y => exp y - dtay m y) a b H) as (c & E & Hc).
    - intros c _. apply is_derive_Reals. apply @is_derive_minus; [apply is_derive_exp|apply tay_deriv].
    - exists c. split; auto. }
  induction n as [|n [IH1 IH2]].
  - split; [discriminate|]. intros _ x. cbn. split; intros H.
    + rewrite <- exp_0. destruct H as [H|<-]; [apply Rlt_le, exp_increasing; auto|lra].
    + rewrite <- exp_0. destruct H as [H| ->]; [apply Rlt_le, exp_increasing; auto|lra].
  - rewrite Nat.odd_succ, <- Nat.negb_odd. split; intros O x.
    + destruct (Nat.odd n) eqn:E; [discriminate|]. specialize (IH2 eq_refl).
      destruct (Rtotal_order x 0) as [H|[->|H]].
      * destruct (MV (S n) x 0 H) as (c & Hc & M). rewrite tay_0, exp_0 in M. cbn [dtay] in M.
        destruct (IH2 c) as [_ I]. specialize (I ltac:(lra)). nra.
      * rewrite tay_0, exp_0. lra.
      * destruct (MV (S n) 0 x H) as (c & Hc & M). rewrite tay_0, exp_0 in M. cbn [dtay] in M.
        destruct (IH2 c) as [I _]. specialize (I ltac:(lra)). nra.
    + destruct (Nat.odd n) eqn:E; [|discriminate]. specialize (IH1 eq_refl). split; intros H.
      * destruct H as [H|<-]; [|rewrite tay_0, exp_0; lra].
        destruct (MV (S n) 0 x H) as (c & Hc & M). rewrite tay_0, exp_0 in M. cbn [dtay] in M. specialize (IH1 c). nra.
      * destruct H as [H| ->]; [|rewrite tay_0, exp_0; lra].
        destruct (MV (S n) x 0 H) as (c & Hc & M). rewrite tay_0, exp_0 in M. cbn [dtay] in M. specialize (IH1 c). nra.
Qed.
Lemma exp_tay_odd n x : Nat.odd n = true -> tay n x <= exp x.
Proof. intros H. destruct (exp_tay_sign n) as [I _]. apply I, H. Qed.

(** ** Scaled integers *)
Definition sc : Z := (2 ^ 40)%Z.
Definition S_ : R := IZR sc.
Lemma S_pos : 0 < S_.
Proof. apply IZR_lt. reflexivity. Qed.
Lemma IZR_sc : IZR sc = S_.
Proof. reflexivity. Qed.
Opaque S_.
Lemma sc_pos : (0 < sc)%Z.
Proof. reflexivity. Qed.
Global Opaque sc.
(** [z/2^40 <= x], [x <= z/2^40]. *)
Definition lb (z : Z) (x : R) : Prop := IZR z <= x * S_.
Definition ub (z : Z) (x : R) : Prop := x * S_ <= IZR z.
Definition ival : Type := (Z * Z)%type.
Definition con (I : ival) (x : R) : Prop := lb (fst I) x /\ ub (snd I) x.

Definition fdiv_ (a b : Z) : Z := (a / b)%Z.
Definition cdiv_ (a b : Z) : Z := (- ((- a) / b))%Z.
Lemma fdiv_le a b : (0 < b)%Z -> IZR (fdiv_ a b) <= IZR a / IZR b.
Proof.
  intros H. apply Rmult_le_reg_r with (IZR b); [apply IZR_lt; auto|]. unfold Rdiv. rewrite Rmult_assoc, Rinv_l, Rmult_1_r by (apply not_0_IZR; lia).
  rewrite <- mult_IZR. apply IZR_le. unfold fdiv_. rewrite Z.mul_comm. apply Z.mul_div_le; auto.
Qed.
Lemma cdiv_ge a b : (0 < b)%Z -> IZR a / IZR b <= IZR (cdiv_ a b).
Proof. intros H. unfold cdiv_. rewrite opp_IZR. pose proof (fdiv_le (- a) b H) as L. unfold fdiv_ in L. rewrite opp_IZR in L. unfold Rdiv in *. lra. Qed.

(** Division by the scale. *)
Definition shf (a : Z) : Z := Z.shiftr a 40.
Definition shc (a : Z) : Z := (- Z.shiftr (- a) 40)%Z.
Lemma shf_eq a : shf a = fdiv_ a sc.
Proof. unfold shf. rewrite Z.shiftr_div_pow2 by lia. reflexivity. Qed.
Lemma shc_eq a : shc a = cdiv_ a sc.
Proof. unfold shc. rewrite Z.shiftr_div_pow2 by lia. reflexivity. Qed.
Definition iadd (I J : ival) : ival := (fst I + fst J, snd I + snd J)%Z.
Definition ineg (I : ival) : ival := (- snd I, - fst I)%Z.
Definition isub (I J : ival) : ival := iadd I (ineg J).
Definition min4 (a b c d : Z) : Z := Z.min (Z.min a b) (Z.min c d).
Definition max4 (a b c d : Z) : Z := Z.max (Z.max a b) (Z.max c d).
Definition imul (I J : ival) : ival :=
  let '(a, b) := I in let '(c, d) := J in
  if (0 <=? a)%Z && (0 <=? c)%Z then (shf (a * c), shc (b * d)) else
  let p := (a * c)%Z in let q := (a * d)%Z in let r := (b * c)%Z in let s := (b * d)%Z in
  (shf (min4 p q r s), shc (max4 p q r s)).
Definition iinv (I : ival) : option ival :=
  let '(a, b) := I in
  if (0 <? a)%Z then Some (fdiv_ (sc * sc) b, cdiv_ (sc * sc) a)
  else if (b <? 0)%Z then Some (- cdiv_ (sc * sc) (- b), - fdiv_ (sc * sc) (- a))%Z
  else None.
Definition icst (n : Z) : ival := (n * sc, n * sc)%Z.

Lemma con_add I J x y : con I x -> con J y -> con (iadd I J) (x + y).
Proof. unfold con, lb, ub, iadd; cbn [fst snd]. rewrite !plus_IZR. lra. Qed.
Lemma con_neg I x : con I x -> con (ineg I) (- x).
Proof. unfold con, lb, ub, ineg; cbn [fst snd]. rewrite !opp_IZR. lra. Qed.
Lemma con_sub I J x y : con I x -> con J y -> con (isub I J) (x - y).
Proof. intros. unfold isub, Rminus. apply con_add; [|apply con_neg]; auto. Qed.
Lemma con_cst n : con (icst n) (IZR n).
Proof. unfold con, lb, ub, icst; cbn [fst snd]. rewrite mult_IZR. rewrite IZR_sc. lra. Qed.
Lemma IZR_min a b : IZR (Z.min a b) = Rmin (IZR a) (IZR b).
Proof.
  destruct (Z.min_spec a b) as [[H ->]|[H ->]]; symmetry; [apply Rmin_left|apply Rmin_right]; apply IZR_le; lia.
Qed.
Lemma IZR_max a b : IZR (Z.max a b) = Rmax (IZR a) (IZR b).
Proof.
  destruct (Z.max_spec a b) as [[H ->]|[H ->]]; symmetry; [apply Rmax_right|apply Rmax_left]; apply IZR_le; lia.
Qed.
(** A bilinear function on a rectangle is bounded by its corner values. *)
Lemma corners_le a b c d x y : a <= x <= b -> c <= y <= d -> Rmin (Rmin (a * c) (a * d)) (Rmin (b * c) (b * d)) <= x * y.
Proof.
  intros Hx Hy. pose proof (Rmin_l (Rmin (a * c) (a * d)) (Rmin (b * c) (b * d))). pose proof (Rmin_r (Rmin (a * c) (a * d)) (Rmin (b * c) (b * d))).
  pose proof (Rmin_l (a * c) (a * d)). pose proof (Rmin_r (a * c) (a * d)). pose proof (Rmin_l (b * c) (b * d)). pose proof (Rmin_r (b * c) (b * d)).
  destruct (Rle_dec 0 x).
  - assert (x * c <= x * y) by nra. destruct (Rle_dec 0 c); [assert (a * c <= x * c) by nra|assert (b * c <= x * c) by nra]; lra.
  - assert (x * d <= x * y) by nra. destruct (Rle_dec 0 d); [assert (a * d <= x * d) by nra|assert (b * d <= x * d) by nra]; lra.
Qed.
Lemma corners_ge a b c d x y : a <= x <= b -> c <= y <= d -> x * y <= Rmax (Rmax (a * c) (a * d)) (Rmax (b * c) (b * d)).
Proof.
  intros Hx Hy. pose proof (Rmax_l (Rmax (a * c) (a * d)) (Rmax (b * c) (b * d))). pose proof (Rmax_r (Rmax (a * c) (a * d)) (Rmax (b * c) (b * d))).
  pose proof (Rmax_l (a * c) (a * d)). pose proof (Rmax_r (a * c) (a * d)). pose proof (Rmax_l (b * c) (b * d)). pose proof (Rmax_r (b * c) (b * d)).
  destruct (Rle_dec 0 x).
  - assert (x * y <= x * d) by nra. destruct (Rle_dec 0 d); [assert (x * d <= b * d) by nra|assert (x * d <= a * d) by nra]; lra.
  - assert (x * y <= x * c) by nra. destruct (Rle_dec 0 c); [assert (x * c <= b * c) by nra|assert (x * c <= a * c) by nra]; lra.
Qed.
Lemma con_mul I J x y : con I x -> con J y -> con (imul I J) (x * y).
Proof.
  destruct I as [a b], J as [c d]. unfold con, lb, ub, imul; cbn [fst snd]. intros Hx Hy. pose proof S_pos.
  pose proof sc_pos as Z0. rewrite !shf_eq, !shc_eq.
  replace (x * y * S_) with ((x * S_) * (y * S_) / S_) by (field; lra).
  assert (G : forall lo hi, IZR lo <= x * S_ * (y * S_) <= IZR hi ->
    IZR (fst (fdiv_ lo sc, cdiv_ hi sc)) <= x * S_ * (y * S_) / S_ <= IZR (snd (fdiv_ lo sc, cdiv_ hi sc))).
  { intros lo hi B. cbn [fst snd]. split.
    - eapply Rle_trans; [apply fdiv_le; auto|]. rewrite IZR_sc. unfold Rdiv. apply Rmult_le_compat_r; [apply Rlt_le, Rinv_0_lt_compat; auto|]. lra.
    - eapply Rle_trans; [|apply cdiv_ge; auto]. rewrite IZR_sc. unfold Rdiv. apply Rmult_le_compat_r; [apply Rlt_le, Rinv_0_lt_compat; auto|]. lra. }
  destruct (Z.leb_spec 0 a) as [Ha|Ha]; [destruct (Z.leb_spec 0 c) as [Hc|Hc]|]; cbn [andb].
  - apply G. apply IZR_le in Ha, Hc. rewrite !mult_IZR. split; apply Rmult_le_compat; lra.
  - apply G. unfold min4, max4. rewrite !IZR_min, !IZR_max, !mult_IZR. split; [apply corners_le|apply corners_ge]; auto.
  - apply G. unfold min4, max4. rewrite !IZR_min, !IZR_max, !mult_IZR. split; [apply corners_le|apply corners_ge]; auto.
Qed.
Lemma con_inv I J x : iinv I = Some J -> con I x -> con J (/ x) /\ x <> 0.
Proof.
  assert (P : forall a b y, (0 < a)%Z -> IZR a <= y * S_ <= IZR b -> IZR (fdiv_ (sc * sc) b) <= / y * S_ <= IZR (cdiv_ (sc * sc) a) /\ 0 < y).
  { intros a b y Ha Hy. pose proof S_pos. assert (A0 : 0 < IZR a) by (apply IZR_lt; auto). assert (Y0 : 0 < y) by nra.
    assert (B0 : 0 < IZR b) by lra. assert (ZB : (0 < b)%Z) by (apply lt_IZR; auto). split; [|auto].
    assert (E : / y * S_ = S_ * S_ / (y * S_)) by (field; lra). rewrite E. split.
    - eapply Rle_trans; [apply fdiv_le; auto|]. rewrite mult_IZR. rewrite IZR_sc. unfold Rdiv. apply Rmult_le_compat_l; [nra|]. apply Rinv_le_contravar; lra.
    - eapply Rle_trans; [|apply cdiv_ge; auto]. rewrite mult_IZR. rewrite IZR_sc. unfold Rdiv. apply Rmult_le_compat_l; [nra|]. apply Rinv_le_contravar; lra. }
  destruct I as [a b]. unfold iinv, con, lb, ub; cbn [fst snd]. destruct (Z.ltb_spec 0 a) as [Ha|Ha].
  - intros [= <-] Hx. cbn [fst snd]. destruct (P a b x Ha Hx) as (Q1 & Q2). split; [auto|lra].
  - destruct (Z.ltb_spec b 0) as [Hb|Hb]; [|discriminate]. intros [= <-] Hx. cbn [fst snd].
    destruct (P (- b)%Z (- a)%Z (- x) ltac:(lia)) as (Q1 & Q2). { rewrite !opp_IZR. lra. }
    rewrite Rinv_opp in Q1. rewrite !opp_IZR. split; lra.
Qed.

(** ** exp, sqrt, PI *)
(** Horner form of [tay 5], times 5!. *)
Definition tcoef : list Z := [120; 120; 60; 20; 5; 1]%Z.
Definition itay (X : ival) : ival := fold_right (fun c I => iadd (icst c) (imul X I)) (icst 0) tcoef.
Definition rtay (x : R) : R := fold_right (fun c r => IZR c + x * r) 0 tcoef.
Lemma con_itay X x : con X x -> con (itay X) (rtay x).
Proof.
  intros Hx. unfold itay, rtay. induction tcoef as [|c l IH]; cbn [fold_right]; [apply con_cst|]. apply con_add; [apply con_cst|]. apply con_mul; auto.
Qed.
Fixpoint horn (n : nat) (k : Z) (x : R) : R :=
  match n with O => 1 | S n' => 1 + x * horn n' (k + 1) x / IZR k end.
Lemma horn_tay n : forall m x, tay m x + x ^ (S m) / INR (fact (S m)) * horn n (Z.of_nat (S (S m))) x = tay (S m + n) x.
Proof.
  induction n as [|n IH]; intros m x.
  - cbn [horn]. rewrite Nat.add_0_r, Rmult_1_r. reflexivity.
  - replace (S m + S n)%nat with (S (S m) + n)%nat by lia. rewrite <- (IH (S m) x). cbn [horn].
    replace (Z.of_nat (S (S m)) + 1)%Z with (Z.of_nat (S (S (S m)))) by lia. rewrite <- (INR_IZR_INZ (S (S m))).
    change (tay (S m) x) with (tay m x + x ^ S m / INR (fact (S m))). rewrite (fact_simpl (S m)), mult_INR.
    change (x ^ S (S m)) with (x * x ^ S m). field. split; apply not_0_INR; try apply fact_neq_0; lia.
Qed.
Lemma horn5 x : horn 5 1 x = tay 5 x.
Proof.
  pose proof (horn_tay 4 0 x) as H. change (1 + 4)%nat with 5%nat in H. rewrite <- H. change (Z.of_nat 2) with 2%Z. clear H. change (horn 5 1 x) with (1 + x * horn 4 2 x / 1). cbn [tay fact Nat.mul Nat.add INR pow]. field.
Qed.

Lemma rtay5 x : rtay x = 120 * tay 5 x.
Proof. rewrite <- horn5. unfold rtay, tcoef. cbn [fold_right horn Z.add Pos.add Pos.succ]. field. Qed.

Definition zsq (l : Z) : Z := shf (l * l).
Fixpoint zsqn (k : nat) (l : Z) : Z := match k with O => l | S k' => zsqn k' (zsq l) end.
Lemma zsqn_lb k : forall l x, (0 <= l)%Z -> lb l x -> (0 <= zsqn k l)%Z /\ lb (zsqn k l) (x ^ (2 ^ k)).
Proof.
  induction k as [|k IH]; intros l x Hl Hx.
  - cbn. rewrite Rmult_1_r. auto.
  - cbn [zsqn]. pose proof S_pos. unfold lb in Hx. assert (0 <= IZR l) by (apply IZR_le; auto).
    replace (x ^ (2 ^ S k)) with ((x * x) ^ (2 ^ k)).
    2:{ replace (x * x) with (x ^ 2) by ring. rewrite <- pow_mult. f_equal. }
    apply IH.
    + unfold zsq. rewrite shf_eq. unfold fdiv_. apply Z.div_pos; [nia|exact sc_pos].
    + unfold lb, zsq. rewrite shf_eq. eapply Rle_trans; [apply fdiv_le; exact sc_pos|]. rewrite mult_IZR. rewrite IZR_sc.
      replace (x * x * S_) with ((x * S_) * (x * S_) / S_) by (field; lra). unfold Rdiv. apply Rmult_le_compat_r; [apply Rlt_le, Rinv_0_lt_compat; auto|].
      apply Rmult_le_compat; lra.
Qed.
(** Lower bound of exp at the scaled point [a]; reduction by 2^6. *)
Definition zexp_lo (a : Z) : Z :=
  let l := fdiv_ (fst (itay (Z.shiftr a 6, - Z.shiftr (- a) 6)%Z)) 120 in
  if (l <=? 0)%Z then 0%Z else zsqn 6 l.
Lemma zexp_lo_spec a : (0 <= zexp_lo a)%Z /\ lb (zexp_lo a) (exp (IZR a / S_)).
Proof.
  pose proof S_pos. unfold zexp_lo. set (x := IZR a / S_ / 64).
  assert (C : con (Z.shiftr a 6, - Z.shiftr (- a) 6)%Z x).
  { rewrite !Z.shiftr_div_pow2 by lia. change (2 ^ 6)%Z with 64%Z. unfold con, lb, ub, x; cbn [fst snd]. replace (IZR a / S_ / 64 * S_) with (IZR a / 64) by (field; lra).
    split; [apply (fdiv_le a 64)|apply (cdiv_ge a 64)]; reflexivity. }
  destruct (con_itay _ _ C) as [L _]. rewrite rtay5 in L. unfold lb in L. set (l0 := fst _) in *.
  assert (L1 : lb (fdiv_ l0 120) (tay 5 x)).
  { unfold lb. eapply Rle_trans; [apply fdiv_le; reflexivity|]. unfold Rdiv. lra. }
  clear L. rename L1 into L. set (l := fdiv_ l0 120) in *.
  destruct (Z.leb_spec l 0) as [Hl|Hl].
  - split; [lia|]. unfold lb. pose proof (exp_pos (IZR a / S_)). nra.
  - assert (L' : lb l (exp x)). { unfold lb in *. eapply Rle_trans; [exact L|]. apply Rmult_le_compat_r; [lra|]. apply exp_tay_odd. reflexivity. }
    destruct (zsqn_lb 6 l _ ltac:(lia) L') as [Z1 Z2]. split; auto.
    replace (exp (IZR a / S_)) with (exp x ^ (2 ^ 6)); auto.
    replace (IZR a / S_) with (INR 64 * x) by (unfold x; cbn [INR]; field; lra).
    clear. change (2 ^ 6)%nat with 64%nat. generalize 64%nat. intros n. induction n as [|n IH]; [cbn [INR pow]; rewrite Rmult_0_l, exp_0; reflexivity|].
    rewrite S_INR, Rmult_plus_distr_r, exp_plus, Rmult_1_l, <- IH. cbn [pow]. ring.
Qed.
Definition iexp (I : ival) : option ival :=
  let '(a, b) := I in
  let l := zexp_lo a in let m := zexp_lo (- b) in
  if (0 <? m)%Z then Some (l, cdiv_ (sc * sc) m) else None.
Lemma con_exp_gen l m a b x : (0 < m)%Z -> lb l (exp (IZR a / S_)) -> lb m (exp (IZR (- b) / S_)) -> con (a, b) x -> con (l, cdiv_ (sc * sc) m) (exp x).
Proof.
  intros Hm La Lb [H1 H2]. unfold con, lb, ub in *. cbn [fst snd] in *.
  pose proof S_pos. split.
  - eapply Rle_trans; [exact La|]. apply Rmult_le_compat_r; [lra|]. assert (IZR a / S_ <= x).
    { apply Rmult_le_reg_r with S_; auto. unfold Rdiv. rewrite Rmult_assoc, Rinv_l by lra. lra. }
    destruct H0 as [H0|<-]; [apply Rlt_le, exp_increasing; auto|lra].
  - eapply Rle_trans; [|apply cdiv_ge; auto]. rewrite mult_IZR. rewrite IZR_sc.
    assert (M0 : 0 < IZR m) by (apply IZR_lt; auto).
    assert (X : x <= IZR b / S_). { apply Rmult_le_reg_r with S_; auto. unfold Rdiv. rewrite Rmult_assoc, Rinv_l by lra. lra. }
    assert (E : exp (IZR (- b) / S_) = / exp (IZR b / S_)). { rewrite <- exp_Ropp. f_equal. rewrite opp_IZR. field. lra. }
    rewrite E in Lb. set (e := exp (IZR b / S_)) in *. assert (E0 : 0 < e) by apply exp_pos.
    assert (exp x <= e). { unfold e. destruct X as [X| ->]; [apply Rlt_le, exp_increasing; auto|lra]. }
    apply Rle_trans with (e * S_); [apply Rmult_le_compat_r; lra|]. apply Rmult_le_reg_r with (IZR m); auto. replace (S_ * S_ / IZR m * IZR m) with (S_ * S_) by (field; lra).
    apply Rmult_le_reg_r with (/ e); [apply Rinv_0_lt_compat; auto|]. replace (e * S_ * IZR m * / e) with (IZR m * S_) by (field; lra).
    replace (S_ * S_ * / e) with (/ e * S_ * S_) by ring. apply Rmult_le_compat_r; lra.
Qed.
Lemma con_exp I J x : iexp I = Some J -> con I x -> con J (exp x).
Proof.
  destruct I as [a b]. unfold iexp. generalize (zexp_lo_spec a) (zexp_lo_spec (- b)). generalize (zexp_lo a) (zexp_lo (- b)). intros l m [_ La] [_ Lb].
  destruct (Z.ltb_spec 0 m) as [Hm|]; [|discriminate]. intros [= <-]. apply con_exp_gen; auto.
Qed.
Definition isqrt (I : ival) : option ival :=
  let '(a, b) := I in
  if (0 <? a)%Z then Some (Z.sqrt (a * sc), Z.sqrt (b * sc) + 1)%Z else None.
Lemma con_sqrt I J x : isqrt I = Some J -> con I x -> con J (sqrt x) /\ 0 < x.
Proof.
  destruct I as [a b]. unfold isqrt. destruct (Z.ltb_spec 0 a) as [Ha|]; [|discriminate]. intros [= <-] [H1 H2]. unfold con, lb, ub in *. cbn [fst snd] in *.
  pose proof S_pos. assert (A0 : 0 < IZR a) by (apply IZR_lt; auto). assert (X0 : 0 < x) by nra. split; [|auto].
  assert (E : sqrt x * S_ = sqrt (x * S_ * S_)). { rewrite Rmult_assoc, sqrt_mult_alt by lra. rewrite sqrt_square by lra. reflexivity. }
  rewrite E. assert (ZA : (0 <= a * sc)%Z) by (pose proof sc_pos; nia). assert (B0 : (0 < b)%Z) by (apply lt_IZR; lra). assert (ZB : (0 <= b * sc)%Z) by (pose proof sc_pos; nia). split.
  - apply Rle_trans with (sqrt (IZR (a * sc))).
    + rewrite <- (sqrt_square (IZR (Z.sqrt (a * sc)))) by (apply IZR_le, Z.sqrt_nonneg). apply sqrt_le_1_alt. rewrite <- mult_IZR. apply IZR_le. apply Z.sqrt_spec; auto.
    + apply sqrt_le_1_alt. rewrite mult_IZR. rewrite IZR_sc. apply Rmult_le_compat_r; lra.
  - apply Rle_trans with (sqrt (IZR (b * sc))).
    + apply sqrt_le_1_alt. rewrite mult_IZR. rewrite IZR_sc. apply Rmult_le_compat_r; lra.
    + rewrite <- (sqrt_square (IZR (Z.sqrt (b * sc) + 1))) by (apply IZR_le; pose proof (Z.sqrt_nonneg (b * sc)); lia). apply sqrt_le_1_alt. rewrite <- mult_IZR. apply IZR_le.
      pose proof (Z.sqrt_spec (b * sc) ZB) as [_ H']. rewrite <- Z.add_1_r in H'. apply Z.lt_le_incl. exact H'.
Qed.
(** PI from Machin's formula. *)
Lemma PI_close : 314159265 / 100000000 < PI < 314159266 / 100000000.
Proof.
  pose proof (PI_2_3_7_ineq 4) as [L U]. unfold tg_alt, PI_2_3_7_tg, Ratan_seq in L, U. cbn -[pow] in L, U. split; lra.
Qed.
Definition ipi : ival := (fdiv_ (314159265 * sc) 100000000, cdiv_ (314159266 * sc) 100000000).
Lemma con_pi : con ipi PI.
Proof.
  pose proof PI_close. pose proof S_pos. unfold con, lb, ub, ipi; cbn [fst snd]. split.
  - eapply Rle_trans; [apply fdiv_le; reflexivity|]. rewrite mult_IZR, IZR_sc. unfold Rdiv. nra.
  - eapply Rle_trans; [|apply cdiv_ge; reflexivity]. rewrite mult_IZR, IZR_sc. unfold Rdiv. nra.
Qed.

(** Rational constants. *)
Definition icq (n d : Z) : ival := (fdiv_ (n * sc) d, cdiv_ (n * sc) d).
Lemma con_icq n d : (0 < d)%Z -> con (icq n d) (IZR n / IZR d).
Proof.
  intros H. pose proof S_pos. assert (0 < IZR d) by now apply IZR_lt. unfold con, lb, ub, icq. cbn [fst snd].
  split; [eapply Rle_trans; [apply fdiv_le; auto|]|eapply Rle_trans; [|apply cdiv_ge; auto]]; rewrite mult_IZR, IZR_sc; right; field; lra.
Qed.

(** ** Expressions in one variable *)
Inductive expr :=
| Cst (n : Z) | Var | EPi | Add (a b : expr) | Sub (a b : expr) | Mul (a b : expr) | Opp (a : expr)
| Inv (a : expr) | Pow (a : expr) (n : nat) | Exp (a : expr) | Sqrt (a : expr) | Rat (n : Z) (d : positive).
Fixpoint ev (e : expr) (x : R) : R :=
  match e with
  | Cst n => IZR n
  | Var => x
  | EPi => PI
  | Add a b => ev a x + ev b x
  | Sub a b => ev a x - ev b x
  | Mul a b => ev a x * ev b x
  | Opp a => - ev a x
  | Inv a => / ev a x
  | Pow a n => ev a x ^ n
  | Exp a => exp (ev a x)
  | Sqrt a => sqrt (ev a x)
  | Rat n d => IZR n * / IZR (Zpos d)
  end.
Definition zero_e (e : expr) : bool := match e with Cst Z0 => true | _ => false end.
Definition madd (a b : expr) : expr := if zero_e a then b else if zero_e b then a else Add a b.
Definition mmul (a b : expr) : expr := if zero_e a || zero_e b then Cst 0 else Mul a b.
Lemma zero_ev e x : zero_e e = true -> ev e x = 0.
Proof. destruct e as [[]| | | | | | | | | | |]; try discriminate. reflexivity. Qed.
Lemma ev_madd a b x : ev (madd a b) x = ev a x + ev b x.
Proof. unfold madd. destruct (zero_e a) eqn:A; [rewrite (zero_ev a) by auto; ring|]. destruct (zero_e b) eqn:B; [rewrite (zero_ev b) by auto; ring|reflexivity]. Qed.
Lemma ev_mmul a b x : ev (mmul a b) x = ev a x * ev b x.
Proof.
  unfold mmul. destruct (zero_e a) eqn:A; [rewrite (zero_ev a) by auto; cbn; ring|]. destruct (zero_e b) eqn:B; [rewrite (zero_ev b) by auto; cbn; ring|reflexivity].
Qed.
(** Symbolic derivative. *)
Fixpoint D (e : expr) : expr :=
  match e with
  | Cst _ | EPi | Rat _ _ => Cst 0
  | Var => Cst 1
  | Add a b => madd (D a) (D b)
  | Sub a b => madd (D a) (mmul (Cst (-1)) (D b))
  | Mul a b => madd (mmul (D a) b) (mmul a (D b))
  | Opp a => mmul (Cst (-1)) (D a)
  | Inv a => mmul (D a) (Opp (Pow (Inv a) 2))
  | Pow a n => mmul (D a) (Mul (Cst (Z.of_nat n)) (Pow a (pred n)))
  | Exp a => mmul (D a) (Exp a)
  | Sqrt a => mmul (D a) (Inv (Mul (Cst 2) (Sqrt a)))
  end.
(** Points where every subterm is defined. *)
Fixpoint wf (e : expr) (x : R) : Prop :=
  match e with
  | Cst _ | EPi | Var | Rat _ _ => True
  | Add a b | Sub a b | Mul a b => wf a x /\ wf b x
  | Opp a | Pow a _ | Exp a => wf a x
  | Inv a => wf a x /\ ev a x <> 0
  | Sqrt a => wf a x /\ 0 < ev a x
  end.
Lemma D_correct e x : wf e x -> is_derive (ev e) x (ev (D e) x).
Proof.
  induction e as [n| | |a IHa b IHb|a IHa b IHb|a IHa b IHb|a IHa|a IHa|a IHa n|a IHa|a IHa|n d]; cbn [wf ev D]; intros W.
  - apply @is_derive_const.
  - apply @is_derive_id.
  - apply @is_derive_const.
  - rewrite ev_madd. apply @is_derive_plus; tauto.
  - rewrite ev_madd, ev_mmul. cbn [ev]. replace (ev (D a) x + -1 * ev (D b) x) with (ev (D a) x - ev (D b) x) by ring. apply @is_derive_minus; tauto.
  - rewrite ev_madd, !ev_mmul. apply @is_derive_mult; [tauto|tauto|]. intros. apply Rmult_comm.
  - rewrite ev_mmul. cbn [ev]. replace (-1 * ev (D a) x) with (- ev (D a) x) by ring. apply @is_derive_opp. auto.
  - rewrite ev_mmul. cbn [ev]. destruct W as [W1 W2]. replace (ev (D a) x * - (/ ev a x) ^ 2) with (- ev (D a) x / ev a x ^ 2) by (field; auto).
    apply is_derive_inv; auto.
  - rewrite ev_mmul. cbn [ev]. rewrite <- INR_IZR_INZ. replace (ev (D a) x * (INR n * ev a x ^ pred n)) with (INR n * ev (D a) x * ev a x ^ pred n) by ring. apply is_derive_pow. auto.
  - rewrite ev_mmul. cbn [ev]. apply (is_derive_comp exp (ev a)); [apply is_derive_exp|auto].
  - rewrite ev_mmul. cbn [ev]. destruct W as [W1 W2]. assert (0 < sqrt (ev a x)) by (apply sqrt_lt_R0; auto).
    apply (is_derive_comp sqrt (ev a)); [|auto]. apply is_derive_Reals. replace (/ (2 * sqrt (ev a x))) with (/ 2 * / sqrt (ev a x)) by (field; lra).
    pose proof (derivable_pt_lim_sqrt (ev a x) W2) as L. replace (/ 2 * / sqrt (ev a x)) with (/ (2 * sqrt (ev a x))) by (field; lra). exact L.
  - apply @is_derive_const.
Qed.

Fixpoint ipow (I : ival) (n : nat) : ival :=
  match n with O => icst 1 | S n' => imul I (ipow I n') end.
Lemma con_pow I n x : con I x -> con (ipow I n) (x ^ n).
Proof. intros H. induction n as [|n IH]; [apply con_cst|]. cbn. apply con_mul; auto. Qed.
Definition obind1 (o : option ival) (f : ival -> option ival) : option ival := match o with Some K => f K | None => None end.
Definition obind2 (o p : option ival) (f : ival -> ival -> ival) : option ival :=
  match o, p with Some K, Some J => Some (f K J) | _, _ => None end.
Fixpoint ieval (e : expr) (X : ival) : option ival :=
  match e with
  | Cst n => Some (icst n)
  | Var => Some X
  | EPi => Some ipi
  | Add a b => obind2 (ieval a X) (ieval b X) iadd
  | Sub a b => obind2 (ieval a X) (ieval b X) isub
  | Mul a b => obind2 (ieval a X) (ieval b X) imul
  | Opp a => obind1 (ieval a X) (fun K => Some (ineg K))
  | Inv a => obind1 (ieval a X) iinv
  | Pow a n => obind1 (ieval a X) (fun K => Some (ipow K n))
  | Exp a => obind1 (ieval a X) iexp
  | Sqrt a => obind1 (ieval a X) isqrt
  | Rat n d => Some (icq n (Zpos d))
  end.
Lemma ieval_con e X x : con X x -> forall I, ieval e X = Some I -> con I (ev e x) /\ wf e x.
Proof.
  intros HX. induction e as [n| | |a IHa b IHb|a IHa b IHb|a IHa b IHb|a IHa|a IHa|a IHa n|a IHa|a IHa|n d]; cbn [ieval wf ev]; intros I.
  - intros [= <-]. split; [apply con_cst|exact Logic.I].
  - intros [= <-]. split; [auto|exact Logic.I].
  - intros [= <-]. split; [apply con_pi|exact Logic.I].
  - destruct (ieval a X) as [A|]; [|discriminate]. destruct (ieval b X) as [B|]; [|discriminate]. intros [= <-].
    destruct (IHa A eq_refl), (IHb B eq_refl). split; [apply con_add|]; auto.
  - destruct (ieval a X) as [A|]; [|discriminate]. destruct (ieval b X) as [B|]; [|discriminate]. intros [= <-].
    destruct (IHa A eq_refl), (IHb B eq_refl). split; [apply con_sub|]; auto.
  - destruct (ieval a X) as [A|]; [|discriminate]. destruct (ieval b X) as [B|]; [|discriminate]. intros [= <-].
    destruct (IHa A eq_refl), (IHb B eq_refl). split; [apply con_mul|]; auto.
  - destruct (ieval a X) as [A|]; [|discriminate]. intros [= <-]. destruct (IHa A eq_refl). split; [apply con_neg|]; auto.
  - destruct (ieval a X) as [A|]; [|discriminate]. cbn [obind1]. intros E. destruct (IHa A eq_refl) as [C W]. destruct (con_inv _ _ _ E C). auto.
  - destruct (ieval a X) as [A|]; [|discriminate]. intros [= <-]. destruct (IHa A eq_refl). split; [apply con_pow|]; auto.
  - destruct (ieval a X) as [A|]; [|discriminate]. cbn [obind1]. intros E. destruct (IHa A eq_refl) as [C W]. split; auto. eapply con_exp; eauto.
  - destruct (ieval a X) as [A|]; [|discriminate]. cbn [obind1]. intros E. destruct (IHa A eq_refl) as [C W]. destruct (con_sqrt _ _ _ E C). auto.
  - intros [= <-]. split; [apply (con_icq n (Zpos d)); reflexivity|exact Logic.I].
Qed.

(** ** The checker *)
(** [e > 0] on [X], directly or by the mean value theorem around the midpoint. *)
Definition pos_on (e de : expr) (X : ival) : bool :=
  match ieval e X with
  | None => false
  | Some (l, _) =>
    if (0 <? l)%Z then true else
    let m := ((fst X + snd X) / 2)%Z in
    match ieval e (m, m), ieval de X with
    | Some (lm, _), Some J => (0 <? lm + fst (imul J (fst X - m, snd X - m)))%Z
    | _, _ => false
    end
  end.
Fixpoint check (fuel : nat) (e de : expr) (X : ival) : bool :=
  if pos_on e de X then true else
  match fuel with
  | O => false
  | S f => let m := ((fst X + snd X) / 2)%Z in check f e de (fst X, m) && check f e de (m, snd X)
  end.
Lemma pos_on_sound e X x : (fst X <= snd X)%Z -> pos_on e (D e) X = true -> con X x -> 0 < ev e x.
Proof.
  intros HX. unfold pos_on. destruct (ieval e X) as [[l h]|] eqn:E; [|discriminate]. intros H C. pose proof S_pos.
  destruct (ieval_con e X x C _ E) as [[C1 _] _]. unfold lb in C1; cbn [fst snd] in C1.
  destruct (Z.ltb_spec 0 l) as [Hl|]. { assert (0 < IZR l) by (apply IZR_lt; auto). nra. }
  set (m := ((fst X + snd X) / 2)%Z) in *.
  assert (Hm : (fst X <= m <= snd X)%Z) by (unfold m; split; [apply Z.div_le_lower_bound|apply Z.div_le_upper_bound]; lia).
  destruct (ieval e (m, m)) as [[lm hm]|] eqn:EM; [|discriminate]. destruct (ieval (D e) X) as [J|] eqn:ED; [|discriminate].
  apply Z.ltb_lt in H. set (xm := IZR m / S_). assert (XM : xm * S_ = IZR m) by (unfold xm; field; lra).
  assert (CM : con (m, m) xm) by (unfold con, lb, ub; cbn [fst snd]; rewrite XM; lra).
  destruct (ieval_con e _ _ CM _ EM) as [[CM1 _] _]. unfold lb in CM1; cbn [fst snd] in CM1.
  assert (KEY : exists y, con X y /\ ev e x = ev e xm + ev (D e) y * (x - xm)).
  { assert (IN : forall y, Rmin x xm <= y <= Rmax x xm -> con X y).
    { intros y Hy. unfold con, lb, ub in *. assert (IZR (fst X) <= xm * S_ <= IZR (snd X)) by (rewrite XM; split; apply IZR_le; lia).
      revert Hy. unfold Rmin, Rmax. destruct (Rle_dec x xm); nra. }
    destruct (Rtotal_order x xm) as [L|[->|L]].
    - destruct (MVT_cor2 (ev e) (ev (D e)) x xm L) as (y & Ey & Hy).
      + intros y Hy. apply is_derive_Reals, D_correct. eapply ieval_con; [|exact E]. apply IN. rewrite Rmin_left, Rmax_right by lra. auto.
      + exists y. split; [apply IN; rewrite Rmin_left, Rmax_right; lra|lra].
    - exists xm. split; [apply IN; rewrite Rmin_left, Rmax_left; lra|ring].
    - destruct (MVT_cor2 (ev e) (ev (D e)) xm x L) as (y & Ey & Hy).
      + intros y Hy. apply is_derive_Reals, D_correct. eapply ieval_con; [|exact E]. apply IN. rewrite Rmin_right, Rmax_left by lra. auto.
      + exists y. split; [apply IN; rewrite Rmin_right, Rmax_left; lra|lra]. }
  destruct KEY as (y & Cy & ->). destruct (ieval_con (D e) X y Cy _ ED) as [CJ _].
  assert (CD : con (fst X - m, snd X - m)%Z (x - xm)).
  { destruct C as [Ca Cb]. unfold con, lb, ub in *; cbn [fst snd]. rewrite !minus_IZR, Rmult_minus_distr_r, XM. lra. }
  destruct (con_mul _ _ _ _ CJ CD) as [CC _]. unfold lb in CC. apply IZR_lt in H. rewrite plus_IZR in H. nra.
Qed.
Lemma check_sound fuel e : forall X, (fst X <= snd X)%Z -> check fuel e (D e) X = true -> forall x, con X x -> 0 < ev e x.
Proof.
  induction fuel as [|f IH]; intros X HX; cbn [check]; destruct (pos_on e (D e) X) eqn:P; try discriminate; intros H x C;
    try (eapply pos_on_sound; eauto; fail).
  apply andb_prop in H. destruct H as [H1 H2]. set (m := ((fst X + snd X) / 2)%Z) in *.
  assert (Hm : (fst X <= m <= snd X)%Z) by (unfold m; split; [apply Z.div_le_lower_bound|apply Z.div_le_upper_bound]; lia).
  destruct C as [C1 C2]. unfold con, lb, ub in *. cbn [fst snd] in *. destruct (Rle_dec (x * S_) (IZR m)).
  - apply (IH (fst X, m)); cbn [fst snd]; auto; lia.
  - apply (IH (m, snd X)); cbn [fst snd]; auto; [lia|]. split; lra.
Qed.
(** The checker for rational end points [na/da <= x <= nb/db]. *)
Definition check_q (fuel : nat) (e : expr) (na da nb db : Z) : bool :=
  let X := (fdiv_ (na * sc) da, cdiv_ (nb * sc) db) in
  (0 <? da)%Z && (0 <? db)%Z && (fst X <=? snd X)%Z && check fuel e (D e) X.
Lemma check_q_sound fuel e na da nb db : check_q fuel e na da nb db = true ->
  forall x, IZR na / IZR da <= x <= IZR nb / IZR db -> 0 < ev e x.
Proof.
  unfold check_q. cbv zeta. intros H x Hx. apply andb_prop in H. destruct H as [H H4]. apply andb_prop in H. destruct H as [H H3]. apply andb_prop in H. destruct H as [H1 H2].
  apply Z.ltb_lt in H1, H2. apply Z.leb_le in H3. eapply check_sound; eauto. pose proof S_pos. unfold con, lb, ub; cbn [fst snd]. split.
  - eapply Rle_trans; [apply fdiv_le; auto|]. rewrite mult_IZR, IZR_sc. unfold Rdiv in *. nra.
  - eapply Rle_trans; [|apply cdiv_ge; auto]. rewrite mult_IZR, IZR_sc. unfold Rdiv in *. nra.
Qed.

(** ** Reification *)
Ltac reify x t :=
  match t with
  | x => constr:(Var)
  | PI => constr:(EPi)
  | IZR ?z => let z' := eval compute in z in constr:(Cst z')
  | Q2R ?q => let n := eval compute in (QArith_base.Qnum q) in let d := eval compute in (QArith_base.Qden q) in constr:(Rat n d)
  | ?a + ?b => let a' := reify x a in let b' := reify x b in constr:(Add a' b')
  | ?a - ?b => let a' := reify x a in let b' := reify x b in constr:(Sub a' b')
  | ?a * ?b => let a' := reify x a in let b' := reify x b in constr:(Mul a' b')
  | ?a / ?b => let a' := reify x a in let b' := reify x b in constr:(Mul a' (Inv b'))
  | - ?a => let a' := reify x a in constr:(Opp a')
  | / ?a => let a' := reify x a in constr:(Inv a')
  | ?a ^ ?n => let a' := reify x a in constr:(Pow a' n)
  | exp ?a => let a' := reify x a in constr:(Exp a')
  | sqrt ?a => let a' := reify x a in constr:(Sqrt a')
  end.
(** Goal [0 < t] with [x] between [na/da] and [nb/db]. *)
Ltac ival_pos x fuel na da nb db :=
  match goal with |- 0 < ?t =>
    let e := reify x t in
    let H := fresh in
    assert (H : check_q fuel e na da nb db = true) by (vm_cast_no_check (eq_refl true));
    apply (check_q_sound fuel e na da nb db H x)
  end.
Example ival_test x : 0 <= x <= 2 -> 0 < exp (- x ^ 2) - sqrt (1 + x) / 100 + PI / 314.
Proof. intros H. ival_pos x 20%nat 0%Z 1%Z 2%Z 1%Z. lra. Qed.
