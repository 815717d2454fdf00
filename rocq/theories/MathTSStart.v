(** Accuracy of the rational start value of the inverse complementary error
    function, by verified interval arithmetic.  No model code here. *)
From Coq Require Import ZArith List Bool Reals Lra Lia.
From Coquelicot Require Import Coquelicot.
From Verif Require Import Tac Spec SpecTS MathTS MathIval MathPoly MathTSW MathTSInv.
Import ListNotations.
Local Open Scope R_scope.

(** ** Mean value bound with interval extensions *)
(** Interval [X] around its midpoint: both the value at the midpoint and the
    derivative on [X] are enclosed; the result stays in (-bd, bd). *)
Definition leaf (F DF : ival -> option ival) (bd : Z) (X : ival) : bool :=
  let m := ((fst X + snd X) / 2)%Z in
  match F (m, m), DF X with
  | Some (l, h), Some J => let W := imul J (fst X - m, snd X - m)%Z in
    (fst X <=? snd X)%Z && (- bd <? l + fst W)%Z && (h + snd W <? bd)%Z
  | _, _ => false
  end.
Lemma leaf_sound f df F DF bd X x lo :
  (forall X x I, con X x -> F X = Some I -> con I (f x)) -> (forall X x I, con X x -> DF X = Some I -> con I (df x)) ->
  (forall x, lo <= x -> is_derive f x (df x)) -> (forall x, con X x -> lo <= x) ->
  leaf F DF bd X = true -> con X x -> Rabs (f x) * S_ < IZR bd.
Proof.
  intros HF HDF HD HI. unfold leaf. cbv zeta. set (m := ((fst X + snd X) / 2)%Z).
  destruct (F (m, m)) as [[l h]|] eqn:EM; [|discriminate]. destruct (DF X) as [J|] eqn:ED; [|discriminate]. intros H C.
  apply andb_prop in H as [H H3]. apply andb_prop in H as [H1 H2]. apply Z.leb_le in H1. apply Z.ltb_lt, IZR_lt in H2, H3. pose proof S_pos.
  assert (Hm : (fst X <= m <= snd X)%Z) by (unfold m; split; [apply Z.div_le_lower_bound|apply Z.div_le_upper_bound]; lia).
  set (xm := IZR m / S_). assert (XM : xm * S_ = IZR m) by (unfold xm; field; lra).
  assert (CM : con (m, m) xm) by (unfold con, lb, ub; cbn [fst snd]; rewrite XM; lra).
  pose proof (HF _ _ _ CM EM) as [CM1 CM2]. unfold lb, ub in CM1, CM2; cbn [fst snd] in CM1, CM2.
  assert (KEY : exists y, con X y /\ f x = f xm + df y * (x - xm)).
  { assert (IN : forall y, Rmin x xm <= y <= Rmax x xm -> con X y).
    { intros y Hy. unfold con, lb, ub in *. assert (IZR (fst X) <= xm * S_ <= IZR (snd X)) by (rewrite XM; split; apply IZR_le; lia).
      revert Hy. unfold Rmin, Rmax. destruct (Rle_dec x xm); nra. }
    destruct (Rtotal_order x xm) as [L|[->|L]].
    - destruct (MVT_cor2 f df x xm L) as (y & Ey & Hy).
      + intros y Hy. apply is_derive_Reals, HD, HI, IN. rewrite Rmin_left, Rmax_right by lra. auto.
      + exists y. split; [apply IN; rewrite Rmin_left, Rmax_right; lra|lra].
    - exists xm. split; [apply IN; rewrite Rmin_left, Rmax_left; lra|ring].
    - destruct (MVT_cor2 f df xm x L) as (y & Ey & Hy).
      + intros y Hy. apply is_derive_Reals, HD, HI, IN. rewrite Rmin_right, Rmax_left by lra. auto.
      + exists y. split; [apply IN; rewrite Rmin_right, Rmax_left; lra|lra]. }
  destruct KEY as (y & Cy & ->). pose proof (HDF X y _ Cy ED) as CJ.
  assert (CD : con (fst X - m, snd X - m)%Z (x - xm)).
  { destruct C as [Ca Cb]. unfold con, lb, ub in *; cbn [fst snd]. rewrite !minus_IZR, Rmult_minus_distr_r, XM. lra. }
  destruct (con_mul _ _ _ _ CJ CD) as [CC1 CC2]. unfold lb, ub in CC1, CC2. rewrite plus_IZR in H2, H3. rewrite opp_IZR in H2.
  rewrite <- (Rabs_pos_eq S_) by lra. rewrite <- Rabs_mult. apply Rabs_def1; lra.
Qed.
(** Consecutive leaves; end points in units of 1/100000. *)
Definition seg (a b : Z) : ival := (fdiv_ (a * sc) 100000, cdiv_ (b * sc) 100000).
Fixpoint leaves (F DF : ival -> option ival) (bd a : Z) (l : list Z) : bool :=
  match l with [] => true | b :: l' => (a <=? b)%Z && leaf F DF bd (seg a b) && leaves F DF bd b l' end.
Lemma seg_con a b x : IZR a / 100000 <= x <= IZR b / 100000 -> con (seg a b) x.
Proof.
  intros H. pose proof S_pos. unfold con, lb, ub, seg. cbn [fst snd].
  split; [eapply Rle_trans; [apply fdiv_le; reflexivity|]|eapply Rle_trans; [|apply cdiv_ge; reflexivity]]; rewrite mult_IZR, IZR_sc; nra.
Qed.
Lemma seg_lo a b x : con (seg a b) x -> IZR a / 100000 - / S_ <= x.
Proof.
  intros [H _]. pose proof S_pos. unfold lb, seg in H. cbn [fst snd] in H.
  apply Rmult_le_reg_r with S_; auto. rewrite Rmult_minus_distr_r, Rinv_l by lra. eapply Rle_trans; [|exact H].
  unfold fdiv_. pose proof (Z.mul_succ_div_gt (a * sc) 100000 eq_refl) as G. apply IZR_lt in G. rewrite !mult_IZR, succ_IZR, IZR_sc in G. lra.
Qed.
Lemma last_cons (A : Type) (l : list A) (a d : A) : last (a :: l) d = last l a.
Proof. revert a d. induction l as [|b l IH]; intros a d; [reflexivity|]. change (last (b :: l) d = last (b :: l) a). now rewrite !IH. Qed.
Lemma leaves_sound f df F DF bd lo :
  (forall X x I, con X x -> F X = Some I -> con I (f x)) -> (forall X x I, con X x -> DF X = Some I -> con I (df x)) ->
  (forall x, lo <= x -> is_derive f x (df x)) ->
  forall l a, lo + / S_ <= IZR a / 100000 -> leaves F DF bd a l = true ->
  forall x, IZR a / 100000 <= x <= IZR (last l a) / 100000 -> l <> [] -> Rabs (f x) * S_ < IZR bd.
Proof.
  intros HF HDF HD. induction l as [|b l IH]; intros a Ha H x Hx NE; [congruence|]. clear NE. cbn [leaves] in H. apply andb_prop in H as [H H2].
  apply andb_prop in H as [Hab H1]. apply Z.leb_le, IZR_le in Hab. rewrite last_cons in Hx.
  destruct (Rle_dec x (IZR b / 100000)) as [L|L].
  - apply (leaf_sound f df F DF bd (seg a b) x lo); auto; [|apply seg_con; lra]. intros y Hy. apply seg_lo in Hy. lra.
  - destruct l as [|c l]; [cbn [last] in Hx; lra|]. apply (IH b); auto; [lra|lra|discriminate].
Qed.
(** ** Rational constants and polynomials *)
(** Coefficients as intervals. *)
Definition ihorn (p : list ival) (U : ival) : ival := fold_right (fun c r => iadd c (imul U r)) (icst 0) p.
Definition cf (p : list Z) : list ival := map (fun c => icq c 100000000) p.
Lemma con_ihorn p U u : con U u -> con (ihorn (cf p) U) (1 / 100000000 * peval p u).
Proof.
  intros H. induction p as [|c p IH]; [replace (1 / 100000000 * peval [] u) with 0 by (unfold peval; cbn; ring); apply con_cst|].
  rewrite peval_cons. replace (1 / 100000000 * (IZR c + u * peval p u)) with (IZR c / 100000000 + u * (1 / 100000000 * peval p u)) by field.
  apply con_add; [apply con_icq; reflexivity|apply con_mul; auto].
Qed.

(** ** The error of the start *)
Definition kq : R := / (2 * sqrt 2).
Definition ikq : ival := Eval vm_compute in (fdiv_ (35355339059 * sc) 100000000000, cdiv_ (35355339060 * sc) 100000000000).
Lemma con_kq : con ikq kq.
Proof.
  pose proof S_pos. assert (S1 : 1.41421356237 < sqrt 2). { rewrite <- (sqrt_pow2 1.41421356237) by lra. apply sqrt_lt_1_alt. nra. }
  assert (S2 : sqrt 2 < 1.41421356238). { rewrite <- (sqrt_pow2 1.41421356238) by lra. apply sqrt_lt_1_alt. nra. }
  assert (K : 35355339059 / 100000000000 <= kq <= 35355339060 / 100000000000).
  { unfold kq. split; apply Rmult_le_reg_r with (2 * sqrt 2); try lra; rewrite Rinv_l by lra; nra. }
  change ikq with (fdiv_ (35355339059 * sc) 100000000000, cdiv_ (35355339060 * sc) 100000000000).
  unfold con, lb, ub. cbn [fst snd].
  split; [eapply Rle_trans; [apply fdiv_le; reflexivity|]|eapply Rle_trans; [|apply cdiv_ge; reflexivity]]; rewrite mult_IZR, IZR_sc; nra.
Qed.
Definition sD (t : R) : R := t * (t * (4481 / 100000) + 99229 / 100000) + 1.
Definition sR (t : R) : R := (t * (27061 / 100000) + 230753 / 100000) * / sD t.
Definition sR' (t : R) : R := (27061 / 100000 - sR t * (t * (8962 / 100000) + 99229 / 100000)) * / sD t.
Definition su (t : R) : R := / (1 + (t - sR t) * kq).
Definition sg (t : R) : R := su t * exp (nr_P (su t)) - 2 * exp (- (sR t * (t - sR t * (1 / 2)))).
Definition sg' (t : R) : R :=
  - (su t * su t * kq * (1 - sR' t)) * (1 + su t * nr_dP (su t)) * exp (nr_P (su t))
  + 2 * (sR' t * (t - sR t) + sR t) * exp (- (sR t * (t - sR t * (1 / 2)))).
Lemma sD_pos t : 0 < t -> 1 < sD t.
Proof. intros H. unfold sD. nra. Qed.
Lemma sR_deriv t : 0 < t -> is_derive sR t (sR' t).
Proof.
  intros H. pose proof (sD_pos t H) as P. unfold sR, sR', sR, sD in *. auto_derive; [lra|]. field. lra.
Qed.
Lemma sR_pos t : 0 < t -> 0 < sR t.
Proof. intros H. pose proof (sD_pos t H). unfold sR. apply Rmult_lt_0_compat; [lra|apply Rinv_0_lt_compat; lra]. Qed.
(** the start exceeds [x] in units of sqrt 2 *)
Lemma sR_lt t : 1.177409 <= t -> 0 <= t - sR t.
Proof.
  intros H. pose proof (sD_pos t ltac:(lra)) as P. unfold sR.
  apply Rmult_le_reg_r with (sD t); [lra|]. rewrite Rmult_0_l, Rmult_minus_distr_r, Rmult_assoc, Rinv_l, Rmult_1_r by lra.
  assert (1.386291 <= t * t) by nra. assert (1.6322 < t * t * t) by nra. unfold sD. nra.
Qed.
Lemma kq_pos : 0 < kq.
Proof. unfold kq. pose proof sqrt2_pos. apply Rinv_0_lt_compat. lra. Qed.
Lemma sg_deriv t : 1.177409 <= t -> is_derive sg t (sg' t).
Proof.
  intros H. pose proof (sR_deriv t ltac:(lra)) as DR. pose proof (sR_lt t H) as L. pose proof kq_pos.
  assert (DU : is_derive su t (- (su t * su t * kq * (1 - sR' t)))).
  { unfold su. evar_last.
    - apply (is_derive_inv (fun t => 1 + (t - sR t) * kq) t ((1 - sR' t) * kq)); [|nra]. evar_last.
      + apply (is_derive_plus (fun _ => 1) (fun t => (t - sR t) * kq)); [apply (is_derive_const 1 t)|].
        apply (is_derive_ext (fun t => kq * (t - sR t))); [intros; cbn; ring|]. apply (is_derive_scal (fun t => t - sR t) t kq (1 - sR' t)).
        apply (is_derive_minus (fun t => t) sR); [apply (is_derive_id t)|exact DR].
      + unfold plus, zero, scal, mult; cbn. ring.
    - field. nra. }
  pose proof (nr_P_deriv (su t)) as DP. unfold sg. evar_last.
  - apply (is_derive_minus (fun t => su t * exp (nr_P (su t))) (fun t => 2 * exp (- (sR t * (t - sR t * (1 / 2)))))).
    + apply (is_derive_mult su (fun t => exp (nr_P (su t))) t (- (su t * su t * kq * (1 - sR' t))) (- (su t * su t * kq * (1 - sR' t)) * nr_dP (su t) * exp (nr_P (su t)))); [exact DU| |intros; apply Rmult_comm].
      evar_last; [apply (is_derive_comp exp (fun t => nr_P (su t)) t); [apply is_derive_exp|apply (is_derive_comp nr_P su); [exact DP|exact DU]]|]. unfold scal; cbn. unfold mult; cbn. ring.
    + apply (is_derive_scal (fun t => exp (- (sR t * (t - sR t * (1 / 2))))) t 2).
      apply (is_derive_comp exp (fun t => - (sR t * (t - sR t * (1 / 2))))); [apply is_derive_exp|].
      apply (is_derive_opp (fun t => sR t * (t - sR t * (1 / 2)))). apply (is_derive_mult sR (fun t => t - sR t * (1 / 2)) t (sR' t) (1 - sR' t * (1 / 2))); [exact DR| |intros; apply Rmult_comm].
      apply (is_derive_minus (fun t => t) (fun t => sR t * (1 / 2))); [apply (is_derive_id t)|].
      apply (is_derive_ext (fun t => (1 / 2) * sR t)); [intros; cbn; ring|]. evar_last; [apply (is_derive_scal sR t (1 / 2)); exact DR|]. unfold scal; cbn. unfold mult; cbn. ring.
  - unfold minus, plus, opp, scal, mult; cbn. unfold mult; cbn. unfold sg'. set (E1 := exp (nr_P (su t))). set (E2 := exp (- (sR t * (t - sR t * (1 / 2))))). field.
Qed.

(** ** Interval extension *)
Definition c1 : ival := Eval vm_compute in icst 1.
Definition c2 : ival := Eval vm_compute in icst 2.
Definition ch : ival := Eval vm_compute in icq 1 2.
Definition k04481 : ival := Eval vm_compute in icq 4481 100000.
Definition k99229 : ival := Eval vm_compute in icq 99229 100000.
Definition k27061 : ival := Eval vm_compute in icq 27061 100000.
Definition k230753 : ival := Eval vm_compute in icq 230753 100000.
Definition k08962 : ival := Eval vm_compute in icq 8962 100000.
Definition PzI : list ival := Eval vm_compute in cf Pz.
Definition dPzI : list ival := Eval vm_compute in cf dPz.
Lemma con_c1 : con c1 1. Proof. change c1 with (icst 1). apply con_cst. Qed.
Lemma con_c2 : con c2 2. Proof. change c2 with (icst 2). apply con_cst. Qed.
Lemma con_ch : con ch (1 / 2). Proof. change ch with (icq 1 2). apply con_icq. reflexivity. Qed.
Lemma con_k04481 : con k04481 (4481 / 100000). Proof. change k04481 with (icq 4481 100000). apply con_icq. reflexivity. Qed.
Lemma con_k99229 : con k99229 (99229 / 100000). Proof. change k99229 with (icq 99229 100000). apply con_icq. reflexivity. Qed.
Lemma con_k27061 : con k27061 (27061 / 100000). Proof. change k27061 with (icq 27061 100000). apply con_icq. reflexivity. Qed.
Lemma con_k230753 : con k230753 (230753 / 100000). Proof. change k230753 with (icq 230753 100000). apply con_icq. reflexivity. Qed.
Lemma con_k08962 : con k08962 (8962 / 100000). Proof. change k08962 with (icq 8962 100000). apply con_icq. reflexivity. Qed.
Create HintDb kc. Global Hint Resolve con_c1 con_c2 con_ch con_k04481 con_k99229 con_k27061 con_k230753 con_k08962 con_kq con_mul con_add con_sub con_neg : kc.
Definition iD (T : ival) : ival := iadd (imul T (iadd (imul T k04481) k99229)) c1.
Definition iN (T : ival) : ival := iadd (imul T k27061) k230753.
Definition iP (U : ival) : ival := ihorn PzI U.
Definition idP (U : ival) : ival := ihorn dPzI U.
Lemma con_iP U u : con U u -> con (iP U) (nr_P u).
Proof.
  intros H. unfold iP. change PzI with (cf Pz). replace (nr_P u) with (1 / 100000000 * peval Pz u) by (rewrite Pz_eval; field). now apply con_ihorn.
Qed.
Lemma con_idP U u : con U u -> con (idP U) (nr_dP u).
Proof.
  intros H. unfold idP. change dPzI with (cf dPz). replace (nr_dP u) with (1 / 100000000 * peval dPz u) by (rewrite dPz_eval; field). now apply con_ihorn.
Qed.
Definition obind {A B} (o : option A) (f : A -> option B) : option B := match o with Some a => f a | None => None end.
Lemma some_eq {A} (a b : A) : Some a = Some b -> a = b.
Proof. now intros [= ->]. Qed.
(** R, R', u, e^P(u), e^-h in turn *)
Definition iparts (T : ival) : option (ival * ival * ival * ival * ival) :=
  obind (iinv (iD T)) (fun J => let R := imul (iN T) J in
  let R' := imul (isub k27061 (imul R (iadd (imul T k08962) k99229))) J in
  obind (iinv (iadd c1 (imul (isub T R) ikq))) (fun U =>
  obind (iexp (iP U)) (fun E1 => obind (iexp (ineg (imul R (isub T (imul R ch))))) (fun E2 => Some (R, R', U, E1, E2))))).
Lemma con_parts T t R R' U E1 E2 : con T t -> iparts T = Some (R, R', U, E1, E2) ->
  con R (sR t) /\ con R' (sR' t) /\ con U (su t) /\ con E1 (exp (nr_P (su t))) /\ con E2 (exp (- (sR t * (t - sR t * (1 / 2))))).
Proof.
  intros C. unfold iparts, obind. destruct (iinv (iD T)) as [J|] eqn:EJ; [|discriminate].
  assert (CD : con (iD T) (sD t)) by (unfold iD, sD; auto 10 with kc).
  destruct (con_inv _ _ _ EJ CD) as [CJ _]. set (R0 := imul (iN T) J).
  assert (CR : con R0 (sR t)) by (unfold R0, sR, iN; auto 10 with kc).
  set (R1 := imul (isub _ _) J).
  assert (CR1 : con R1 (sR' t)) by (unfold R1, sR'; auto 10 with kc).
  destruct (iinv (iadd c1 _)) as [U0|] eqn:EU; [|discriminate].
  assert (CU : con U0 (su t)) by (refine (proj1 (con_inv _ _ _ EU _)); auto 10 with kc).
  destruct (iexp (iP U0)) as [F1|] eqn:EE1; [|discriminate].
  assert (CE1 : con F1 (exp (nr_P (su t)))) by (eapply con_exp; [exact EE1|]; now apply con_iP).
  destruct (iexp (ineg _)) as [F2|] eqn:EE2; [|discriminate]. intros Q. apply some_eq in Q. apply pair_equal_spec in Q as [Q <-]. apply pair_equal_spec in Q as [Q <-].
  apply pair_equal_spec in Q as [Q <-]. apply pair_equal_spec in Q as [<- <-].
  do 4 (split; [assumption|]). eapply con_exp; [exact EE2|]. auto 10 with kc.
Qed.
Definition isg (T : ival) : option ival :=
  obind (iparts T) (fun '(R, R', U, E1, E2) => Some (isub (imul U E1) (imul c2 E2))).
Definition idsg (T : ival) : option ival :=
  obind (iparts T) (fun '(R, R', U, E1, E2) => Some (iadd
    (imul (imul (ineg (imul (imul (imul U U) ikq) (isub c1 R'))) (iadd c1 (imul U (idP U)))) E1)
    (imul (imul c2 (iadd (imul R' (isub T R)) R)) E2))).
Lemma con_sg T t I : con T t -> isg T = Some I -> con I (sg t).
Proof.
  intros C. unfold isg, obind. destruct (iparts T) as [[[[[R R'] U] E1] E2]|] eqn:E; [|discriminate]. intros Q. apply some_eq in Q. subst I.
  destruct (con_parts _ _ _ _ _ _ _ C E) as (CR & CR' & CU & C1 & C2). unfold sg. auto with kc.
Qed.
Lemma con_dsg T t I : con T t -> idsg T = Some I -> con I (sg' t).
Proof.
  intros C. unfold idsg, obind. destruct (iparts T) as [[[[[R R'] U] E1] E2]|] eqn:E; [|discriminate]. intros Q. apply some_eq in Q. subst I.
  destruct (con_parts _ _ _ _ _ _ _ C E) as (CR & CR' & CU & C1 & C2). unfold sg'.
  pose proof (con_idP _ _ CU) as CP. auto 20 with kc.
Qed.
(** |sg| < 0.0034 *)
Definition Tpts : list Z := [120840; 123940; 127040; 129640; 132240; 134840; 137440; 140540; 143640; 146740; 149840; 152940; 156040; 159140; 162740; 166340; 169940; 174040; 178140; 182740; 187840; 192940; 198540; 205140; 212240; 220340; 228940; 239040; 250140; 262740; 275340; 288440; 301540; 314640; 328240; 341840; 355440; 369040; 382640; 396740; 410840; 425440; 440040; 455140; 470740; 486840; 503940; 522040; 541140; 561740; 583840; 607940; 634040; 662640; 694240; 728840; 767440; 810540; 858640; 880000]%Z.
Lemma Tcheck : leaves isg idsg (34 * sc / 10000) 117741 Tpts = true.
Proof. vm_cast_no_check (eq_refl true). Qed.
Lemma Tlast : last Tpts 117741%Z = 880000%Z.
Proof. reflexivity. Qed.
Lemma sg_bound t : 1.17741 <= t <= 8.8 -> Rabs (sg t) < 0.0034.
Proof.
  intros H. pose proof S_pos.
  assert (B : Rabs (sg t) * S_ < IZR (34 * sc / 10000)).
  { apply (leaves_sound sg sg' isg idsg (34 * sc / 10000)%Z 1.177409) with (l := Tpts) (a := 117741%Z).
    - exact con_sg.
    - exact con_dsg.
    - exact sg_deriv.
    - assert (/ S_ <= / 1000000000). { apply Rinv_le_contravar; [lra|]. rewrite <- IZR_sc. apply IZR_le. exact (fun H => match H with eq_refl => I end). } lra.
    - exact Tcheck.
    - rewrite Tlast. lra.
    - discriminate. }
  assert (C : IZR (34 * sc / 10000) <= 0.0034 * S_).
  { eapply Rle_trans; [apply (fdiv_le (34 * sc) 10000); reflexivity|]. rewrite mult_IZR, IZR_sc. lra. }
  nra.
Qed.
