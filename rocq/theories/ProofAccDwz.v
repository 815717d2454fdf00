(** The first DWZ in double precision: error conditions, the rounded percentage, the value. *)
From Coq Require Import ZArith NArith List Bool Reals Lra Lia Psatz.
From Flocq Require Import Core.Core IEEE754.BinarySingleNaN.
From Verif Require Import Arith XR B64 ModelLib ModelDwz Spec SpecB64 SpecAcc Tac MathB64 ProofB64 ProofB64b ProofB64c MathB64b ProofB64f MathAcc MathAcc2 ProofDwz ProofAcc ProofAcc2 ProofAcc3.
Import ListNotations.
Local Open Scope R_scope.
#[local] Opaque Bplus Bminus Bmult Bdiv Bfma Bsqrt Bopp Babs b64_max b64_min b64_of_Z b64_lit.

(** ** Sums *)
Lemma fsum_apM_acc (X : Type) (L : Libm) (f : X -> B64) (F : X -> R) M d l : 1 <= M <= 10 ^ 6 -> 0 <= d <= / 10 ^ 6 ->
  Forall (fun x => ap (f x) (F x) d /\ Rabs (F x) <= M) l ->
  forall acc s (n : nat), ap acc s (INR n * (d + u0 * (1001 * M))) -> Rabs s <= INR n * M -> (n + length l <= 1000)%nat ->
  ap (fold_left (Bplus mode_NE) (map f l) acc) (s + Rsum (map F l)) (INR (n + length l) * (d + u0 * (1001 * M))) /\ Rabs (s + Rsum (map F l)) <= INR (n + length l) * M.
Proof.
  intros BM D. induction l as [|x l IH]; intros HF acc s n A Bs Hn; simpl.
  - rewrite Nat.add_0_r, Rplus_0_r. auto.
  - inversion HF as [|? ? [Ax Bx] Hl]; subst. simpl in Hn.
    assert (HN : INR (S n) <= 1000) by (replace 1000 with (INR 1000) by (rewrite INR_IZR_INZ; reflexivity); apply le_INR; lia). rewrite S_INR in HN. pose proof (pos_INR n) as N0.
    assert (B : Rabs (s + F x) <= (INR n + 1) * M) by (eapply Rle_trans; [apply Rabs_triang|]; lra).
    assert (U0 : 0 < u0 <= 12 / 10 ^ 17) by ulra. assert (UM : 0 <= u0 * (1001 * M) <= 1300 / 10 ^ 10) by (split; [apply Rmult_le_pos; lra|]; apply Rle_trans with (12 / 10 ^ 17 * (1001 * 10 ^ 6)); [apply Rmult_le_compat; lra|lra]).
    assert (E : INR n * (d + u0 * (1001 * M)) <= 1000 * (/ 10 ^ 6 + 1300 / 10 ^ 10)) by (apply Rmult_le_compat; lra).
    assert (E2 : (INR n + 1) * M <= 1000 * M) by (apply Rmult_le_compat_r; lra).
    pose proof (ap_add _ _ _ _ _ _ (1001 * M) A Ax ltac:(lra) ltac:(okb)) as P.
    apply (ap_weak _ _ _ (INR (S n) * (d + u0 * (1001 * M)))) in P; [|rewrite S_INR; lra].
    destruct (IH Hl _ _ (S n) P ltac:(rewrite S_INR; lra) ltac:(lia)) as [G1 G2].
    replace (n + S (length l))%nat with (S n + length l)%nat by lia. rewrite <- Rplus_assoc. split; assumption.
Qed.
Lemma fsum_apM (X : Type) (L : Libm) (f : X -> B64) (F : X -> R) M d l : 1 <= M <= 10 ^ 6 -> 0 <= d <= / 10 ^ 6 ->
  Forall (fun x => ap (f x) (F x) d /\ Rabs (F x) <= M) l -> (length l <= 1000)%nat ->
  ap (fsum (A := B64A L) (map f l)) (Rsum (map F l)) (INR (length l) * (d + u0 * (1001 * M))) /\ Rabs (Rsum (map F l)) <= INR (length l) * M.
Proof.
  intros BM D HF Hn. pose proof (fsum_apM_acc X L f F M d l BM D HF (B754_zero true) 0 0%nat) as H. rewrite !Rplus_0_l in H. apply H.
  - split; [reflexivity|]. simpl. rewrite Rminus_0_r, Rabs_R0. lra.
  - rewrite Rabs_R0. simpl. lra.
  - exact Hn.
Qed.
(** points are summed exactly *)
Definition hp (o : Outcomes) : Z := match o with WIN => 2 | DRAW => 1 | LOSS => 0 end.
Lemma hp_points o : points o = IZR (hp o) / 2. Proof. destruct o; simpl; lra. Qed.
Fixpoint hsum (os : list Outcomes) : Z := match os with [] => 0 | o :: os => hp o + hsum os end.
Lemma hsum_bound os : (0 <= hsum os <= 2 * Z.of_nat (length os))%Z.
Proof. induction os as [|o os IH]; cbn [hsum length]; [lia|]. assert (0 <= hp o <= 2)%Z by (destruct o; simpl; lia). lia. Qed.
Lemma hsum_psum os : psum os = IZR (hsum os) / 2.
Proof. unfold psum. induction os as [|o os IH]; cbn [hsum map]; [unfold Rsum; simpl; lra|]. rewrite Rsum_cons, IH, plus_IZR, hp_points. lra. Qed.
Lemma rnd_half z : (Z.abs z <= 2 ^ 52)%Z -> rnd (IZR z / 2) = IZR z / 2.
Proof.
  intro H. apply rnd_id.
  - replace (IZR z / 2) with (F2R (Float radix2 z (-1))) by (unfold F2R; simpl; lra).
    rewrite fexp64_FLT. apply generic_format_FLT. exists (Float radix2 z (-1)); simpl; try reflexivity; lia.
  - unfold Rdiv. rewrite Rabs_mult, (Rabs_pos_eq (/ 2)) by lra. rewrite <- abs_IZR. apply IZR_le in H. pose proof (IZR_le _ _ (Z.abs_nonneg z)).
    apply Rle_trans with (bpow radix2 53); [simpl bpow in *; lra|]. unfold M64. apply bpow_le. lia.
Qed.
Lemma half_fin x z : nn x -> ext x = IZR z / 2 -> (Z.abs z <= 2 ^ 52)%Z -> ap x (IZR z / 2) 0.
Proof.
  intros N E H. assert (F : fin x). { apply fin_iff; [exact N|]. rewrite E. apply Rle_lt_trans with (bpow radix2 60); [|apply bpow_lt; lia]. unfold Rdiv. rewrite Rabs_mult, (Rabs_pos_eq (/ 2)) by lra. rewrite <- abs_IZR. apply IZR_le in H. pose proof (IZR_le _ _ (Z.abs_nonneg z)). apply Rle_trans with (bpow radix2 53); [simpl bpow in *; lra|apply bpow_le; lia]. }
  apply ap_exact; auto.
Qed.
Lemma pts_acc L (rs : list (DWZRating B64 * Outcomes)) : forall acc k, (0 <= k)%Z -> (k + 2 * Z.of_nat (length rs) <= 2 ^ 52)%Z -> ap acc (IZR k / 2) 0 ->
  ap (fold_left (Bplus mode_NE) (map (fun r => to_chess_points (A := B64A L) (snd r)) rs) acc) (IZR (k + hsum (map snd rs)) / 2) 0.
Proof.
  induction rs as [|r rs IH]; intros acc k K0 K1 A; cbn [map fold_left hsum].
  - rewrite Z.add_0_r. exact A.
  - cbn [length] in K1. assert (Q : (0 <= hp (snd r) <= 2)%Z) by (destruct (snd r); simpl; lia). rewrite Z.add_assoc. apply IH; [lia|lia|].
    destruct (ext_points L (snd r)) as [F E]. destruct A as [Fa Ea]. assert (EA : ext acc = IZR k / 2) by (apply Rabs_le_inv in Ea; lra).
    destruct (ext_plus acc _ Fa F) as [N P]. rewrite EA, E, hp_points in P. replace (IZR k / 2 + IZR (hp (snd r)) / 2) with (IZR (k + hp (snd r)) / 2) in P by (rewrite plus_IZR; lra).
    rewrite rnd_half in P by lia. apply half_fin; [exact N|exact P|lia].
Qed.
Lemma pts_sum L (rs : list (DWZRating B64 * Outcomes)) : (Z.of_nat (length rs) <= 10 ^ 6)%Z ->
  ap (fsum (A := B64A L) (map (fun r => to_chess_points (A := B64A L) (snd r)) rs)) (IZR (hsum (map snd rs)) / 2) 0.
Proof.
  intros H. apply (pts_acc L rs (B754_zero true) 0); [lia|lia|]. split; [reflexivity|]. simpl. apply Rabs_le. lra.
Qed.
(** ** The error conditions *)
Definition all_sameB (rs : list (DWZRating B64 * Outcomes)) : Prop :=
  Forall (fun r => snd r = WIN) rs \/ Forall (fun r => snd r = LOSS) rs.
Lemma Beqb_ext0 x : fin x -> Beqb x (b64_of_Z 0) = Req_bool (ext x) 0.
Proof.
  intros F. destruct (ext_ofZ 0 ltac:(vm_compute; discriminate)) as [F0 E0]. rewrite Beqb_correct by assumption. rewrite <- !ext_fin by assumption. rewrite E0. reflexivity.
Qed.
Lemma guardB L (rs : list (DWZRating B64 * Outcomes)) : (Z.of_nat (length rs) <= 10 ^ 6)%Z -> let A := B64A L in
  let pts := fsum (A := A) (map (fun r => to_chess_points (A := A) (snd r)) rs) in
  (fltb (Arith := A) (fabs (Arith := A) (fsub (Arith := A) pts (flen (A := A) rs))) (feps (Arith := A)) || feqb (Arith := A) pts (fofZ (Arith := A) 0)) = true <-> all_sameB rs.
Proof.
  intros Hn A pts. pose proof (pts_sum L rs Hn) as P. fold A in P. change (fsum (A := A) (map _ rs)) with pts in P. destruct P as [Fp Ep]. set (h := hsum (map snd rs)) in *.
  assert (EP : ext pts = IZR h / 2) by (apply Rabs_le_inv in Ep; lra). pose proof (hsum_bound (map snd rs)) as HB. rewrite map_length in HB. fold h in HB. set (n := Z.of_nat (length rs)) in *.
  destruct (ext_ofZ n ltac:(lia)) as [Fn En]. destruct (ext_minus pts (b64_of_Z n) Fp Fn) as [Nm Em]. rewrite EP, En in Em. replace (IZR h / 2 - IZR n) with (IZR (h - 2 * n) / 2) in Em by (rewrite minus_IZR, mult_IZR; lra).
  rewrite rnd_half in Em by lia. destruct (half_fin _ _ Nm Em ltac:(lia)) as [Fm _].
  assert (W : Forall (fun r => snd r = WIN) rs <-> h = (2 * n)%Z).
  { transitivity (psum (map snd rs) = INR (length (map snd rs))); [rewrite psum_all_wins, Forall_map; reflexivity|]. rewrite map_length, hsum_psum, INR_IZR_INZ. fold h n. split; intros Q; [apply eq_IZR; rewrite mult_IZR; lra|rewrite Q, mult_IZR; lra]. }
  assert (Lo : Forall (fun r => snd r = LOSS) rs <-> h = 0%Z).
  { transitivity (psum (map snd rs) = 0); [rewrite psum_all_losses, Forall_map; reflexivity|]. rewrite hsum_psum. fold h. split; intros Q; [apply eq_IZR; lra|rewrite Q; lra]. }
  unfold all_sameB. rewrite W, Lo, orb_true_iff.
  change (feqb (Arith := A) pts (fofZ (Arith := A) 0)) with (Beqb pts (b64_of_Z 0)). rewrite Beqb_ext0 by exact Fp. rewrite EP.
  change (fltb (Arith := A) (fabs (Arith := A) (fsub (Arith := A) pts (flen (A := A) rs))) (feps (Arith := A))) with (Bltb (Babs (Bminus mode_NE pts (b64_of_Z n))) (b64 1 (-52))).
  set (x := Bminus mode_NE pts (b64_of_Z n)) in *. assert (Fx : fin (Babs x)) by (unfold fin; rewrite is_finite_Babs; exact Fm).
  assert (Fe : fin (b64 1 (-52))) by reflexivity. assert (Ee : ext (b64 1 (-52)) = bpow radix2 (-52)). { rewrite ext_fin by exact Fe. vm_compute. lra. }
  rewrite Bltb_ext by (apply fin_nn; assumption). rewrite Ee, (ext_fin _ Fx), B2R_Babs, <- (ext_fin _ Fm), Em.
  assert (K1 : Rlt_bool (Rabs (IZR (h - 2 * n) / 2)) (bpow radix2 (-52)) = true <-> h = (2 * n)%Z).
  { case Rlt_bool_spec; intros Q; split; intros G; auto; try discriminate.
    - destruct (Z.eq_dec h (2 * n)) as [|NE]; auto. exfalso. unfold Rdiv in Q. rewrite Rabs_mult, (Rabs_pos_eq (/ 2)), <- abs_IZR in Q by lra. assert (1 <= Z.abs (h - 2 * n))%Z by lia. apply IZR_le in H. assert (bpow radix2 (-52) < / 2) by (simpl; lra). lra.
    - exfalso. rewrite G, Z.sub_diag in Q. unfold Rdiv in Q. rewrite Rmult_0_l, Rabs_R0 in Q. pose proof (bpow_gt_0 radix2 (-52)). lra. }
  assert (K2 : Req_bool (IZR h / 2) 0 = true <-> h = 0%Z).
  { case Req_bool_spec; intros Q; split; intros G; auto; try discriminate; [apply eq_IZR; lra|]. exfalso. apply Q. rewrite G. lra. }
  rewrite K1, K2. reflexivity.
Qed.
Lemma C104_errors_proof : forall L age (rs : list (DWZRating B64 * Outcomes)), (Z.of_nat (length rs) <= 10 ^ 6)%Z ->
  let g := get_first_dwz (A := B64A L) age rs in
  (g = Err NotEnoughGames <-> (length rs < 5)%nat) /\
  (g = Err InvalidWinRate <-> (5 <= length rs)%nat /\ (Forall (fun r => snd r = WIN) rs \/ Forall (fun r => snd r = LOSS) rs)) /\
  ((exists d, g = Ok d) <-> (5 <= length rs)%nat /\ ~ (Forall (fun r => snd r = WIN) rs \/ Forall (fun r => snd r = LOSS) rs)).
Proof.
  intros L age rs Hn g. pose proof (guardB L rs Hn) as G. cbv zeta in G. unfold all_sameB in G. unfold g, get_first_dwz. destruct (Nat.ltb_spec (length rs) 5) as [h|h].
  - split; [intuition auto|]. split; split; try discriminate; intros X; try lia. destruct X; discriminate.
  - cbv zeta. destruct (fltb _ feps || feqb _ _) eqn:E.
    + assert (X : Forall (fun r => snd r = WIN) rs \/ Forall (fun r => snd r = LOSS) rs) by (apply G; auto).
      split; [split; [discriminate|lia]|]. split; [intuition auto|]. split; [intros [? Y]; discriminate|intuition auto].
    + assert (X : ~ (Forall (fun r => snd r = WIN) rs \/ Forall (fun r => snd r = LOSS) rs)).
      { intros X. apply G in X. congruence. }
      split; [split; [discriminate|lia]|]. split; [split; [discriminate|tauto]|]. split; eauto.
Qed.
(** ** The value *)
Lemma toZ_near y p : fin y -> Rabs (ext y - IZR p) < / 2 -> (Z.abs p <= 1000)%Z -> b64_toZ (Bnearbyint mode_NA y) = p.
Proof.
  intros F H Hp. destruct (Bnearbyint_correct 53 1024 _ mode_NA y) as (E & FF & _). rewrite round_FIX_IZR in E.
  assert (ZN : round_mode mode_NA (B2R y) = p) by (apply Znearest_imp; rewrite <- ext_fin by exact F; exact H). rewrite ZN in E.
  set (x := Bnearbyint mode_NA y) in *. pose proof (Btrunc_correct 53 1024 _ x) as T. rewrite round_FIX_IZR, E, Ztrunc_IZR in T. apply eq_IZR in T.
  unfold fin in F. rewrite F in FF. clearbody x. destruct x; try discriminate; cbn [b64_toZ]; rewrite T; lia.
Qed.
Lemma tableB L p : (0 <= p <= 50)%Z -> dwz_table_get (A := B64A L) p = Some (b64_of_Z (nth (Z.to_nat p) dwz_table 0%Z)).
Proof.
  intros Hp. unfold dwz_table_get. destruct (Z.ltb_spec p 0); [lia|]. change (@dwz_probability_table) with dwz_table.
  assert (Z.to_nat p < length dwz_table)%nat by (cbn; lia). rewrite (nth_error_nth' dwz_table 0%Z) by auto. reflexivity.
Qed.
Lemma table_low k : (-728 <= nth k dwz_table 0 <= 0)%Z.
Proof.
  split; [|apply table_nonpos]. assert (H : Forall (fun z => (-728 <= z)%Z) dwz_table) by (repeat constructor; lia).
  destruct (Nat.lt_ge_cases k (length dwz_table)); [rewrite Forall_forall in H; apply H; now apply nth_In|rewrite nth_overflow by auto; lia].
Qed.
(** The rating for the percentage [p] that the code arrives at. *)
Lemma first_core L age (rs : list (DWZRating B64 * Outcomes)) p : (5 <= length rs <= 1000)%nat ->
  Forall (fun g => num_in (- 10 ^ 4) (10 ^ 4) (dwz_rating (fst g))) rs ->
  ~ (Forall (fun g => snd g = WIN) rs \/ Forall (fun g => snd g = LOSS) rs) -> (0 <= p <= 100)%Z ->
  b64_toZ (Bnearbyint mode_NA (Bmult mode_NE (Bdiv mode_NE (fsum (A := B64A L) (map (fun r => to_chess_points (A := B64A L) (snd r)) rs)) (b64_of_Z (Z.of_nat (length rs)))) (b64_of_Z 100))) = p ->
  exists x, get_first_dwz (A := B64A L) age rs = Ok (mkDwz x 1 age) /\
    near x (dwz_revise (Rsum (map (fun g => B2R (dwz_rating (fst g))) rs) / INR (length rs) + IZR (dwz_T p))) (2 / 10 ^ 9).
Proof.
  intros Hlen HR Hns Hp TZ. set (n := Z.of_nat (length rs)) in *. assert (Hn : (5 <= n <= 1000)%Z) by (unfold n; lia).
  assert (EN : INR (length rs) = IZR n) by (unfold n; apply INR_IZR_INZ). assert (RN : 5 <= IZR n <= 1000) by (split; apply IZR_le; lia).
  assert (U0 : 0 < u0 <= 12 / 10 ^ 17) by ulra.
  set (pts := fsum (A := B64A L) (map (fun r => to_chess_points (A := B64A L) (snd r)) rs)) in *.
  pose proof (ap_Z n ltac:(lia)) as AN. set (nb := b64_of_Z n) in *. assert (AI : Rabs (IZR n) = IZR n) by (apply Rabs_pos_eq; lra).
  set (y := Bmult mode_NE (Bdiv mode_NE pts nb) (b64_of_Z 100)) in *.
  (* the average *)
  destruct (fsum_apM _ L (fun r : DWZRating B64 * Outcomes => dwz_rating (fst r)) (fun g : DWZRating B64 * Outcomes => B2R (dwz_rating (fst g))) (10 ^ 4) 0 rs ltac:(lra) ltac:(lra)) as [AS BS]; [|lia|].
  { eapply Forall_impl; [|exact HR]. intros g Hg. destruct (num_ap _ _ _ Hg) as [A B]. split; [exact A|]. apply Rabs_le. exact B. }
  cbv beta in AS, BS. set (S := Rsum _) in AS, BS. change (Rsum (map (fun g => B2R (dwz_rating (fst g))) rs)) with S. rewrite EN in AS, BS |- *. set (sm := fsum (A := B64A L) (map (fun r => dwz_rating (fst r)) rs)) in *.
  assert (BA : Rabs (S / IZR n) <= 10 ^ 4). { unfold Rdiv. rewrite Rabs_mult, (Rabs_pos_eq (/ IZR n)) by (left; apply Rinv_0_lt_compat; lra). apply Rmult_le_reg_r with (IZR n); [lra|]. rewrite Rmult_assoc, Rinv_l by lra. lra. }
  assert (EQ : (IZR n * (0 + u0 * (1001 * 10 ^ 4)) + 10 ^ 4 * 0) / IZR n = u0 * (1001 * 10 ^ 4)) by (field; lra).
  pose proof (ap_div _ _ _ _ _ _ (IZR n) (10 ^ 4) 10001 AS AN ltac:(lra) ltac:(rewrite AI; lra) BA ltac:(rewrite EQ; lra) ltac:(okb)) as AV. rewrite EQ in AV. apply (ap_weak _ _ _ (13 / 10 ^ 10)) in AV; [|lra].
  set (av := Bdiv mode_NE sm nb) in *. set (V := S / IZR n) in *.
  (* the table *)
  assert (TT : exists t, ap t (IZR (dwz_T p)) 0 /\ Rabs (IZR (dwz_T p)) <= 728 /\ (if (50 <? p)%Z then Bplus mode_NE (Babs (match dwz_table_get (A := B64A L) (Z.abs (p - 100)) with Some v => v | None => b64_of_Z 0 end)) av
     else Bplus mode_NE (match dwz_table_get (A := B64A L) p with Some v => v | None => b64_of_Z 0 end) av) = Bplus mode_NE t av).
  { unfold dwz_T. destruct (Z.ltb_spec 50 p), (Z.leb_spec p 50); try lia.
    - rewrite tableB by lia. replace (Z.abs (p - 100)) with (100 - p)%Z by lia. pose proof (table_low (Z.to_nat (100 - p))) as TL. set (z := nth _ _ _) in *. exists (Babs (b64_of_Z z)). rewrite opp_IZR, Rabs_Ropp.
      destruct (ext_ofZ z ltac:(lia)) as [Fz Ez]. assert (Fa : fin (Babs (b64_of_Z z))) by (unfold fin; rewrite is_finite_Babs; exact Fz). assert (RZ : -728 <= IZR z <= 0) by (split; apply IZR_le; lia).
      split; [apply ap_exact; [exact Fa|]; rewrite (ext_fin _ Fa), B2R_Babs, <- (ext_fin _ Fz), Ez, Rabs_left1; lra|]. split; [apply Rabs_le; lra|reflexivity].
    - rewrite tableB by lia. pose proof (table_low (Z.to_nat p)) as TL. set (z := nth _ _ _) in *. exists (b64_of_Z z). assert (RZ : -728 <= IZR z <= 0) by (split; apply IZR_le; lia).
      split; [apply ap_Z; lia|]. split; [apply Rabs_le; lra|reflexivity]. }
  destruct TT as (t & At & Bt & ET). pose proof (Rabs_le_inv _ _ Bt) as It. pose proof (Rabs_le_inv _ _ BA) as IA.
  pose proof (ap_add _ _ _ _ _ _ 10800 At AV ltac:(apply Rle_trans with (10750 + (0 + 13 / 10 ^ 10)); [apply Rplus_le_compat_r; apply Rabs_le; lra|lra]) ltac:(okb)) as AR. rewrite (Rplus_comm (IZR (dwz_T p))) in AR. apply (ap_weak _ _ _ (14 / 10 ^ 10)) in AR; [|lra].
  set (nr := Bplus mode_NE t av) in *. set (W := V + IZR (dwz_T p)) in *. assert (BW : Rabs W <= 10800) by (unfold W; apply Rabs_le; lra). pose proof (Rabs_le_inv _ _ BW) as IW.
  exists (if Bleb nr (b64_of_Z 800) then Bplus mode_NE (b64_of_Z 700) (Bdiv mode_NE nr (b64_of_Z 8)) else nr). split.
  - assert (G : (fltb (Arith := B64A L) (fabs (Arith := B64A L) (fsub (Arith := B64A L) pts (flen (A := B64A L) rs))) (feps (Arith := B64A L)) || feqb (Arith := B64A L) pts (fofZ (Arith := B64A L) 0)) = false).
    { apply not_true_is_false. intro Q. apply Hns. apply (guardB L rs ltac:(unfold n in Hn; lia)). exact Q. }
    unfold get_first_dwz. destruct (Nat.ltb_spec (length rs) 5); [lia|]. cbv zeta. fold pts. fold sm. rewrite G.
    change (ftoZ (Arith := B64A L) (fround (Arith := B64A L) (fmul (Arith := B64A L) (fdiv (Arith := B64A L) pts (flen (A := B64A L) rs)) (fofZ (Arith := B64A L) 100)))) with (b64_toZ (Bnearbyint mode_NA y)). rewrite TZ.
    change (fdiv (Arith := B64A L) sm (flen (A := B64A L) rs)) with av. rewrite <- ET. reflexivity.
  - apply ap_near. rewrite (Bleb_ext nr (b64_of_Z 800)); [|apply fin_nn, AR|apply fin_nn; apply (ext_ofZ 800); vm_compute; discriminate]. rewrite (proj2 (ext_ofZ 800 ltac:(vm_compute; discriminate))).
    pose proof (ap_int _ _ _ AR) as I.
    pose proof (ap_div _ _ _ _ _ _ 8 1400 1401 AR (ap_Z 8 ltac:(vm_compute; discriminate)) ltac:(lra) ltac:(rewrite Rabs_pos_eq; lra) ltac:(apply Rabs_le; lra) ltac:(lra) ltac:(okb)) as A8. apply (ap_weak _ _ _ (2 / 10 ^ 10)) in A8; [|lra].
    pose proof (ap_add _ _ _ _ _ _ 2200 (ap_Z 700 ltac:(vm_compute; discriminate)) A8 ltac:(apply Rle_trans with (2150 + (0 + 2 / 10 ^ 10)); [apply Rplus_le_compat_r; apply Rabs_le; lra|lra]) ltac:(okb)) as A9. apply (ap_weak _ _ _ (3 / 10 ^ 10)) in A9; [|lra].
    pose proof (ap_int _ _ _ A9) as I9. unfold dwz_revise. case Rle_bool_spec; intros Q; destruct (Rle_dec W 800) as [Q'|Q'].
    + apply (ap_weak _ _ _ _ A9). lra.
    + split; [apply A9|]. apply Rabs_le. lra.
    + split; [apply AR|]. apply Rabs_le. lra.
    + apply (ap_weak _ _ _ _ AR). lra.
Qed.
(** Where the percentage is an exact half, the f64 result depends on the real quotient only. *)
Lemma toZ_ext y z : fin y -> fin z -> ext y = ext z -> b64_toZ (Bnearbyint mode_NA y) = b64_toZ (Bnearbyint mode_NA z).
Proof.
  intros Fy Fz E. assert (Q : forall y, fin y -> b64_toZ (Bnearbyint mode_NA y) = Z.max (- 2 ^ 63) (Z.min (2 ^ 63 - 1) (round_mode mode_NA (ext y)))); [|rewrite !Q, E by assumption; reflexivity].
  clear. intros y F. destruct (Bnearbyint_correct 53 1024 _ mode_NA y) as (E & FF & _). rewrite round_FIX_IZR in E. rewrite <- (ext_fin y F) in E.
  set (x := Bnearbyint mode_NA y) in *. pose proof (Btrunc_correct 53 1024 _ x) as T. rewrite round_FIX_IZR, E, Ztrunc_IZR in T. apply eq_IZR in T.
  unfold fin in F. rewrite F in FF. clearbody x. destruct x; try discriminate; cbn [b64_toZ]; rewrite <- T; reflexivity.
Qed.
Definition half_pct (m : Z) : B64 := Bmult mode_NE (Bdiv mode_NE (b64_of_Z m) (b64_of_Z 200)) (b64_of_Z 100).
Definition half_low (m : Z) : bool := ((m =? 29) || (m =? 57) || (m =? 113) || (m =? 115))%Z.
Definition half_ok (m : Z) : bool := (match half_pct m with B754_finite _ _ _ _ => true | _ => false end && (b64_toZ (Bnearbyint mode_NA (half_pct m)) =? (if half_low m then m - 1 else m + 1) / 2))%Z.
Lemma half_table : forallb half_ok (map (fun k => 2 * Z.of_nat k + 1)%Z (seq 0 100)) = true.
Proof. vm_compute. reflexivity. Qed.
Lemma half_spec k : (0 <= k < 100)%Z -> fin (half_pct (2 * k + 1)) /\ b64_toZ (Bnearbyint mode_NA (half_pct (2 * k + 1))) = (if half_low (2 * k + 1) then k else k + 1)%Z.
Proof.
  intro Hk. pose proof half_table as T. rewrite forallb_forall in T. specialize (T (2 * k + 1)%Z). unfold half_ok in T. rewrite andb_true_iff in T. destruct T as [T1 T2].
  { apply in_map_iff. exists (Z.to_nat k). split; [rewrite Z2Nat.id by lia; reflexivity|apply in_seq; lia]. }
  split; [destruct (half_pct _); try discriminate; reflexivity|]. apply Z.eqb_eq in T2. rewrite T2. destruct (half_low _); [symmetry; apply Z.div_unique with 0%Z|symmetry; apply Z.div_unique with 0%Z]; lia.
Qed.
Lemma half_ext m : (0 <= m <= 200)%Z -> ext (half_pct m) = rnd (rnd (IZR m / 200) * 100) /\ nn (half_pct m).
Proof.
  intro Hm. unfold half_pct. destruct (ext_ofZ m ltac:(lia)) as [F1 E1]. destruct (ext_ofZ 200 ltac:(lia)) as [F2 E2]. destruct (ext_ofZ 100 ltac:(lia)) as [F3 E3].
  destruct (ext_div _ _ F1 F2 ltac:(rewrite E2; lra)) as [N D]. rewrite E1, E2 in D.
  assert (FD : fin (Bdiv mode_NE (b64_of_Z m) (b64_of_Z 200))). { apply fin_iff; [exact N|]. rewrite D. apply Rle_lt_trans with (bpow radix2 1); [|apply bpow_lt; lia]. assert (0 <= IZR m <= 200) by (split; apply IZR_le; lia). rewrite Rabs_pos_eq by (apply rnd_nonneg; lra). apply rnd_le_pow; [lia|]. simpl bpow. lra. }
  destruct (ext_mult _ _ FD F3) as [N3 M3]. rewrite D, E3 in M3. split; assumption.
Qed.
Lemma C104_first_proof : forall L age (rs : list (DWZRating B64 * Outcomes)), (5 <= length rs <= 1000)%nat ->
  Forall (fun g => num_in (- 10 ^ 4) (10 ^ 4) (dwz_rating (fst g))) rs ->
  ~ (Forall (fun g => snd g = WIN) rs \/ Forall (fun g => snd g = LOSS) rs) ->
  let X := Rsum (map (fun g => points (snd g)) rs) / INR (length rs) * 100 in
  let low := X = 14.5 \/ X = 28.5 \/ X = 56.5 \/ X = 57.5 in
  exists p x, (low -> IZR p = Rround X - 1) /\ (~ low -> IZR p = Rround X) /\ get_first_dwz (A := B64A L) age rs = Ok (mkDwz x 1 age) /\
    near x (dwz_revise (Rsum (map (fun g => B2R (dwz_rating (fst g))) rs) / INR (length rs) + IZR (dwz_T p))) (2 / 10 ^ 9).
Proof.
  intros L age rs Hlen HR Hns X low.
  set (n := Z.of_nat (length rs)). assert (Hn : (5 <= n <= 1000)%Z) by (unfold n; lia). set (h := hsum (map snd rs)).
  assert (EN : INR (length rs) = IZR n) by (unfold n; apply INR_IZR_INZ). assert (RN : 5 <= IZR n <= 1000) by (split; apply IZR_le; lia).
  assert (HP : Rsum (map (fun g => points (snd g)) rs) = IZR h / 2) by (unfold h; rewrite <- hsum_psum; unfold psum; now rewrite map_map).
  pose proof (hsum_bound (map snd rs)) as HB. rewrite map_length in HB. fold h n in HB. assert (RH : 0 <= IZR h <= 2 * IZR n) by (split; [apply IZR_le; lia|rewrite <- mult_IZR; apply IZR_le; lia]).
  assert (EX : X = 50 * IZR h / IZR n) by (unfold X; rewrite HP, EN; field; lra).
  assert (XR : 0 <= X <= 100). { rewrite EX. split; [apply Rmult_le_pos; [lra|left; apply Rinv_0_lt_compat; lra]|]. apply Rmult_le_reg_r with (IZR n); [lra|]. unfold Rdiv. rewrite Rmult_assoc, Rinv_l by lra. lra. }
  destruct (Rround_range X XR) as (p & Ep & Hp).
  assert (U0 : 0 < u0 <= 12 / 10 ^ 17) by ulra.
  (* the percentage *)
  pose proof (pts_sum L rs ltac:(unfold n in Hn; lia)) as AP. fold h in AP. set (pts := fsum (A := B64A L) (map (fun r => to_chess_points (A := B64A L) (snd r)) rs)) in *.
  pose proof (ap_Z n ltac:(lia)) as AN. set (nb := b64_of_Z n) in *. assert (AI : Rabs (IZR n) = IZR n) by (apply Rabs_pos_eq; lra).
  assert (Q01 : 0 <= IZR h / 2 / IZR n <= 1) by (replace (IZR h / 2 / IZR n) with (X / 100) by (rewrite EX; field; lra); lra).
  pose proof (ap_div _ _ _ _ _ _ 5 1 2 AP AN ltac:(lra) ltac:(rewrite AI; lra) ltac:(rewrite Rabs_pos_eq; lra) ltac:(lra) ltac:(okb)) as AQ. apply (ap_weak _ _ _ (3 / 10 ^ 16)) in AQ; [|lra].
  pose proof (ap_mul _ _ _ _ _ _ 1 100 101 AQ (ap_Z 100 ltac:(vm_compute; discriminate)) ltac:(rewrite Rabs_pos_eq; lra) ltac:(rewrite Rabs_pos_eq; lra) ltac:(lra) ltac:(okb)) as AY. apply (ap_weak _ _ _ (/ 10 ^ 12)) in AY; [|lra].
  replace (IZR h / 2 / IZR n * 100) with X in AY by (rewrite EX; field; lra). set (y := Bmult mode_NE (Bdiv mode_NE pts nb) (b64_of_Z 100)) in *.
  destruct (Classical_Prop.classic (exists k : Z, X = IZR k + 1 / 2)) as [[k Hk]|HX0].
  - assert (K : (0 <= k < 100)%Z). { split; [|apply lt_IZR; lra]. assert (- 1 < k)%Z by (apply lt_IZR; lra). lia. }
    destruct (half_spec k K) as [FH TH]. assert (EH : ext y = ext (half_pct (2 * k + 1))).
    { destruct (half_ext (2 * k + 1) ltac:(lia)) as [-> _]. destruct (ext_ofZ n ltac:(lia)) as [Fn En]. destruct (ext_ofZ 100 ltac:(lia)) as [F3 E3]. fold nb in Fn, En. pose proof (proj1 AP) as Fp.
      pose proof (ext_div _ _ Fp Fn ltac:(rewrite En; lra)) as [_ D]. pose proof (ext_mult _ _ (proj1 AQ) F3) as [_ M]. fold y in M. rewrite M, E3, D, En. destruct AP as [_ AP]. assert (EP : ext pts = IZR h / 2) by (apply Rabs_le_inv in AP; lra). rewrite EP.
      do 2 f_equal. f_equal. replace (IZR h / 2 / IZR n) with (X / 100) by (rewrite EX; field; lra). rewrite Hk, plus_IZR, mult_IZR. lra. }
    assert (TZ : b64_toZ (Bnearbyint mode_NA y) = if half_low (2 * k + 1) then k else (k + 1)%Z) by (rewrite (toZ_ext y _ (proj1 AY) FH EH); exact TH).
    assert (RR : Rround X = IZR k + 1). { unfold Rround. rewrite Rleb_true by lra. rewrite (Zfloor_imp (k + 1)); rewrite ?plus_IZR; lra. }
    destruct (first_core L age rs (if half_low (2 * k + 1) then k else (k + 1)%Z) Hlen HR Hns ltac:(destruct (half_low _); lia) TZ) as (x & E & N).
    exists (if half_low (2 * k + 1) then k else (k + 1)%Z), x. rewrite RR.
    assert (LW : low <-> half_low (2 * k + 1) = true).
    { unfold low, half_low. rewrite Hk, !orb_true_iff, !Z.eqb_eq. split.
      - intros [Q|[Q|[Q|Q]]]; [left; left; left; assert (k = 14%Z)|left; left; right; assert (k = 28%Z)|left; right; assert (k = 56%Z)|right; assert (k = 57%Z)]; try (apply eq_IZR; lra); lia.
      - intros [[[Q|Q]|Q]|Q]; [left; assert (k = 14%Z)|right; left; assert (k = 28%Z)|right; right; left; assert (k = 56%Z)|right; right; right; assert (k = 57%Z)]; try lia; subst k; lra. }
    split; [intro Q; apply LW in Q; rewrite Q; lra|]. split; [intro Q; destruct (half_low (2 * k + 1)); [destruct Q; apply LW; reflexivity|rewrite plus_IZR; lra]|]. split; assumption.
  - assert (HX : forall k : Z, X <> IZR k + 1 / 2) by (intros k Q; apply HX0; exists k; exact Q).
    assert (GAP : Rabs (X - IZR p) <= 1 / 2 - / 2000).
    { assert (F : IZR p <= X + / 2 < IZR p + 1). { unfold Rround in Ep. rewrite Rleb_true in Ep by lra. rewrite <- Ep. split; [apply Zfloor_lb|apply Zfloor_ub]. }
      assert (NE : X + / 2 <> IZR p). { intro Q. apply (HX (p - 1)%Z). rewrite minus_IZR. lra. }
      assert (D : X - IZR p = IZR (50 * h - p * n) / IZR n). { rewrite EX, minus_IZR, !mult_IZR. field. lra. }
      assert (D2 : (2 * Z.abs (50 * h - p * n) < n)%Z).
      { apply lt_IZR. rewrite mult_IZR, abs_IZR. assert (AB : Rabs (X - IZR p) < / 2) by (apply Rabs_def1; lra). rewrite D in AB. unfold Rdiv in AB. rewrite Rabs_mult, (Rabs_pos_eq (/ IZR n)) in AB by (left; apply Rinv_0_lt_compat; lra).
        apply (Rmult_lt_compat_r (IZR n)) in AB; [|lra]. rewrite Rmult_assoc, Rinv_l in AB by lra. lra. }
      rewrite D. unfold Rdiv. rewrite Rabs_mult, (Rabs_pos_eq (/ IZR n)) by (left; apply Rinv_0_lt_compat; lra). rewrite <- abs_IZR. apply Rmult_le_reg_r with (IZR n); [lra|]. rewrite Rmult_assoc, Rinv_l by lra.
      assert (Q : (2 * Z.abs (50 * h - p * n) <= n - 1)%Z) by lia. apply IZR_le in Q. rewrite mult_IZR, minus_IZR in Q. lra. }
    assert (TZ : b64_toZ (Bnearbyint mode_NA y) = p). { apply toZ_near; [apply AY| |lia]. pose proof (ap_int _ _ _ AY) as I. apply Rabs_le_inv in GAP. apply Rabs_def1; lra. }
    destruct (first_core L age rs p Hlen HR Hns Hp TZ) as (x & E & N). exists p, x. split.
    { intros [Q|[Q|[Q|Q]]]; exfalso; [apply (HX 14%Z)|apply (HX 28%Z)|apply (HX 56%Z)|apply (HX 57%Z)]; lra. }
    split; [intros _; symmetry; exact Ep|]. split; assumption.
Qed.
(** ** An exact half is rounded the wrong way *)
Definition rs20 : list (DWZRating B64 * Outcomes) := map (fun o => (mkDwz (b64_of_Z 1500) 10 30, o)) (repeat WIN 11 ++ DRAW :: repeat LOSS 8).
Lemma rs20_value L age : get_first_dwz (A := B64A L) age rs20 = Ok (mkDwz (b64_of_Z 1547) 1 age).
Proof.
  assert (H : match get_first_dwz (A := B64A L) age rs20 with Ok d => B2SF (dwz_rating d) = B2SF (b64_of_Z 1547) /\ dwz_index d = 1%N /\ dwz_age d = age | _ => False end) by (vm_compute; auto).
  destruct (get_first_dwz (A := B64A L) age rs20) as [[x i a]| |]; [|contradiction|contradiction]. cbn [dwz_rating dwz_index dwz_age] in H. destruct H as (H & -> & ->). apply B2SF_inj in H. rewrite H. reflexivity.
Qed.
Lemma C104_half_proof : exists (rs : list (DWZRating B64 * Outcomes)) x p, length rs = 20%nat /\
  Forall (fun g => finite (dwz_rating (fst g)) /\ B2R (dwz_rating (fst g)) = 1500) rs /\
  let X := Rsum (map (fun g => points (snd g)) rs) / INR (length rs) * 100 in
  X = 57.5 /\ IZR p = Rround X /\ dwz_revise (1500 + IZR (dwz_T p)) = 1554 /\
  (forall L age, get_first_dwz (A := B64A L) age rs = Ok (mkDwz x 1 age)) /\ finite x /\ B2R x = 1547.
Proof.
  exists rs20, (b64_of_Z 1547), 58%Z. split; [reflexivity|]. split.
  { assert (E : finite (b64_of_Z 1500) /\ B2R (b64_of_Z 1500) = 1500). { destruct (ext_ofZ 1500 ltac:(vm_compute; discriminate)) as [F E]. split; [exact F|]. rewrite <- (ext_fin _ F). exact E. }
    unfold rs20. apply Forall_map. apply Forall_forall. intros o _. exact E. }
  assert (X0 : Rsum (map (fun g => points (snd g)) rs20) / INR (length rs20) * 100 = 57.5).
  { unfold rs20. rewrite map_map, map_length. simpl map. simpl length. rewrite !Rsum_cons, Rsum_nil. simpl points. rewrite INR_IZR_INZ. simpl Z.of_nat. lra. }
  intros X. fold X in X0. split; [exact X0|]. split.
  { unfold Rround. rewrite Rleb_true by lra. f_equal. symmetry. apply Zfloor_imp. rewrite X0. simpl (58 + 1)%Z. lra. }
  split. { change (dwz_T 58) with 54%Z. unfold dwz_revise. destruct (Rle_dec _ _); lra. }
  split.
  - exact rs20_value.
  - destruct (ext_ofZ 1547 ltac:(vm_compute; discriminate)) as [F E]. split; [exact F|]. rewrite <- (ext_fin _ F). exact E.
Qed.
