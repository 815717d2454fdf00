(** Proofs of C136: which team is expected to do best. *)
From Coq Require Import ZArith NArith List Bool Reals Lra Lia.
From Verif Require Import Arith XR Tac ModelLib ModelTS Spec SpecTS SpecInTS SpecNormal MathIval MathTS MathTSMono MathTSInv MathTSNorm ProofAccPer ProofTS ProofRank ProofWengLin ProofConvert.
Import ListNotations.
Local Open Scope R_scope.

Lemma Phi_step : 0 < Phip (1 / 1000) - 50000005 / 100000000.
Proof. pose (x := 1 / 1000). change (0 < Phip x - 50000005 / 100000000). unfold Phip, nr_pos, nr_P. cbv zeta. ival_pos x 0%nat 1%Z 1000%Z 1%Z 1000%Z. unfold x; lra. Qed.
Lemma Phi_0_lt x : 1 / 1000 <= x -> Phi 0 < Phi x.
Proof.
  intros H. pose proof Phi_step as S. pose proof Phi_0 as P0. assert (E : Phip (1 / 1000) = Phi (1 / 1000)) by (rewrite Phi_Phip by lra; reflexivity). rewrite E in S.
  destruct H as [H| <-]; [|lra]. pose proof (Phi_lt_pos (1 / 1000) x ltac:(lra) H). lra.
Qed.
Lemma Phi_both x : 1 <= Phi x + Phi (- x).
Proof.
  destruct (Rtotal_order x 0) as [L|[->|L]].
  - rewrite (Phi_neg x) by lra. rewrite (Phi_pos (- x)) by lra. lra.
  - rewrite Ropp_0. pose proof Phi_0. lra.
  - rewrite (Phi_pos x) by lra. rewrite (Phi_neg (- x)) by lra. replace (- - x) with x by ring. lra.
Qed.
Lemma ts_self beta ts i : ts_pair beta ts i i = Phi 0.
Proof. unfold ts_pair. f_equal. unfold Rdiv. ring. Qed.
Lemma ts_sym beta ts i j : 1 <= ts_pair beta ts i j + ts_pair beta ts j i.
Proof.
  unfold ts_pair. set (n := INR _). set (a := nth i ts []). set (b := nth j ts []). replace (n * beta ^ 2 + side_var b + side_var a) with (n * beta ^ 2 + side_var a + side_var b) by ring.
  replace ((side_mu b - side_mu a) / sqrt (n * beta ^ 2 + side_var a + side_var b)) with (- ((side_mu a - side_mu b) / sqrt (n * beta ^ 2 + side_var a + side_var b))) by (unfold Rdiv; ring). apply Phi_both.
Qed.
Lemma ts_row_full beta ts i : (i < length ts)%nat -> ts_row beta ts i = Rsum (map (ts_pair beta ts i) (seq 0 (length ts))) - Phi 0.
Proof.
  intros Hi. unfold ts_row. assert (G : forall l, NoDup l -> Rsum (map (fun j => if Nat.eqb i j then 0 else ts_pair beta ts i j) l) = Rsum (map (ts_pair beta ts i) l) - if in_dec Nat.eq_dec i l then Phi 0 else 0).
  { induction l as [|j l IH]; intros D; [cbn [map]; rewrite Rsum_nil; destruct (in_dec _ _ _) as [[]|]; lra|]. inversion D as [|? ? N D']; subst. cbn [map]. rewrite !Rsum_cons, (IH D').
    destruct (Nat.eqb_spec i j) as [<-|X].
    - rewrite ts_self. destruct (in_dec Nat.eq_dec i (i :: l)) as [_|Y]; [|exfalso; apply Y; now left]. destruct (in_dec Nat.eq_dec i l); [contradiction|]. lra.
    - destruct (in_dec Nat.eq_dec i (j :: l)) as [Y|Y]; destruct (in_dec Nat.eq_dec i l) as [Z|Z]; try lra; exfalso; [destruct Y; [congruence|auto]|apply Y; now right]. }
  rewrite G by apply seq_NoDup. destruct (in_dec _ _ _) as [_|N]; [reflexivity|]. exfalso. apply N. apply in_seq. lia.
Qed.
Lemma ts_total beta ts : (2 <= length ts)%nat -> 499 / 1000 * INR (length ts) <= Rsum (map (ts_row beta ts) (seq 0 (length ts))).
Proof.
  intros H. set (l := seq 0 (length ts)). assert (EL : length l = length ts) by apply seq_length. set (W := Rsum (map (fun i => Rsum (map (ts_pair beta ts i) l)) l)).
  assert (E : Rsum (map (ts_row beta ts) l) = W - INR (length ts) * Phi 0).
  { unfold W. rewrite (map_ext_in _ (fun i => Rsum (map (ts_pair beta ts i) l) + - Phi 0)) by (intros i Hi; apply in_seq in Hi; rewrite ts_row_full by lia; unfold l; ring). rewrite Rsum_map_plus, Rsum_const, EL. ring. }
  assert (S : INR (length ts) * INR (length ts) <= W + W).
  { assert (W2 : W = Rsum (map (fun i => Rsum (map (fun j => ts_pair beta ts j i) l)) l)) by (unfold W; apply Rsum_swap). rewrite W2 at 2. unfold W. rewrite <- Rsum_map_plus. rewrite <- EL at 1. rewrite <- Rsum_const. apply Rsum_map_le.
    intros i _. rewrite <- Rsum_map_plus. rewrite <- EL, <- (Rmult_1_r (INR (length l))), <- Rsum_const. apply Rsum_map_le. intros j _. apply ts_sym. }
  rewrite E. pose proof Phi_0. assert (2 <= INR (length ts)) by (change 2 with (INR 2); now apply le_INR). nra.
Qed.
Lemma C136_trueskill_proof : forall ts dp beta tau V i k, 0 < beta -> Forall (fun t => t <> [] /\ side_var t = V) ts -> (i < length ts)%nat -> (k < length ts)%nat ->
  side_mu (nth k ts []) < side_mu (nth i ts []) -> exists es,
  ts_expected_score_multi_team (map tst_in ts) (ts_cfg dp beta tau) = map Fin es /\ length es = length ts /\ nth k es 0 <= nth i es 0 + 0.0000005 /\
  (1 / 1000 * sqrt (INR (list_sum (map (@length _) ts)) * beta ^ 2 + 2 * V) <= side_mu (nth i ts []) - side_mu (nth k ts []) ->
   (forall j, (j < length ts)%nat -> j <> i -> j <> k -> side_mu (nth j ts []) < side_mu (nth k ts []) \/ side_mu (nth i ts []) < side_mu (nth j ts [])) -> nth k es 0 < nth i es 0).
Proof.
  intros ts dp beta tau V i k Hb HV Hi Hk Hm. assert (L2 : (2 <= length ts)%nat). { assert (i <> k) by (intros ->; lra). lia. }
  assert (C : concat ts <> []). { destruct ts as [|t0 ts]; [cbn in L2; lia|]. inversion HV as [|? ? [N _] _]; subst. cbn. destruct t0; [congruence|discriminate]. }
  destruct (C54_multi_proof ts dp beta tau Hb L2 C) as (E & EL & _). set (total := Rsum (map (ts_row beta ts) (seq 0 (length ts)))) in *. set (es := map (fun i => ts_row beta ts i / total) (seq 0 (length ts))) in *. exists es. split; [exact E|]. split; [exact EL|].
  pose proof (ts_total beta ts L2) as T. fold total in T. assert (N2 : 2 <= INR (length ts)) by (change 2 with (INR 2); now apply le_INR).
  assert (NT : forall m, (m < length ts)%nat -> nth m es 0 = ts_row beta ts m / total).
  { intros m Hlt. unfold es. rewrite (nth_indep _ 0 (ts_row beta ts 0 / total)) by (rewrite map_length, seq_length; auto). rewrite (map_nth (fun i => ts_row beta ts i / total)). now rewrite seq_nth. }
  rewrite !NT, !ts_row_full by auto. set (l := seq 0 (length ts)) in *. set (n := INR (list_sum (map (@length _) ts))). set (D := sqrt (n * beta ^ 2 + 2 * V)).
  assert (VV : forall j, (j < length ts)%nat -> side_var (nth j ts []) = V) by (intros j Hj; rewrite Forall_forall in HV; apply HV, nth_In; auto).
  assert (V0 : 0 <= V) by (rewrite <- (VV i Hi); unfold side_var; apply Rsum_nonneg; intros x Hx; apply in_map_iff in Hx as (p & <- & _); apply pow2_ge_0).
  assert (n0 : 0 < n). { unfold n. apply lt_0_INR. destruct ts as [|t0 ts']; [cbn in L2; lia|]. inversion HV as [|? ? [N _] _]; subst. destruct t0; [congruence|]. cbn. lia. }
  assert (D0 : 0 < D) by (apply sqrt_lt_R0; assert (0 < beta ^ 2) by (now apply pow_lt); nra). pose proof (Rinv_0_lt_compat D D0) as ID.
  assert (EP : forall a j, (a < length ts)%nat -> (j < length ts)%nat -> ts_pair beta ts a j = Phi ((side_mu (nth a ts []) - side_mu (nth j ts [])) / D)).
  { intros a j Ha Hj. unfold ts_pair. cbv zeta. fold n. rewrite !VV by auto. unfold D. do 3 f_equal. ring. }
  assert (T0 : 0 < total) by lra. pose proof (Rinv_0_lt_compat total T0) as IT. split.
  - assert (A : Rsum (map (ts_pair beta ts k) l) <= Rsum (map (ts_pair beta ts i) l) + INR (length ts) * 0.0000002).
    { replace (length ts) with (length l) by apply seq_length. rewrite <- Rsum_const, <- Rsum_map_plus. apply Rsum_map_le. intros j Hj. apply in_seq in Hj. rewrite !EP by lia. apply Phi_almost_mono. unfold Rdiv. apply Rmult_le_compat_r; lra. }
    assert (B : INR (length ts) * 0.0000002 <= total * 0.0000005) by lra. apply Rmult_le_reg_r with total; [auto|]. rewrite Rmult_plus_distr_r. unfold Rdiv. rewrite !Rmult_assoc, !Rinv_l by lra. lra.
  - intros Hl Ho. unfold Rdiv. apply Rmult_lt_compat_r; [auto|]. apply Rplus_lt_compat_r. assert (Q : forall j, In j l -> ts_pair beta ts k j < ts_pair beta ts i j).
    { intros j Hj. apply in_seq in Hj. rewrite !EP by lia. destruct (Nat.eq_dec j i) as [->|Ji]; [|destruct (Nat.eq_dec j k) as [->|Jk]].
      - replace ((side_mu (nth i ts []) - side_mu (nth i ts [])) / D) with 0 by (unfold Rdiv; ring). apply Phi_lt_neg; [|lra]. unfold Rdiv. nra.
      - replace ((side_mu (nth k ts []) - side_mu (nth k ts [])) / D) with 0 by (unfold Rdiv; ring). apply Phi_0_lt. apply Rmult_le_reg_r with D; [auto|]. unfold Rdiv at 2. rewrite Rmult_assoc, Rinv_l by lra. lra.
      - assert (X : (side_mu (nth k ts []) - side_mu (nth j ts [])) / D < (side_mu (nth i ts []) - side_mu (nth j ts [])) / D) by (apply Rmult_lt_compat_r; lra).
        destruct (Ho j ltac:(lia) Ji Jk) as [Y|Y]; [apply Phi_lt_pos; [apply Rdiv_lt_0_compat; lra|auto]|apply Phi_lt_neg; [auto|unfold Rdiv; nra]]. }
    apply Rsum_lt_map; [intros j Hj; left; auto|]. exists i. split; [apply in_seq; lia|apply Q, in_seq; lia].
Qed.
(** A less certain, lower rated team can be expected to do better. *)
Lemma Phip_1 : 0 < 85 / 100 - Phip 1.
Proof. pose (x := 1). change (0 < 85 / 100 - Phip x). unfold Phip, nr_pos, nr_P. cbv zeta. ival_pos x 0%nat 1%Z 1%Z 1%Z 1%Z. unfold x; lra. Qed.
Lemma Phip_small x : 0 <= x <= 1 / 10 -> 0 < 55 / 100 - Phip x.
Proof. intros H. unfold Phip, nr_pos, nr_P. cbv zeta. ival_pos x 10%nat 0%Z 1%Z 1%Z 10%Z. lra. Qed.
Lemma C136_trueskill_refuted_proof : forall mA mB dp beta tau, mB < mA -> 0 < beta -> exists sA sB mC sC ea eb ec, 0 < sA /\ 0 < sB /\ 0 < sC /\
  ts_expected_score_multi_team [[ts_in (mA, sA)]; [ts_in (mB, sB)]; [ts_in (mC, sC)]] (ts_cfg dp beta tau) = [Fin ea; Fin eb; Fin ec] /\ ea < eb.
Proof.
  intros mA mB dp beta tau Hm Hb. set (a := mA - mB). set (E := sqrt (3 * beta ^ 2 + 1 ^ 2 + 1 ^ 2)). assert (B2 : 0 < beta ^ 2) by (now apply pow_lt). assert (E0 : 0 < E) by (apply sqrt_lt_R0; lra).
  set (S := 10 * a + 10 * E). assert (S0 : 0 < S) by (unfold S, a; lra). set (D := sqrt (3 * beta ^ 2 + 1 ^ 2 + S ^ 2)).
  assert (DS : S <= D) by (unfold D; rewrite <- (sqrt_pow2 S) at 1 by lra; apply sqrt_le_1_alt; lra).
  set (ts := [[(mA, 1)]; [(mB, S)]; [(mB + D, 1)]]). destruct (C54_multi_proof ts dp beta tau Hb) as (X & _ & _ & _); [cbn; lia|discriminate|]. cbv zeta in X.
  pose proof (ts_total beta ts ltac:(cbn; lia)) as T. set (total := Rsum (map (ts_row beta ts) (seq 0 (length ts)))) in *. cbn [ts map length seq] in X.
  exists 1, S, (mB + D), 1. do 3 eexists. do 3 (split; [lra|]). split; [exact X|]. assert (N3 : INR (length ts) = 3) by (cbn; lra). rewrite N3 in T. assert (0 < total) by lra. apply Rmult_lt_compat_r; [now apply Rinv_0_lt_compat|].
  unfold ts_row, Rsum. cbn [ts length seq map Nat.eqb fold_right]. unfold ts_pair, side_mu, side_var, Rsum. cbn [ts length map nth list_sum fold_right fst snd Nat.add]. replace (INR 3) with 3 by (cbn; lra). rewrite !Rplus_0_r, !Rplus_0_l.
  replace (3 * beta ^ 2 + S ^ 2 + 1 ^ 2) with (3 * beta ^ 2 + 1 ^ 2 + S ^ 2) by ring. fold D E.
  replace ((mB - (mB + D)) / D) with (- 1) by (field; lra). fold a. replace (mB - mA) with (- a) by (unfold a; ring).
  assert (a0 : 0 < a) by (unfold a; lra). assert (U : 0 < a / D <= 1 / 10) by (split; [apply Rdiv_lt_0_compat; lra|apply Rmult_le_reg_r with D; [lra|unfold Rdiv at 1; rewrite Rmult_assoc, Rinv_l by lra; unfold S in *; lra]]).
  assert (PA : Phi (a / D) < 55 / 100) by (rewrite Phi_Phip by lra; pose proof (Phip_small (a / D) ltac:(lra)); lra).
  assert (PB : 45 / 100 < Phi (- a / D)). { pose proof (Phi_both (a / D)) as Y. replace (- (a / D)) with (- a / D) in Y by (unfold Rdiv; ring). lra. }
  assert (PC : 15 / 100 < Phi (-1)). { pose proof (Phi_both 1) as Y. pose proof Phip_1 as Z. rewrite <- Phi_Phip in Z by lra. replace (Ropp 1) with (-1) in Y by ring. lra. }
  assert (PD : Phi ((mA - (mB + D)) / E) < 3 / 100).
  { set (x := (mA - (mB + D)) / E). assert (X9 : x <= - 9). { apply Rmult_le_reg_r with E; [auto|]. unfold x, Rdiv. rewrite Rmult_assoc, Rinv_l by lra. unfold S, a in *. lra. }
    pose proof (Phi_close x) as Q. assert (Q' : Phi x - Ncdf x <= 0.0000051) by (eapply Rle_trans; [apply Rle_abs|exact Q]). pose proof (Ncdf_mono x (Ropp 9) ltac:(lra)) as M. rewrite (Ncdf_neg 9) in M. pose proof (Ncdf_tail0 9 ltac:(lra)) as N.
    assert (exp (- (9 ^ 2 / 2)) <= / (1 + 81 / 2)). { rewrite exp_Ropp. apply Rinv_le_contravar; [lra|]. pose proof (exp_ineq1_le (9 ^ 2 / 2)). lra. } lra. }
  lra.
Qed.
