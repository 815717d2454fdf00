(** Proofs about the accuracy of TrueSkill's normal distribution function and
    draw margin, and about draws (C51, C59, C86, C87). *)
From Coq Require Import ZArith NArith List Bool Reals Lra Lia.
From Verif Require Import Tac Arith XR ModelLib ModelWengLin ModelTS Spec SpecTS SpecInTS SpecNormal MathTS MathIval MathPoly MathTSW MathTSInv MathTSStart MathTSAcc ProofWengLin ProofTS.
Import ListNotations.
Local Open Scope R_scope.

(** ** The draw margin *)
Lemma unit_margin_eq dp : 0 <= dp < 1 -> unit_margin dp = sqrt 2 * hinv (1 - dp).
Proof.
  intros H. unfold unit_margin, ierfc. destruct (Rle_dec 2 (1 + dp)); [lra|]. destruct (Rle_dec (1 + dp) 0); [lra|]. destruct (Rlt_dec (1 + dp) 1); [lra|].
  replace (2 - (1 + dp)) with (1 - dp) by ring. ring.
Qed.
Lemma unit_margin_1 : unit_margin 1 = sqrt 2 * 100.
Proof. unfold unit_margin, ierfc. destruct (Rle_dec 2 (1 + 1)); [ring|lra]. Qed.
Lemma unit_margin_acc dp : 0 <= dp <= 1 -> 0 <= unit_margin dp /\ Rabs (Ncdf (unit_margin dp) - Ncdf (- unit_margin dp) - dp) <= 0.000012.
Proof.
  intros H. pose proof sqrt2_pos. destruct (Req_dec dp 1) as [->|N].
  - rewrite unit_margin_1. assert (1 < sqrt 2) by (rewrite <- sqrt_1 at 1; apply sqrt_lt_1_alt; lra). split; [lra|]. apply Ncdf_far. lra.
  - rewrite unit_margin_eq by lra. split; [apply Rmult_le_pos; [lra|apply hinv_nonneg; lra]|].
    pose proof (hinv_Ncdf (1 - dp) ltac:(lra)) as A. cbv zeta in A. replace (1 - (1 - dp)) with dp in A by ring. exact A.
Qed.
Lemma C59_margin_acc_proof : forall dp beta n, 0 <= dp <= 1 -> 0 < beta -> 0 < n ->
  exists e, ts_draw_margin (Fin dp) (Fin beta) (Fin n) = Fin e /\ 0 <= e /\
    let x := e / (sqrt n * beta) in Rabs (Ncdf x - Ncdf (- x) - dp) <= 0.000012.
Proof.
  intros dp beta n Hd Hb Hn. exists (unit_margin dp * sqrt n * beta). split; [apply draw_margin_eval; lra|].
  destruct (unit_margin_acc dp Hd) as [U A]. assert (S : 0 < sqrt n) by (apply sqrt_lt_R0; auto). split; [apply Rmult_le_pos; [apply Rmult_le_pos; lra|lra]|].
  cbv zeta. replace (unit_margin dp * sqrt n * beta / (sqrt n * beta)) with (unit_margin dp) by (field; lra). exact A.
Qed.
Lemma unit_margin_low dp : 0.01 <= dp <= 1 -> 0.0125 <= unit_margin dp.
Proof.
  intros H. assert (S : 1.4142 < sqrt 2) by (rewrite <- (sqrt_square 1.4142) by lra; apply sqrt_lt_1_alt; lra). destruct (Req_dec dp 1) as [->|N].
  - rewrite unit_margin_1. lra.
  - rewrite unit_margin_eq by lra. pose proof (hinv_acc (1 - dp) ltac:(lra)) as A. pose proof (hinv_nonneg (1 - dp) ltac:(lra)) as B.
    pose proof (nr_tangent _ B) as T. pose proof ksp_close. set (h := hinv (1 - dp)) in *. assert (nr_pos h <= 0.990001) by (revert A; unfold Rabs; destruct (Rcase_abs (nr_pos h - (1 - dp))); lra).
    nra.
Qed.
(** Relative margin of a match when the uncertainties are below 5000 beta. *)
Lemma rel_margin dp beta n V : 0.01 <= dp <= 1 -> 0 < beta -> 0 < n -> 0 <= V <= n * (5000 * beta) ^ 2 ->
  0.000002 <= unit_margin dp * sqrt n * beta / sqrt (n * beta ^ 2 + V).
Proof.
  intros Hd Hb Hn HV. pose proof (unit_margin_low dp Hd) as U. assert (SN : 0 < sqrt n) by (apply sqrt_lt_R0; auto). assert (B2 : 0 < beta ^ 2) by (apply pow_lt; auto).
  assert (P : 0 < n * beta ^ 2 + V) by nra. assert (SC : 0 < sqrt (n * beta ^ 2 + V)) by (apply sqrt_lt_R0; auto).
  apply Rmult_le_reg_r with (sqrt (n * beta ^ 2 + V)); auto. unfold Rdiv. rewrite Rmult_assoc, Rinv_l, Rmult_1_r by lra.
  assert (C : sqrt (n * beta ^ 2 + V) <= 5001 * (sqrt n * beta)).
  { rewrite <- (sqrt_square (5001 * (sqrt n * beta))) by (apply Rmult_le_pos; [lra|apply Rmult_le_pos; lra]). apply sqrt_le_1_alt.
    replace (5001 * (sqrt n * beta) * (5001 * (sqrt n * beta))) with (5001 * 5001 * (sqrt n * sqrt n) * beta ^ 2) by ring. rewrite sqrt_sqrt by lra.
    assert (0 < n * beta ^ 2) by (apply Rmult_lt_0_compat; auto). replace (n * (5000 * beta) ^ 2) with (25000000 * (n * beta ^ 2)) in HV by ring. lra. }
  assert (0 < sqrt n * beta) by (apply Rmult_lt_0_compat; auto). nra.
Qed.

(** ** C86: expected scores against the true normal distribution *)
Lemma C86_players_proof : forall m1 s1 m2 s2 dp beta tau, 0 < beta ->
  exists e, ts_expected_score (ts_in (m1, s1)) (ts_in (m2, s2)) (ts_cfg dp beta tau) = (Fin e, Fin (1 - e)) /\
    Rabs (e - Ncdf ((m1 - m2) / sqrt (2 * beta ^ 2 + s1 ^ 2 + s2 ^ 2))) <= 0.0000051.
Proof. intros. eexists. split; [apply ts_expected_eval; auto|]. apply Phi_close. Qed.
Lemma C86_teams_proof : forall t1 t2 dp beta tau, 0 < beta -> t1 ++ t2 <> [] ->
  exists e, ts_expected_score_two_teams (tst_in t1) (tst_in t2) (ts_cfg dp beta tau) = (Fin e, Fin (1 - e)) /\
    Rabs (e - Ncdf ((side_mu t1 - side_mu t2) / sqrt (INR (length t1 + length t2) * beta ^ 2 + side_var t1 + side_var t2))) <= 0.0000051.
Proof. intros. eexists. split; [apply ts_expected_two_eval; auto|]. apply Phi_close. Qed.
Lemma C86_period_proof : forall m s os dp beta tau, 0 < beta ->
  exists es, ts_expected_score_rating_period (ts_in (m, s)) (tst_in os) (ts_cfg dp beta tau) = map Fin es /\
    Forall2 (fun e o => Rabs (e - Ncdf ((m - fst o) / sqrt (2 * beta ^ 2 + s ^ 2 + snd o ^ 2))) <= 0.0000051) es os.
Proof.
  intros m s os dp beta tau Hb. destruct (C54_period_proof m s os dp beta tau Hb) as (es & E & _ & _ & F). exists es. split; [exact E|].
  clear E. induction F as [|e [m2 s2] es os H F IH]; constructor; auto. cbn [fst snd]. rewrite ts_expected_eval in H by auto. cbn [fst] in H. injection H as <-. apply Phi_close.
Qed.
(** Rows and totals. *)
Lemma row_close beta ts i : Rabs (ts_row beta ts i - rowN beta ts i) <= 0.0000051 * INR (length (filter (fun j => negb (Nat.eqb i j)) (seq 0 (length ts)))).
Proof.
  unfold ts_row, rowN. induction (seq 0 (length ts)) as [|j l IH]; cbn [map filter]; [rewrite !Rsum_nil, Rminus_0_r, Rabs_R0; cbn; lra|].
  rewrite !Rsum_cons. destruct (Nat.eqb i j); cbn [negb]; [rewrite !Rplus_0_l; exact IH|]. cbn [length]. rewrite S_INR.
  pose proof (Phi_close ((side_mu (nth i ts []) - side_mu (nth j ts [])) / sqrt (INR (list_sum (map (@length _) ts)) * beta ^ 2 + side_var (nth i ts []) + side_var (nth j ts [])))) as P.
  fold (ts_pair beta ts i j) in P. fold (pairN beta ts i j) in P.
  replace (ts_pair beta ts i j + Rsum (map (fun j => if (i =? j)%nat then 0 else ts_pair beta ts i j) l) - (pairN beta ts i j + Rsum (map (fun j => if (i =? j)%nat then 0 else pairN beta ts i j) l)))
   with ((ts_pair beta ts i j - pairN beta ts i j) + (Rsum (map (fun j => if (i =? j)%nat then 0 else ts_pair beta ts i j) l) - Rsum (map (fun j => if (i =? j)%nat then 0 else pairN beta ts i j) l))) by ring.
  eapply Rle_trans; [apply Rabs_triang|]. lra.
Qed.
Lemma others_length n i : (i < n)%nat -> length (filter (fun j => negb (Nat.eqb i j)) (seq 0 n)) = (n - 1)%nat.
Proof.
  intros H. replace n with (i + S (n - i - 1))%nat at 1 by lia. rewrite seq_app, filter_app, app_length. cbn [seq filter]. rewrite Nat.add_0_l, Nat.eqb_refl. cbn [negb].
  assert (A : forall l, (forall x, In x l -> x <> i) -> length (filter (fun j => negb (Nat.eqb i j)) l) = length l).
  { induction l as [|x l IH]; intros K; [reflexivity|]. cbn [filter]. destruct (Nat.eqb_spec i x) as [->|]; [exfalso; apply (K x); [now left|reflexivity]|]. cbn [negb length]. rewrite IH; auto. intros y Hy. apply K. now right. }
  rewrite !A, !seq_length; [lia| |]; intros x Hx; apply in_seq in Hx; lia.
Qed.
Lemma rowN_half beta ts i : (i < length ts)%nat ->
  rowN beta ts i = Rsum (map (fun j => if Nat.eqb i j then 0 else pairN beta ts i j - 1 / 2) (seq 0 (length ts))) + INR (length ts - 1) / 2.
Proof.
  intros H. rewrite <- (others_length (length ts) i H). unfold rowN. induction (seq 0 (length ts)) as [|j l IH]; cbn [map filter]; [rewrite !Rsum_nil; cbn; lra|].
  rewrite !Rsum_cons, IH. destruct (Nat.eqb i j); cbn [negb length]; [lra|]. rewrite S_INR. lra.
Qed.
Lemma pairN_swap beta ts i j : pairN beta ts j i = 1 - pairN beta ts i j.
Proof.
  unfold pairN. cbv zeta. set (n := INR _). rewrite <- Ncdf_neg. f_equal.
  replace (n * beta ^ 2 + side_var (nth j ts []) + side_var (nth i ts [])) with (n * beta ^ 2 + side_var (nth i ts []) + side_var (nth j ts [])) by ring.
  unfold Rdiv. ring.
Qed.
Lemma totalN beta ts : Rsum (map (rowN beta ts) (seq 0 (length ts))) = INR (length ts) * INR (length ts - 1) / 2.
Proof.
  rewrite (map_ext_in _ (fun i => Rsum (map (fun j => if Nat.eqb i j then 0 else pairN beta ts i j - 1 / 2) (seq 0 (length ts))) + INR (length ts - 1) / 2)).
  2:{ intros i Hi. apply in_seq in Hi. apply rowN_half. lia. }
  rewrite Rsum_map_plus. rewrite (Rsum_antisym (fun i j => if Nat.eqb i j then 0 else pairN beta ts i j - 1 / 2)).
  - assert (C : forall (c : R) (l : list nat), Rsum (map (fun _ => c) l) = INR (length l) * c).
    { intros c l. induction l as [|x l IH]; [cbn; ring|]. cbn [map length]. rewrite Rsum_cons, IH, S_INR. ring. }
    rewrite C, seq_length. lra.
  - intros i j _ _. rewrite (Nat.eqb_sym j i). destruct (Nat.eqb i j); [ring|]. rewrite (pairN_swap beta ts i j). lra.
Qed.
Lemma C86_multi_proof : forall ts dp beta tau, 0 < beta -> (2 <= length ts)%nat -> concat ts <> [] ->
  let k := INR (length ts) in
  exists es, ts_expected_score_multi_team (map tst_in ts) (ts_cfg dp beta tau) = map Fin es /\
    Forall2 (fun e i => Rabs (e - rowN beta ts i / (k * (k - 1) / 2)) <= 0.000016) es (seq 0 (length ts)).
Proof.
  intros ts dp beta tau Hb HT Hn k. destruct (C54_multi_proof ts dp beta tau Hb HT Hn) as (E & _ & HS & HF). eexists. split; [exact E|]. clear E HS.
  set (total := Rsum (map (ts_row beta ts) (seq 0 (length ts)))) in *. rewrite Forall_forall in HF.
  assert (K : 2 <= k) by (unfold k; apply (le_INR 2); auto). assert (EK : INR (length ts - 1) = k - 1) by (unfold k; rewrite minus_INR by lia; reflexivity).
  assert (RC : forall i, In i (seq 0 (length ts)) -> Rabs (ts_row beta ts i - rowN beta ts i) <= 0.0000051 * (k - 1)).
  { intros i Hi. apply in_seq in Hi. rewrite <- EK, <- (others_length (length ts) i) by lia. apply row_close. }
  pose proof (totalN beta ts) as TN. fold k in TN. rewrite EK in TN.
  assert (TC : Rabs (total - k * (k - 1) / 2) <= 0.0000051 * (k - 1) * k).
  { rewrite <- TN. unfold total. replace k with (INR (length (seq 0 (length ts)))) at 2 by (now rewrite seq_length). revert RC.
    generalize (0.0000051 * (k - 1)). intros d. clear. induction (seq 0 (length ts)) as [|i l IH]; intros RC; [cbn [map]; rewrite !Rsum_nil, Rminus_0_r, Rabs_R0; cbn; lra|].
    cbn [map length]. rewrite !Rsum_cons, S_INR. specialize (IH (fun j Hj => RC j (or_intror Hj))). pose proof (RC i (or_introl eq_refl)) as R0.
    replace (ts_row beta ts i + Rsum (map (ts_row beta ts) l) - (rowN beta ts i + Rsum (map (rowN beta ts) l))) with ((ts_row beta ts i - rowN beta ts i) + (Rsum (map (ts_row beta ts) l) - Rsum (map (rowN beta ts) l))) by ring.
    eapply Rle_trans; [apply Rabs_triang|]. lra. }
  assert (G : forall l, (forall i, In i l -> In i (seq 0 (length ts))) ->
    Forall2 (fun e i => Rabs (e - rowN beta ts i / (k * (k - 1) / 2)) <= 0.000016) (map (fun i => ts_row beta ts i / total) l) l).
  { induction l as [|i l IH]; intros HI; constructor; [|apply IH; intros; apply HI; now right]. assert (Hi : In i (seq 0 (length ts))) by (apply HI; now left).
    pose proof (HF (ts_row beta ts i / total) (in_map (fun i => ts_row beta ts i / total) _ _ Hi)) as RB. pose proof (RC i Hi) as R0.
    set (T := k * (k - 1) / 2) in *. assert (T0 : 0 < T) by (unfold T; nra). set (r := ts_row beta ts i) in *. set (N := rowN beta ts i) in *.
    assert (T1 : total <> 0). { intros Z. rewrite Z in RB. unfold Rdiv in RB. rewrite Rinv_0, Rmult_0_r in RB. lra. }
    replace (r / total - N / T) with ((r - N) / T + r / total * ((T - total) / T)) by (field; lra).
    eapply Rle_trans; [apply Rabs_triang|]. assert (A : Rabs ((r - N) / T) <= 0.0000051).
    { unfold Rdiv. rewrite Rabs_mult, (Rabs_pos_eq (/ T)) by (apply Rlt_le, Rinv_0_lt_compat; auto). apply Rmult_le_reg_r with T; auto. rewrite Rmult_assoc, Rinv_l, Rmult_1_r by lra. unfold T. nra. }
    assert (B : Rabs ((T - total) / T) <= 0.0000102).
    { unfold Rdiv. rewrite Rabs_mult, (Rabs_pos_eq (/ T)) by (apply Rlt_le, Rinv_0_lt_compat; auto). rewrite Rabs_minus_sym. apply Rmult_le_reg_r with T; auto. rewrite Rmult_assoc, Rinv_l, Rmult_1_r by lra. unfold T in *. lra. }
    rewrite Rabs_mult, (Rabs_pos_eq (r / total)) by lra. pose proof (Rabs_pos ((T - total) / T)). nra. }
  apply G. auto.
Qed.
(** The documented meaning of beta: 80% for a difference of beta. *)
Lemma C88_beta_proof : forall m s1 s2 dp beta tau, 0 < beta ->
  exists e, fst (ts_expected_score (ts_in (m + beta, s1)) (ts_in (m, s2)) (ts_cfg dp beta tau)) = Fin e /\ e < 0.77.
Proof.
  intros m s1 s2 dp beta tau Hb. eexists. split; [rewrite ts_expected_eval by auto; reflexivity|].
  replace (m + beta - m) with beta by ring. set (c := tsc _ _ _ _).
  assert (C : sqrt 2 * beta <= c).
  { unfold c, tsc. rewrite <- (sqrt_square beta) at 1 by lra. rewrite <- sqrt_mult by nra. apply sqrt_le_1_alt. pose proof (pow2_ge_0 s1). pose proof (pow2_ge_0 s2). nra. }
  pose proof sqrt2_pos as S2. assert (SS : sqrt 2 * sqrt 2 = 2) by (apply sqrt_sqrt; lra). assert (C0 : 0 < c) by nra. assert (X0 : 0 < beta / c) by (apply Rdiv_lt_0_compat; auto).
  rewrite Phi_pos by auto. assert (X : beta / c / sqrt 2 <= 1 / 2).
  { apply Rmult_le_reg_r with (c * sqrt 2); [nra|]. replace (beta / c / sqrt 2 * (c * sqrt 2)) with beta by (field; lra). nra. }
  assert (B : 0.479 < nr_pos (1 / 2)).
  { unfold nr_pos. cbv zeta. replace (/ (1 + 1 / 2 / 2)) with (4 / 5) by field. replace (nr_P (4 / 5) - (1 / 2) ^ 2) with (nr_P (4 / 5) - 1 / 4) by field.
    assert (P : -0.512 < nr_P (4 / 5) - 1 / 4) by (unfold nr_P; lra). apply exp_increasing in P.
    pose (z := - (512 / 1000)). assert (Z : 0.599 < exp z). { apply Rminus_gt_0_lt. change (0 < exp z - 0.599). ival_pos z 0%nat (-512)%Z 1000%Z (-512)%Z 1000%Z. unfold z; lra. }
    assert (z = -0.512) by (unfold z; lra). rewrite H in Z. lra. }
  assert (nr_pos (1 / 2) <= nr_pos (beta / c / sqrt 2)). { destruct X as [X| ->]; [|lra]. apply Rlt_le, nr_pos_lt; auto. apply Rlt_le, Rdiv_lt_0_compat; auto. }
  lra.
Qed.

(** ** C87: draws *)
Lemma vdraw_dir t e : 0.000002 <= e -> (0 < t -> vdraw t e < 0) /\ (t < 0 -> 0 < vdraw t e) /\ (t = 0 -> vdraw t e = 0).
Proof.
  intros He. assert (P : forall t, 0 < t -> vdraw t e < 0).
  { clear t. intros t Ht. destruct (Rlt_dec (drawnorm t e) tiny) as [L|L].
    - unfold vdraw. destruct (Rlt_dec _ _); [|lra]. destruct (Rlt_dec t 0); [lra|]. destruct (Rle_dec t e) as [A|A]; [|lra].
      pose proof (drawnorm_near t e He ltac:(lra)). lra.
    - apply vdraw_sign; lra. }
  split; [apply P|]. split.
  - intros Ht. pose proof (P (- t) ltac:(lra)) as X. rewrite vdraw_odd in X by (left; lra). lra.
  - intros ->. apply vdraw_sign; [lra|apply drawnorm_near; lra|reflexivity].
Qed.
Lemma C87_draw_proof : forall m1 s1 m2 s2 dp beta tau, 0.01 <= dp <= 1 -> 0 < beta -> 0 < s1 <= 5000 * beta -> 0 < s2 <= 5000 * beta ->
  exists m1' u1 m2' u2, trueskill (ts_in (m1, s1)) (ts_in (m2, s2)) DRAW (ts_cfg dp beta tau) = (mkTS (Fin m1') u1, mkTS (Fin m2') u2) /\
    (m2 < m1 -> m1' < m1 /\ m2 < m2') /\ (m1 < m2 -> m1 < m1' /\ m2' < m2) /\ (m1 = m2 -> m1' = m1 /\ m2' = m2).
Proof.
  intros m1 s1 m2 s2 dp beta tau Hd Hb H1 H2. pose proof (draw_margin_eval dp beta 2 ltac:(lra)) as He. set (e := unit_margin dp * sqrt 2 * beta) in *.
  rewrite (trueskill_eval m1 s1 m2 s2 DRAW dp beta tau e) by (auto; lra). set (c := tsc 2 beta (s1 ^ 2) (s2 ^ 2)). set (t := (m1 - m2) / c).
  assert (S1 : 0 < s1 ^ 2 <= (5000 * beta) ^ 2) by (split; [apply pow_lt; lra|apply pow_incr; lra]).
  assert (S2 : 0 < s2 ^ 2 <= (5000 * beta) ^ 2) by (split; [apply pow_lt; lra|apply pow_incr; lra]).
  assert (Hc : 0 < c) by (apply (tsc_pos' 2); lra).
  assert (RM : 0.000002 <= e / c). { unfold c, tsc. rewrite Rplus_assoc. apply rel_margin; lra. }
  unfold ts_out, ts_mu'. cbn [fst snd]. do 4 eexists. split; [reflexivity|]. cbn [ts_v]. destruct (vdraw_dir t (e / c) RM) as (D1 & D2 & D3).
  pose proof (pow2_ge_0 tau). assert (A1 : 0 < (s1 ^ 2 + tau ^ 2) / c) by (apply Rdiv_lt_0_compat; lra). assert (A2 : 0 < (s2 ^ 2 + tau ^ 2) / c) by (apply Rdiv_lt_0_compat; lra).
  assert (T1 : m2 < m1 -> 0 < t) by (intros; apply Rdiv_lt_0_compat; lra).
  assert (T2 : m1 < m2 -> t < 0) by (intros; unfold t; replace ((m1 - m2) / c) with (- ((m2 - m1) / c)) by (field; lra); assert (0 < (m2 - m1) / c) by (apply Rdiv_lt_0_compat; lra); lra).
  split; [|split].
  - intros H0. specialize (D1 (T1 H0)). nra.
  - intros H0. specialize (D2 (T2 H0)). nra.
  - intros H0. assert (t = 0) by (unfold t; rewrite H0; field; lra). rewrite (D3 H3). split; ring.
Qed.
Lemma side_var_le t K : wl_ok t -> Forall (fun p => snd p <= K) t -> side_var t <= INR (length t) * K ^ 2.
Proof.
  intros [_ H] HK. unfold side_var. induction t as [|p t IH]; [cbn; lra|]. apply Forall_cons_iff in H as [H1 H2]. apply Forall_cons_iff in HK as [K1 K2].
  cbn [map length]. rewrite Rsum_cons, S_INR. specialize (IH H2 K2). assert (snd p ^ 2 <= K ^ 2) by (apply pow_incr; lra). lra.
Qed.
Lemma C51_swap_range_proof : forall t1 t2 o dp beta tau, wl_ok t1 -> wl_ok t2 -> 0.01 <= dp <= 1 -> 0 < beta ->
  Forall (fun p => snd p <= 5000 * beta) (t1 ++ t2) ->
  let '(t1', t2') := trueskill_two_teams (tst_in t1) (tst_in t2) o (ts_cfg dp beta tau) in
  trueskill_two_teams (tst_in t2) (tst_in t1) (invert o) (ts_cfg dp beta tau) = (t2', t1').
Proof.
  intros t1 t2 o dp beta tau O1 O2 Hd Hb HK. apply Forall_app in HK as [K1 K2]. pose proof (side_var_le _ _ O1 K1) as V1. pose proof (side_var_le _ _ O2 K2) as V2.
  set (n := INR (length t1 + length t2)). assert (Hn : 0 < n). { apply lt_0_INR. destruct O1 as [N _]. destruct t1; [congruence|cbn; lia]. }
  apply (C51_swap_proof t1 t2 o dp beta tau (unit_margin dp * sqrt n * beta) O1 O2); fold n; [apply draw_margin_eval; lra|].
  right. right. apply drawnorm_near; [|split; [lra|]].
  - rewrite Rplus_assoc. apply rel_margin; auto. split; [pose proof (side_var_nonneg t1); pose proof (side_var_nonneg t2); lra|].
    unfold n. rewrite plus_INR. lra.
  - apply Rmult_le_pos; [|apply Rlt_le, Rinv_0_lt_compat, sqrt_lt_R0].
    + destruct (unit_margin_acc dp ltac:(lra)) as [U _]. apply Rmult_le_pos; [apply Rmult_le_pos; [lra|apply sqrt_pos]|lra].
    + pose proof (side_var_nonneg t1). pose proof (side_var_nonneg t2). assert (0 < n * beta ^ 2) by (apply Rmult_lt_0_compat; [auto|apply pow_lt; auto]). lra.
Qed.
(** With uncertainties a hundred million times beta the margin drowns in the
    error of erfc at 0, and a draw of identical players is no longer neutral. *)
Lemma nr_pos_0_low : 1.00000003 <= nr_pos 0.
Proof.
  unfold nr_pos. cbv zeta. replace (/ (1 + 0 / 2)) with 1 by field. rewrite Rmult_1_l. eapply Rle_trans; [|apply exp_ineq1_le]. unfold nr_P. lra.
Qed.
Lemma drawnorm_zero e : 0 < e <= 0.00000002 -> drawnorm 0 e < tiny.
Proof.
  intros He. unfold drawnorm. rewrite Rabs_R0, !Rminus_0_r. rewrite (Phi_pos e) by lra. rewrite (Phi_neg (- e)) by lra. rewrite Ropp_involutive.
  pose proof sqrt2_pos as S2. assert (S1 : 1 < sqrt 2) by (rewrite <- sqrt_1 at 1; apply sqrt_lt_1_alt; lra). set (x := e / sqrt 2).
  assert (X : 0 < x <= 0.00000002). { split; [apply Rdiv_lt_0_compat; lra|]. apply Rmult_le_reg_r with (sqrt 2); auto. unfold x, Rdiv. rewrite Rmult_assoc, Rinv_l by lra. lra. }
  destruct (MVT_cor2 nr_pos (fun z => - (rr (/ (1 + z / 2)) * exp (- z ^ 2))) 0 x) as (c & E & Hc); [lra|intros c Hc; apply Coquelicot.Derive.is_derive_Reals, nr_pos_deriv; lra|].
  pose proof (nr_t_range c ltac:(lra)) as T. pose proof (rr_bound (/ (1 + c / 2)) ltac:(lra)) as [R1 R2]. pose proof ksp_close as [K1 K2]. pose proof nr_pos_0_low.
  assert (EX : exp (- c ^ 2) <= 1) by (rewrite <- exp_0; apply exp_mono; nra). pose proof (exp_pos (- c ^ 2)). pose proof tiny_small.
  assert (P : rr (/ (1 + c / 2)) * exp (- c ^ 2) <= 1.2). { replace 1.2 with (1.2 * 1) by ring. apply Rmult_le_compat; lra. }
  assert (rr (/ (1 + c / 2)) * exp (- c ^ 2) * (x - 0) <= 1.2 * (x - 0)) by (apply Rmult_le_compat_r; lra). lra.
Qed.
Lemma C87_refuted_proof : forall m, exists m1' u1 m2' u2, let p := ts_in (m, 1000000000) in
  trueskill p p DRAW (ts_cfg (1/10) (25/6) 0) = (mkTS (Fin m1') u1, mkTS (Fin m2') u2) /\ m1' > m /\ m2' < m.
Proof.
  intros m. pose proof (draw_margin_eval (1/10) (25/6) 2 ltac:(lra)) as He. set (e := unit_margin (1/10) * sqrt 2 * (25/6)) in *.
  cbv zeta. rewrite (trueskill_eval m 1000000000 m 1000000000 DRAW (1/10) (25/6) 0 e) by (auto; lra).
  set (c := tsc 2 (25/6) (1000000000 ^ 2) (1000000000 ^ 2)). replace ((m - m) / c) with 0 by (unfold Rdiv; ring).
  assert (C : 1000000000 <= c). { unfold c, tsc. rewrite <- (sqrt_square 1000000000) at 1 by lra. apply sqrt_le_1_alt. lra. }
  assert (S2 : 1.4142 < sqrt 2 < 1.4143) by (split; [rewrite <- (sqrt_square 1.4142) by lra|rewrite <- (sqrt_square 1.4143) by lra]; apply sqrt_lt_1_alt; lra).
  pose proof (unit_margin_low (1/10) ltac:(lra)) as U1.
  assert (U2 : unit_margin (1/10) <= sqrt 2).
  { rewrite unit_margin_eq by lra. set (h := hinv (1 - 1/10)). enough (h <= 1) by nra. apply Rnot_lt_le. intros L. pose proof (hinv_acc (1 - 1/10) ltac:(lra)) as A. fold h in A.
    pose proof (nr_pos_lt 1 h ltac:(lra) L). pose proof (nr_pos_wg 1 ltac:(lra)) as W. assert (wg 1 <= / 2). { unfold wg. rewrite exp_Ropp. apply Rinv_le_contravar; [lra|]. pose proof (exp_ineq1_le (1 * 1)). lra. }
    revert A. unfold Rabs. destruct (Rcase_abs (nr_pos h - (1 - 1/10))); lra. }
  assert (E0 : 0 < e <= 10). { unfold e. split; [apply Rmult_lt_0_compat; [apply Rmult_lt_0_compat; lra|lra]|]. nra. }
  assert (X : 0 < e / c <= 0.00000002).
  { split; [apply Rdiv_lt_0_compat; lra|]. apply Rmult_le_reg_r with c; [lra|]. unfold Rdiv. rewrite Rmult_assoc, Rinv_l by lra. lra. }
  unfold ts_out, ts_mu'. cbn [fst snd ts_v]. do 4 eexists. split; [reflexivity|].
  unfold vdraw. destruct (Rlt_dec (drawnorm 0 (e / c)) tiny) as [_|N]; [|pose proof (drawnorm_zero _ X); lra]. destruct (Rlt_dec 0 0); [lra|].
  rewrite Ropp_0, Rplus_0_l. set (k := (1000000000 ^ 2 + 0 ^ 2) / c). assert (K : 0 < k) by (apply Rdiv_lt_0_compat; lra).
  assert (0 < k * (e / c)) by (apply Rmult_lt_0_compat; lra). lra.
Qed.
Lemma C51_swap_refuted_proof : exists t1 t2 dp beta tau, wl_ok t1 /\ wl_ok t2 /\ 0 < dp < 1 /\ 0 < beta /\ t1 = t2 /\
  let '(t1', t2') := trueskill_two_teams (tst_in t1) (tst_in t2) DRAW (ts_cfg dp beta tau) in
  trueskill_two_teams (tst_in t2) (tst_in t1) (invert DRAW) (ts_cfg dp beta tau) <> (t2', t1').
Proof.
  exists [(25, 1000000000)], [(25, 1000000000)], (1/10), (25/6), 0.
  assert (W : wl_ok [(25, 1000000000)]) by (split; [discriminate|]; constructor; [cbn; lra|constructor]).
  split; [exact W|]. split; [exact W|]. split; [lra|]. split; [lra|]. split; [reflexivity|].
  pose proof (C51_single_proof 25 1000000000 25 1000000000 DRAW (1/10) (25/6) 0 ltac:(lra) ltac:(lra)) as E. cbv zeta in E.
  destruct (C87_refuted_proof 25) as (m1' & u1 & m2' & u2 & E1 & G1 & G2). cbv zeta in E1.
  change (tst_in [(25, 1000000000)]) with [ts_in (25, 1000000000)]. rewrite E, E1. cbn [fst snd invert]. rewrite E, E1. cbn [fst snd]. intros Q. injection Q. intros. lra.
Qed.
