(** Proofs about decided games: the variance correction is a proper fraction
    unless the result was all but impossible, and what happens then. *)
From Coq Require Import ZArith NArith List Bool Lia Arith.PeanoNat Permutation Reals Lra.
From Verif Require Import Arith XR Tac ModelLib ModelWengLin ModelTS ModelTSGraph Spec SpecTS SpecInTS MathTS MathTSW ProofTS ProofTSGraph ProofTSSafe ProofTSTwo ProofTSTwoTop.
Import ListNotations.
Local Open Scope R_scope.

Lemma wwin_unit t e : 0 <= wwin t e <= 1.
Proof.
  destruct (Rle_lt_dec tiny (Phi (t - e))) as [H|H]; [pose proof (wwin_range t e H); lra|].
  unfold wwin. destruct (Rlt_dec _ _) as [_|]; [|contradiction]. destruct (Rlt_dec t 0); lra.
Qed.
Lemma ts_w_unit o t e : o <> DRAW -> 0 <= ts_w o t e <= 1.
Proof. intros H. destruct o; [apply wwin_unit|apply wwin_unit|congruence]. Qed.

(** ** C58 *)
Lemma ts_out_real tau c v w p : 0 < c -> 0 <= w <= 1 -> 0 < snd p -> snd p ^ 2 + tau ^ 2 <= c ^ 2 ->
  exists u, ts_uncertainty (ts_out tau c v w p) = Fin u /\ 0 <= u <= sqrt (snd p ^ 2 + tau ^ 2) /\ (snd p ^ 2 + tau ^ 2 < c ^ 2 -> 0 < u).
Proof.
  intros Hc Hw Hs Hv. destruct p as [m s]. cbn [snd] in *. unfold ts_out. cbn [ts_uncertainty]. destruct (std_real tau c w m s Hc Hw Hv) as [E R]. rewrite E.
  eexists. split; [reflexivity|]. split; [split; [apply sqrt_pos|apply sqrt_le_1; lra]|]. intros L. apply sqrt_lt_R0. unfold ts_var'. cbn [snd].
  assert (0 < s ^ 2) by pos. pose proof (pow2_ge_0 tau). set (V := s ^ 2 + tau ^ 2) in *. assert (0 < c ^ 2) by pos.
  apply Rmult_lt_0_compat; [unfold V; lra|]. assert (w * V / c ^ 2 < 1); [|lra]. apply Rmult_lt_reg_r with (c ^ 2); auto.
  unfold Rdiv. rewrite Rmult_assoc, Rinv_l by lra. assert (0 < V) by (unfold V; lra). nra.
Qed.
Lemma C58_decided_proof : forall t1 t2 o dp beta tau, wl_ok t1 -> wl_ok t2 -> o <> DRAW ->
  let C := INR (length t1 + length t2) * beta ^ 2 + side_var t1 + side_var t2 in
  let good p r := snd p ^ 2 + tau ^ 2 <= C ->
    exists u, ts_uncertainty r = Fin u /\ 0 <= u <= sqrt (snd p ^ 2 + tau ^ 2) /\ (snd p ^ 2 + tau ^ 2 < C -> 0 < u) in
  let '(r1, r2) := trueskill_two_teams (tst_in t1) (tst_in t2) o (ts_cfg dp beta tau) in
  Forall2 good t1 r1 /\ Forall2 good t2 r2.
Proof.
  intros t1 t2 o dp beta tau O1 O2 Ho C good. destruct (C51_formula_proof t1 t2 o dp beta tau O1 O2) as (e & E1 & E2). cbv zeta in E2. rewrite E2. fold C.
  assert (HC : 0 < C). { unfold C. pose proof (side_var_pos _ O1). pose proof (side_var_nonneg t2). pose proof (pow2_ge_0 beta). pose proof (pos_INR (length t1 + length t2)). nra. }
  assert (Hc : 0 < sqrt C) by now apply sqrt_lt_R0. assert (Hcc : sqrt C ^ 2 = C) by (rewrite <- Rsqr_pow2; apply Rsqr_sqrt; lra).
  set (w := ts_w o _ _). assert (Hw : 0 <= w <= 1) by now apply ts_w_unit.
  assert (G : forall v t, Forall (fun p : R * R => 0 < snd p) t -> Forall2 good t (map (ts_out tau (sqrt C) v w) t)).
  { intros v t P. induction P as [|p t Hp P IH]; constructor; auto. intros L. rewrite <- Hcc in L. pose proof (ts_out_real tau (sqrt C) v w p Hc Hw Hp L) as K. rewrite Hcc in K. exact K. }
  destruct O1 as [_ P1], O2 as [_ P2]. split; apply G; auto.
Qed.
Lemma C58_player_proof : forall m1 s1 m2 s2 o dp beta tau, 0 < s1 -> 0 < s2 -> o <> DRAW -> tau ^ 2 <= 2 * beta ^ 2 ->
  let '(n1, n2) := trueskill (ts_in (m1, s1)) (ts_in (m2, s2)) o (ts_cfg dp beta tau) in
  exists u1 u2, ts_uncertainty n1 = Fin u1 /\ ts_uncertainty n2 = Fin u2 /\
    0 < u1 <= sqrt (s1 ^ 2 + tau ^ 2) /\ 0 < u2 <= sqrt (s2 ^ 2 + tau ^ 2).
Proof.
  intros m1 s1 m2 s2 o dp beta tau H1 H2 Ho Ht.
  pose proof (draw_margin_eval dp beta 2 ltac:(lra)) as He. rewrite (trueskill_eval _ _ _ _ _ _ _ _ _ H1 H2 He). cbv zeta.
  set (c := tsc 2 beta (s1 ^ 2) (s2 ^ 2)). assert (P1 : 0 < s1 ^ 2) by pos. assert (P2 : 0 < s2 ^ 2) by pos. pose proof (pow2_ge_0 beta).
  assert (Hc : 0 < c) by (apply tsc_pos; lra). assert (Hcc : c ^ 2 = 2 * beta ^ 2 + s1 ^ 2 + s2 ^ 2) by (unfold c, tsc; rewrite <- Rsqr_pow2; apply Rsqr_sqrt; lra).
  set (w := ts_w o _ _). assert (Hw : 0 <= w <= 1) by now apply ts_w_unit.
  destruct (ts_out_real tau c (ts_v o ((m1 - m2) / c) (unit_margin dp * sqrt 2 * beta / c)) w (m1, s1) Hc Hw H1 ltac:(cbn [snd]; lra)) as (u1 & A1 & A2 & A3).
  destruct (ts_out_real tau c (- ts_v o ((m1 - m2) / c) (unit_margin dp * sqrt 2 * beta / c)) w (m2, s2) Hc Hw H2 ltac:(cbn [snd]; lra)) as (u2 & B1 & B2 & B3).
  cbn [snd] in *. exists u1, u2. split; [exact A1|]. split; [exact B1|]. specialize (A3 ltac:(lra)). specialize (B3 ltac:(lra)). lra.
Qed.

(** ** C53, C84: decided games *)
Definition w_adv (o : Outcomes) (t : R) : R := match o with LOSS => - t | _ => t end.
Lemma ts_w_decided o t e : o <> DRAW -> tiny <= Phi (w_adv o t - e) -> 0 < ts_w o t e < 1.
Proof. intros Ho H. destruct o; [|cbn in *|congruence]; now apply wwin_range. Qed.
Lemma rank_decided k1 k2 : k1 <> k2 -> rank_outcome k1 k2 <> DRAW.
Proof. intros H. unfold rank_outcome. destruct (N.compare_spec k1 k2); congruence. Qed.
Lemma C53_decided_proof : forall (t1 t2 : list wpl) k1 k2 dp beta tau,
  t1 <> [] -> t2 <> [] -> Forall (fun x : wpl => 0 < snd (fst x) /\ 0 < snd x) (t1 ++ t2) -> k1 <> k2 ->
  let c := sqrt (w_var beta tau (t1 ++ t2)) in let t := (w_mean t1 - w_mean t2) / c in let o := rank_outcome k1 k2 in
  exists e, ts_draw_margin (Fin dp) (Fin beta) (Fin (INR (length t1 + length t2))) = Fin e /\
  (tiny <= Phi ((if N.ltb k1 k2 then t else - t) - e / c) ->
   trueskill_multi_team [tsr_in (map fst t1, k1); tsr_in (map fst t2, k2)] (ts_cfg dp beta tau) (Some [map Fin (map snd t1); map Fin (map snd t2)]) =
   Ok [map (w_out tau c (ts_v o t (e / c)) (ts_w o t (e / c))) t1; map (w_out tau c (- ts_v o t (e / c)) (ts_w o t (e / c))) t2]).
Proof.
  intros t1 t2 k1 k2 dp beta tau N1 N2 HP HK c t o. destruct (C53_proof t1 t2 k1 k2 dp beta tau N1 N2 HP) as (e & E1 & E2). exists e. split; auto. intros HT.
  apply E2. apply ts_w_decided; [now apply rank_decided|]. fold c t.
  replace (w_adv (rank_outcome k1 k2) t) with (if N.ltb k1 k2 then t else - t); auto. unfold rank_outcome. destruct (N.compare_spec k1 k2), (N.ltb_spec k1 k2); cbn; auto; lia.
Qed.
Lemma C84_decided_proof : forall (t1 t2 : list (R * R)) k1 k2 dp beta,
  t1 <> [] -> t2 <> [] -> Forall (fun p => 0 < snd p) (t1 ++ t2) -> k1 <> k2 ->
  let n := INR (length t1 + length t2) in
  let c := sqrt (n * beta ^ 2 + side_var t1 + side_var t2) in let t := (side_mu t1 - side_mu t2) / c in
  exists e, ts_draw_margin (Fin dp) (Fin beta) (Fin n) = Fin e /\
  (tiny <= Phi ((if N.ltb k1 k2 then t else - t) - e / c) ->
   let '(r1, r2) := trueskill_two_teams (tst_in t1) (tst_in t2) (if N.ltb k1 k2 then WIN else LOSS) (ts_cfg dp beta 0) in
   trueskill_multi_team [tsr_in (t1, k1); tsr_in (t2, k2)] (ts_cfg dp beta 0) None = Ok [r1; r2]).
Proof.
  intros t1 t2 k1 k2 dp beta N1 N2 HP HK n c t. destruct (C84_agree_proof t1 t2 k1 k2 dp beta N1 N2 HP) as (e & E1 & E2). exists e. split; auto. intros HT.
  assert (EO : rank_outcome k1 k2 = if N.ltb k1 k2 then WIN else LOSS) by (unfold rank_outcome; destruct (N.compare_spec k1 k2), (N.ltb_spec k1 k2); auto; lia).
  rewrite <- EO. apply E2. apply ts_w_decided; [now apply rank_decided|]. fold n c t. rewrite EO. destruct (N.ltb k1 k2); exact HT.
Qed.

(** ** A result with a probability below the cut-off *)
Lemma tiny_far x : x <= - (20 * sqrt 2) -> Phi x < tiny.
Proof.
  intros H. pose proof sqrt2_pos as S2. destruct (Rlt_le_dec (Phi x) tiny) as [|L]; auto. exfalso. pose proof exp400.
  assert (Hx : x < 0) by lra. rewrite Phi_neg in L by lra. set (z := - x / sqrt 2) in *.
  assert (Hz : 20 <= z) by (unfold z; apply Rmult_le_reg_r with (sqrt 2); auto; unfold Rdiv; rewrite Rmult_assoc, Rinv_l by lra; lra).
  unfold nr_pos in L. cbv zeta in L. pose proof (nr_t_range z ltac:(lra)) as T. 
  assert (T2 : / (1 + z / 2) <= 1 / 11). { replace (1 / 11) with (/ 11) by lra. apply Rinv_le_contravar; lra. }
  set (u := / (1 + z / 2)) in *. pose proof (nr_P_le u (1 / 11) ltac:(lra) ltac:(lra) ltac:(lra)). assert (nr_P (1 / 11) < 0) by (unfold nr_P; lra).
  assert (exp (nr_P u - z ^ 2) < exp (-400)) by (apply exp_increasing; nra). pose proof (exp_pos (nr_P u - z ^ 2)). nra.
Qed.

Lemma xr_add_nan (x : XR) : fadd x NaN = NaN. Proof. now destruct x. Qed.
Lemma xr_nan_add (x : XR) : fadd NaN x = NaN. Proof. now destruct x. Qed.
Lemma xr_nan_sub (x : XR) : fsub NaN x = NaN. Proof. now destruct x. Qed.
Lemma xr_mul_nan (x : XR) : fmul x NaN = NaN. Proof. now destruct x. Qed.
(** A Gaussian with a proper precision and a mean that is not a number. *)
Definition nang (p : R) : Gaussian XR := mkG (Fin p) NaN.
Lemma nang_mu p : p <> 0 -> g_mu (nang p) = NaN.
Proof. intros H. unfold g_mu, nang. cbn [g_pi g_tau]. rewrite xr_ofZ, xr_eqb, Reqb_false by auto. reflexivity. Qed.
Lemma nang_step p c x y : p <> 0 -> sum_step (Fin x, y) (nang p, Fin c) = (Fin (x + c ^ 2 / p), NaN).
Proof.
  intros H. unfold sum_step. rewrite nang_mu, xr_mul_nan, xr_add_nan by auto. change (fis_inf (Fin x)) with false. cbn [nang g_pi].
  rewrite xr_ofZ, xr_eqb, Reqb_false, xr_powi2, xr_div, xr_add by auto. f_equal. f_equal. field. auto.
Qed.
Lemma fin_step p c x : fst p <> 0 -> sum_step (Fin x, NaN) (fg p, Fin c) = (Fin (x + c ^ 2 / fst p), NaN).
Proof.
  intros H. unfold sum_step. rewrite xr_nan_add. change (fis_inf (Fin x)) with false. cbn [fg g_pi].
  rewrite xr_ofZ, xr_eqb, Reqb_false, xr_powi2, xr_div, xr_add by auto. f_equal. f_equal. field. auto.
Qed.
Lemma inf_step t c x y : (t = NaN \/ exists b, t = Inf b) -> c <> 0 -> sum_step (Fin x, y) (mkG (Inf false) t, Fin c) = (Fin x, NaN).
Proof.
  intros H Hc. unfold sum_step. assert (E : g_mu (mkG (Inf false) t) = NaN).
  { unfold g_mu. cbn [g_pi g_tau]. change (feqb (Inf false) (#0)%flt) with false. destruct H as [->|[b ->]]; reflexivity. }
  rewrite E, xr_mul_nan, xr_add_nan. change (fis_inf (Fin x)) with false. cbn [g_pi]. change (feqb (Inf false) (#0)%flt) with false. rewrite xr_powi2.
  change (fdiv (Fin (c * c)) (Inf false)) with (Fin 0). rewrite xr_add, Rplus_0_r. reflexivity.
Qed.
Section One.
  Variables (p1 p2 : R * R) (beta tau e : R).
  Hypothesis S1 : 0 < snd p1.
  Hypothesis S2 : 0 < snd p2.
  Let ps := [p1; p2].
  Let ws := [1; 1].
  Let HPS : length ps = (1 + 1)%nat := eq_refl.
  Let HWS : length ws = (1 + 1)%nat := eq_refl.
  Lemma HS2 : forall i, (i < 1 + 1)%nat -> snd (nth i ps (0, 0)) <> 0.
  Proof. intros [|[|i]] H; cbn; lra || lia. Qed.
  Lemma Vt2 t : (t < 2)%nat -> Vt 1 1 ps ws tau beta t = snd (nth t ps (0, 0)) ^ 2 + tau ^ 2 + beta * beta.
  Proof. intros H. destruct t as [|[|t]]; [| |lia]; unfold Vt, wi, Si, off, sz; cbn [seq map Nat.add nth ws]; rewrite Rsum_cons, Rsum_nil; ring. Qed.
  Lemma HV2 : forall t, (t < 2)%nat -> 0 < Vt 1 1 ps ws tau beta t.
  Proof.
    intros t H. rewrite Vt2 by auto. pose proof (pow2_ge_0 tau). pose proof (Rle_0_sqr beta) as Q. unfold Rsqr in Q.
    destruct t as [|[|t]]; [| |lia]; cbn [nth ps]; [assert (0 < snd p1 ^ 2) by pos|assert (0 < snd p2 ^ 2) by pos]; lra.
  Qed.
  Hypothesis HW1 : wv 1 1 ps ws tau beta e false = 1.
  Notation V := (Vt 1 1 ps ws tau beta).
  Notation dif := (difff 1 1).
  Notation tru := (truncf 1 1 e false).
  Definition ninf (x : XR) := x = NaN \/ exists b, x = Inf b.
  Let z := fun _ : nat => (0, 0).
  Lemma sweeps_inf s s' u :
    St 1 1 (pr0 ps tau) z (pl0 ps tau beta) z (tt0 1 1 ps ws tau beta) z (0, 0) (0, 0) s ->
    iterate_sweeps 10 [dif] [tru] ts_min_delta s = Some (s', u) ->
    (forall v, v <> 6%nat -> s' v = s v) /\ emsg s' 6 6 = fg (dd0 1 1 ps ws tau beta) /\ exists t, ninf t /\ gauss s' 6 = mkG (Inf false) t.
  Proof.
    intros H R. cbn [iterate_sweeps] in R. fold iterate_sweeps in R. apply bind_inv in R as (s1 & d & R1 & R). unfold sweep in R1. cbn [length nth] in R1. apply bind_inv in R1 as (s2 & d2 & R1 & R2).
    assert (O1 : forall v, v <> 6%nat -> s2 v = s v).
    { unfold sum_down in R1. apply sum_update_inv in R1. destruct (fold_left _ _ _) as [x y]. cbv zeta in R1. intros v Hv. now apply R1. }
    pose proof (diff_down_St 1 1 ps ws tau beta HPS HWS ltac:(lia) ltac:(lia) HV2 _ _ _ _ _ _ _ _ _ _ _ H ltac:(auto) R1) as K.
    pose proof K as (_ & _ & _ & T1 & T2 & T3). unfold trunc_up in R2. apply bind_inv in R2 as (s3 & g & R3 & R2). apply cavity_inv in R3 as [-> ->].
    cbn [truncf tf_variable tf_id tf_draw tf_draw_margin] in R2. rewrite T1, T3, fg_cav in R2. cbv zeta in R2.
    unfold dd0, nrm, fg in R2. cbn [g_pi g_tau fst snd] in R2.
    pose proof (Cq_pos 1 1 ps ws tau beta HPS HWS ltac:(lia) ltac:(lia) HV2) as CP. pose proof (cc_pos 1 1 ps ws tau beta HPS HWS ltac:(lia) ltac:(lia) HV2) as cP. pose proof (cc_sq 1 1 ps ws tau beta HPS HWS ltac:(lia) ltac:(lia) HV2) as CS.
    set (Cq := Cq 1 1 ps ws tau beta) in *. set (cc := cc 1 1 ps ws tau beta) in *. set (Dif := Dif 1 1 ps ws) in *.
    assert (IC : 0 < / Cq) by now apply Rinv_0_lt_compat. assert (Ic : 0 < / cc) by now apply Rinv_0_lt_compat.
    rewrite xr_sqrt in R2 by lra. replace (sqrt (/ Cq)) with (/ cc) in R2 by (unfold cc, ProofTSTwo.cc; symmetry; apply sqrt_inv).
    rewrite xr_mul in R2.
    assert (E1 : Dif / Cq / / cc = Dif / cc) by (rewrite <- CS; field; lra). assert (E2 : e * / Cq / / cc = e / cc) by (rewrite <- CS; field; lra).
    rewrite v_non_draw_eval, w_non_draw_eval in R2 by auto. rewrite E1, E2 in R2.
    change (wwin (Dif / cc) (e / cc)) with (wv 1 1 ps ws tau beta e false) in R2. rewrite HW1 in R2. rewrite xr_ofZ, xr_sub, xr_fma, Rminus_diag_eq in R2 by auto.
    assert (DI : forall x, 0 < x -> fdiv (Fin x) (Fin 0) = Inf false).
    { intros x Hx. change (xdiv (Fin x) (Fin 0) = Inf false). unfold xdiv. rewrite Reqb_true, Reqb_false by lra. f_equal. unfold Rltb. destruct (Rlt_dec x 0); [lra|reflexivity]. }
    assert (DN : forall x, ninf (fdiv (Fin x) (Fin 0))).
    { intros x. change (ninf (xdiv (Fin x) (Fin 0))). unfold xdiv, ninf. rewrite Reqb_true by auto. destruct (Reqb x 0); eauto. }
    rewrite DI in R2 by auto. match type of R2 with update_value _ _ (mkG _ ?t) _ = _ => set (tt := t) in R2; assert (HT : ninf tt) by apply DN end.
    clearbody tt. pose proof R2 as R2'. apply update_value_inv in R2. apply update_value_delta in R2'. 
    assert (D0 : d = Fin 0).
    { rewrite R2'. unfold var_delta. fold (gauss s2 (2 * (1 + 1) + 2)). rewrite T1. unfold fg. cbn [g_pi g_tau]. reflexivity. }
    rewrite D0 in R. assert (LE : fleb (Fin 0) (ts_min_delta (F := XR)) = true).
    { unfold ts_min_delta. change (flit 1 10000) with (Fin (1 / 10000)). change (xleb (Fin 0) (Fin (1 / 10000)) = true). cbn [xleb]. unfold Rleb. destruct (Rle_dec 0 (1 / 10000)); auto. lra. }
    rewrite LE in R. apply ret_inv in R as [-> _]. destruct R2 as (C1 & C2 & C3 & C4). cbn [Nat.mul Nat.add] in *. split.
    - intros v Hv. rewrite C4, O1 by auto. reflexivity.
    - split; [|eauto]. rewrite C3 by lia. exact T2.
  Qed.
  (** Upward pass: the precisions stay positive numbers, the means are lost. *)
  Lemma lost_div p q r : g_div (nang p) (mkG (Fin q) r) = nang (p - q).
  Proof. unfold g_div, nang. cbn [g_pi g_tau]. now rewrite xr_nan_sub, xr_sub. Qed.
  Lemma lost_mul p q : g_mul (fg p) (nang q) = nang (fst p + q).
  Proof. unfold g_mul, nang, fg. cbn [g_pi g_tau]. now rewrite xr_add_nan, xr_add. Qed.
  Lemma sum_update_lost id var vals cs s s' d x q : sum_update id var vals cs s = Some (s', d) ->
    fold_left sum_step (combine (map (fun v => g_div (gauss s v) (emsg s v id)) vals) cs) (Fin 0, Fin 0) = (Fin x, NaN) -> 0 < x ->
    g_div (gauss s var) (emsg s var id) = fg q -> chg s s' var id (nang (fst q + / x)) (nang (/ x)).
  Proof.
    intros R E Hx C. apply sum_update_inv in R. rewrite !xr_ofZ, E, C in R. cbv zeta in R. rewrite xr_recip, xr_mul_nan in R by lra.
    change (mkG (Fin (/ x)) NaN) with (nang (/ x)) in R. now rewrite lost_mul in R.
  Qed.
  Lemma run_lost trs dp s layer :
    length trs = 2%nat ->
    N.eqb (mto_rank (snd (nth 0 trs (nil, mto_new 0)))) (mto_rank (snd (nth 1 trs (nil, mto_new 0)))) = false ->
    ts_draw_margin dp (Fin beta) (fsum [flen (fst (nth 0 trs (nil, mto_new 0))); flen (fst (nth 1 trs (nil, mto_new 0)))]) = Fin e ->
    run_schedule [1%nat; (1 + 1)%nat] trs (map ts_in ps) (map Fin ws) (Fin tau) (Fin beta) dp ts_min_delta (fun _ => var_new) = Some (s, layer) ->
    layer = prior_layer 1 1 ps tau /\ forall i, (i < 2)%nat -> exists p, 0 < p /\ gauss s i = nang p.
  Proof.
    intros HT Hd He R. destruct (run_pre 1 1 ps ws tau beta HPS HWS ltac:(lia) ltac:(lia) HS2 HV2 e false trs dp ts_min_delta s layer HT Hd He R) as (s0 & H & R'). clear R. rename R' into R.
    fold z in H. apply bind_inv in R as (s1 & u1 & R1 & R). apply (sweeps_inf _ _ _ H) in R1 as (K1 & K2 & t & Ht & K3).
    destruct H as (H1 & H2 & H3 & _). pose proof (HV2 0 ltac:(lia)) as V0. pose proof (HV2 1 ltac:(lia)) as V1.
    assert (IV0 : 0 < / V 0) by now apply Rinv_0_lt_compat. assert (IV1 : 0 < / V 1) by now apply Rinv_0_lt_compat.
    assert (C6 : exists t', ninf t' /\ g_div (gauss s1 6) (emsg s1 6 6) = mkG (Inf false) t').
    { rewrite K3, K2. eexists. split; [|reflexivity]. destruct Ht as [->|[b ->]]; [left|right; exists b]; reflexivity. }
    destruct C6 as (t' & Ht' & C6).
    destruct (H3 0%nat ltac:(lia)) as (T1 & T2 & T3). destruct (H3 1%nat ltac:(lia)) as (U1 & U2 & U3). cbn [Nat.mul Nat.add] in T1, T2, T3, U1, U2, U3.
    assert (E4 : s1 4%nat = s0 4%nat) by (apply K1; lia). assert (E5 : s1 5%nat = s0 5%nat) by (apply K1; lia).
    (* difference factor, first team *)
    apply bind_inv in R as (s2 & u2 & R2 & R). unfold sum_up in R2. apply bind_inv in R2 as (s3 & co & Q1 & R2). apply of_option_inv in Q1 as [-> Q1].
    apply bind_inv in R2 as (s3 & va & Q2 & R2). apply of_option_inv in Q2 as [-> Q2].
    cbn [difff sf_coeffs sf_terms sf_id sf_sum nth_error list_set Nat.mul Nat.add] in Q1, Q2, R2. apply Some_inj in Q1, Q2. subst co va.
    unfold sum_up_coeffs in R2. cbn [enumerate combine length seq map fst snd Nat.eqb] in R2. rewrite !xr_ofZ, !xr_eqb, !(Reqb_false 1 0) in R2 by lra.
    rewrite xr_recip, xr_neg, xr_div in R2 by lra.
    assert (C5 : g_div (gauss s1 5) (emsg s1 5 6) = fg (tt0 1 1 ps ws tau beta 1)) by (unfold gauss, emsg; rewrite E5; fold (gauss s0 5) (emsg s0 5 6); rewrite U1, U3; apply fg_cav).
    assert (C4 : g_div (gauss s1 4) (emsg s1 4 6) = fg (tt0 1 1 ps ws tau beta 0)) by (unfold gauss, emsg; rewrite E4; fold (gauss s0 4) (emsg s0 4 6); rewrite T1, T3; apply fg_cav).
    eapply sum_update_lost in R2; [|cbn [map combine]; rewrite C6, C5; cbn [fold_left]; rewrite inf_step by (auto; lra); rewrite fin_step by (cbn [tt0 nrm fst]; lra); reflexivity| |exact C4].
    2: { cbn [tt0 nrm fst]. unfold Rdiv. rewrite Rinv_inv. nra. }
    cbn [tt0 nrm fst] in R2. set (x := 0 + (- (-1) / 1) ^ 2 / / V 1) in R2. assert (Ex : x = V 1) by (unfold x; field; lra). rewrite Ex in R2. clear x Ex. destruct R2 as (A1 & A2 & A3 & A4).
    (* difference factor, second team *)
    apply bind_inv in R as (s3 & u3 & R3 & R). unfold sum_up in R3. apply bind_inv in R3 as (s4 & co & Q1 & R3). apply of_option_inv in Q1 as [-> Q1].
    apply bind_inv in R3 as (s4 & va & Q2 & R3). apply of_option_inv in Q2 as [-> Q2].
    cbn [difff sf_coeffs sf_terms sf_id sf_sum nth_error list_set Nat.mul Nat.add] in Q1, Q2, R3. apply Some_inj in Q1, Q2. subst co va.
    unfold sum_up_coeffs in R3. cbn [enumerate combine length seq map fst snd Nat.eqb] in R3. rewrite !xr_ofZ, !xr_eqb, !(Reqb_false (-1) 0) in R3 by lra.
    rewrite xr_recip, xr_neg, xr_div in R3 by lra.
    assert (D4 : g_div (gauss s2 4) (emsg s2 4 6) = nang (/ V 0)) by (rewrite A1, A2; unfold nang at 2; rewrite lost_div; f_equal; ring).
    assert (D5 : g_div (gauss s2 5) (emsg s2 5 6) = fg (tt0 1 1 ps ws tau beta 1)) by (unfold gauss, emsg; rewrite A4 by lia; exact C5).
    assert (D6 : g_div (gauss s2 6) (emsg s2 6 6) = mkG (Inf false) t') by (unfold gauss, emsg; rewrite A4 by lia; exact C6).
    eapply sum_update_lost in R3; [|cbn [map combine]; rewrite D4, D6; cbn [fold_left]; rewrite nang_step by lra; rewrite inf_step by (auto; apply Rinv_neq_0_compat; lra); reflexivity| |exact D5].
    2: { unfold Rdiv. rewrite Rinv_inv. nra. }
    cbn [tt0 nrm fst] in R3. set (x := 0 + (- (1) / -1) ^ 2 / / V 0) in R3. assert (Ex : x = V 0) by (unfold x; field; lra). rewrite Ex in R3. clear x Ex. destruct R3 as (B1 & B2 & B3 & B4).
    assert (G4 : gauss s3 4 = nang (/ V 0 + / V 1)) by (unfold gauss; rewrite B4 by lia; exact A1).
    assert (M44 : emsg s3 4 4 = fg (nrm (Mt 1 1 ps ws 0) (V 0))).
    { unfold emsg. rewrite B4 by lia. fold (emsg s2 4 4). rewrite A3 by lia. unfold emsg. rewrite E4. exact T2. }
    assert (M55 : emsg s3 5 5 = fg (nrm (Mt 1 1 ps ws 1) (V 1))).
    { rewrite B3 by lia. unfold emsg. rewrite A4, E5 by lia. exact U2. }
    assert (K : forall v, (v < 4)%nat -> s3 v = s0 v) by (intros v Hv; rewrite B4, A4, K1 by lia; reflexivity).
    clear A1 A2 A3 A4 B2 B3 B4 C4 C5 C6 D4 D5 D6 K1 K2 K3 E4 E5 T1 T2 T3 U1 U2 U3 Ht t Ht' t'.
    (* team factors *)
    apply bind_inv in R as (s4 & u4 & R4 & R). cbn [seq map for_each] in R4.
    apply bind_inv in R4 as (s5 & u5 & R5 & R4). apply bind_inv in R4 as (s6 & u6 & R6 & R4). apply ret_inv in R4 as [-> _].
    cbn [teamf sf_terms sz map seq length for_each] in R5, R6.
    apply bind_inv in R5 as (s7 & u7 & R7 & R5). apply ret_inv in R5 as [-> _]. apply bind_inv in R6 as (s8 & u8 & R8 & R6). apply ret_inv in R6 as [-> _].
    destruct (H2 0%nat ltac:(lia)) as (P1 & P2 & P3). destruct (H2 1%nat ltac:(lia)) as (P4 & P5 & P6). cbn [Nat.mul Nat.add tm Nat.ltb Nat.leb] in P1, P2, P3, P4, P5, P6.
    assert (L2 : 0 < Si ps tau 0 + beta * beta). { rewrite Vt2 in V0 by lia. exact V0. }
    assert (L3 : 0 < Si ps tau 1 + beta * beta). { rewrite Vt2 in V1 by lia. exact V1. }
    unfold sum_up in R7. apply bind_inv in R7 as (s9 & co & Q1 & R7). apply of_option_inv in Q1 as [-> Q1].
    apply bind_inv in R7 as (s9 & va & Q2 & R7). apply of_option_inv in Q2 as [-> Q2].
    cbn [teamf sf_coeffs sf_terms sf_id sf_sum nth_error list_set Nat.mul Nat.add sz off seq map wi ws nth] in Q1, Q2, R7. apply Some_inj in Q1, Q2. subst co va.
    unfold sum_up_coeffs in R7. cbn [enumerate combine length seq map fst snd Nat.eqb] in R7. rewrite !xr_ofZ, !xr_eqb, !(Reqb_false 1 0) in R7 by lra. rewrite xr_recip in R7 by lra.
    assert (D4 : g_div (gauss s3 4) (emsg s3 4 4) = nang (/ V 1)).
    { rewrite G4, M44. unfold fg, nrm. cbn [fst snd]. rewrite lost_div. f_equal. ring. }
    assert (D2 : g_div (gauss s3 2) (emsg s3 2 4) = fg (pl0 ps tau beta 0)).
    { unfold gauss, emsg. rewrite K by lia. fold (gauss s0 2) (emsg s0 2 4). rewrite P1, P3. apply fg_cav. }
    eapply sum_update_lost in R7; [|cbn [map combine]; rewrite D4; cbn [fold_left]; rewrite nang_step by lra; reflexivity| |exact D2].
    2: { unfold Rdiv. rewrite Rinv_inv. nra. }
    cbn [pl0 nrm fst] in R7. set (x := 0 + _ / / V 1) in R7. assert (Ex : x = V 1) by (unfold x; field; lra). rewrite Ex in R7. clear x Ex. destruct R7 as (A1 & A2 & A3 & A4).
    unfold sum_up in R8. apply bind_inv in R8 as (s9 & co & Q1 & R8). apply of_option_inv in Q1 as [-> Q1].
    apply bind_inv in R8 as (s9 & va & Q2 & R8). apply of_option_inv in Q2 as [-> Q2].
    cbn [teamf sf_coeffs sf_terms sf_id sf_sum nth_error list_set Nat.mul Nat.add sz off seq map wi ws nth] in Q1, Q2, R8. apply Some_inj in Q1, Q2. subst co va.
    unfold sum_up_coeffs in R8. cbn [enumerate combine length seq map fst snd Nat.eqb] in R8. rewrite !xr_ofZ, !xr_eqb, !(Reqb_false 1 0) in R8 by lra. rewrite xr_recip in R8 by lra.
    assert (D5 : g_div (gauss s7 5) (emsg s7 5 5) = nang (/ V 0)).
    { unfold gauss, emsg. rewrite A4 by lia. fold (gauss s3 5) (emsg s3 5 5). rewrite B1, M55. unfold fg, nrm. cbn [fst snd]. rewrite lost_div. f_equal. ring. }
    assert (D3 : g_div (gauss s7 3) (emsg s7 3 5) = fg (pl0 ps tau beta 1)).
    { unfold gauss, emsg. rewrite A4, K by lia. fold (gauss s0 3) (emsg s0 3 5). rewrite P4, P6. apply fg_cav. }
    eapply sum_update_lost in R8; [|cbn [map combine]; rewrite D5; cbn [fold_left]; rewrite nang_step by lra; reflexivity| |exact D3].
    2: { unfold Rdiv. rewrite Rinv_inv. nra. }
    cbn [pl0 nrm fst] in R8. set (x := 0 + _ / / V 0) in R8. assert (Ex : x = V 0) by (unfold x; field; lra). rewrite Ex in R8. clear x Ex. destruct R8 as (F1 & F2 & F3 & F4).
    (* likelihood factors *)
    apply bind_inv in R as (s9 & u9 & R9 & R). apply ret_inv in R as [-> ->]. split; [reflexivity|]. cbn [seq map for_each Nat.add] in R9.
    apply bind_inv in R9 as (sa & ua & Ra & R9). apply bind_inv in R9 as (sb & ub & Rb & R9). apply ret_inv in R9 as [-> _].
    assert (LK : forall i (s s' : Store XR) d p q r, lik_up (likf 1 1 beta i) s = Some (s', d) -> 0 < p -> 0 < fst r ->
       gauss s (2 + i)%nat = nang (fst q + p) -> emsg s (2 + i)%nat (2 + i)%nat = fg q -> gauss s i = fg r -> emsg s i (2 + i)%nat = fg (0, 0) ->
       (exists p', 0 < p' /\ gauss s' i = nang p') /\ forall v, v <> i -> s' v = s v).
    { clear. intros i s s' d p q r R Hp Hr G E G' E'. unfold lik_up in R. apply bind_inv in R as (s1 & g & R1 & R). apply cavity_inv in R1 as [-> ->].
      cbn [likf lf_mean lf_value lf_id Nat.add] in R. change (S (S i)) with (2 + i)%nat in R. rewrite G, E in R. assert (LD : g_div (nang (fst q + p)) (fg q) = nang p) by (unfold fg; rewrite lost_div; f_equal; ring). rewrite LD in R.
      cbv zeta in R. apply update_message_inv in R. rewrite G', E' in R. unfold lik_calc_a in R. cbn [nang g_pi g_tau likf lf_variance] in R.
      rewrite xr_powi2, xr_ofZ, xr_fma in R. pose proof (Rle_0_sqr beta) as Q. unfold Rsqr in Q. assert (B0 : 0 < beta * beta * p + 1) by nra.
      rewrite xr_recip, xr_mul, xr_mul_nan in R by lra. destruct R as (C1 & _ & _ & C4). clear LD. split; [|exact C4]. rewrite C1.
      replace r with (pad r (0, 0)) by (destruct r; unfold pad; cbn; f_equal; ring). rewrite fg_cav.
      match goal with |- context [mkG (Fin ?x) NaN] => change (mkG (Fin x) NaN) with (nang x); assert (0 < x) by pos end. rewrite lost_mul. eexists. split; [|reflexivity]. lra. }
    destruct (H1 0%nat ltac:(lia)) as (O1 & O2). destruct (H1 1%nat ltac:(lia)) as (O3 & O4). cbn [Nat.mul Nat.add] in O1, O2, O3, O4.
    assert (PZ : forall r : R * R, pad r (z 0) = r) by (intros [r1 r2]; unfold pad, z; cbn [fst snd]; f_equal; ring). change (z 1) with (z 0) in O3. rewrite PZ in O1, O3.
    assert (SP0 : 0 < Si ps tau 0) by (apply (Si_pos 1 1 ps tau HS2); lia). assert (SP1 : 0 < Si ps tau 1) by (apply (Si_pos 1 1 ps tau HS2); lia).
    destruct (LK 0%nat s8 sa ua (/ V 1) (pl0 ps tau beta 0) (pr0 ps tau 0) Ra IV1) as [[q0 [Hq0 L0]] L0'].
    { cbn [pr0 nrm fst]. now apply Rinv_0_lt_compat. }
    { unfold gauss. rewrite F4 by lia. exact A1. }
    { cbn [Nat.add]. unfold emsg. rewrite F4 by lia. fold (emsg s7 2 2). rewrite A3 by lia. unfold emsg. rewrite K by lia. exact P2. }
    { unfold gauss. rewrite F4, A4, K by lia. exact O1. }
    { unfold emsg. rewrite F4, A4, K by lia. exact O2. }
    destruct (LK 1%nat sa sb ub (/ V 0) (pl0 ps tau beta 1) (pr0 ps tau 1) Rb IV0) as [[q1 [Hq1 L1]] L1'].
    { cbn [pr0 nrm fst]. now apply Rinv_0_lt_compat. }
    { unfold gauss. rewrite L0' by lia. exact F1. }
    { cbn [Nat.add]. unfold emsg. rewrite L0' by lia. fold (emsg s8 3 3). rewrite F3 by lia. unfold emsg. rewrite A4, K by lia. exact P5. }
    { unfold gauss. rewrite L0', F4, A4, K by lia. exact O3. }
    { unfold emsg. rewrite L0', F4, A4, K by lia. exact O4. }
    intros [|[|i]] Hi; [| |lia]; [exists q0|exists q1]; split; auto. unfold gauss. rewrite L1' by lia. exact L0.
  Qed.
End One.

(** ** Both ratings are lost *)
Lemma upset_lost : forall m1 s1 m2 s2 k1 k2 dp beta tau, 0 < s1 -> 0 < s2 -> (k1 < k2)%N ->
  let c := sqrt (2 * (beta ^ 2 + tau ^ 2) + s1 ^ 2 + s2 ^ 2) in let t := (m1 - m2) / c in
  exists e, ts_draw_margin (Fin dp) (Fin beta) (Fin 2) = Fin e /\
  (t < 0 -> Phi (t - e / c) < tiny ->
   exists u1 u2, trueskill_multi_team [tsr_in ([(m1, s1)], k1); tsr_in ([(m2, s2)], k2)] (ts_cfg dp beta tau) None =
     Ok [[mkTS NaN (Fin u1)]; [mkTS NaN (Fin u2)]]).
Proof.
  intros m1 s1 m2 s2 k1 k2 dp beta tau H1 H2 HK c t. pose proof (draw_margin_eval dp beta 2 ltac:(lra)) as He. eexists. split; [exact He|].
  set (e := unit_margin dp * sqrt 2 * beta) in *. intros Ht HP.
  rewrite (multi_core _ _ _ [[Fin 1]; [Fin 1]]).
  2: { discriminate. }
  2: { repeat constructor; discriminate. }
  2: { unfold get_weights. cbn [map tsr_in tst_in fst length repeat]. now rewrite xr_ofZ. }
  cbv zeta. unfold enumerate. cbn [combine length seq]. unfold sort_by_key, insert_by_key, trank. cbn [snd fst tsr_in].
  unfold mto_rank. cbn [mto_rank_field]. rewrite (proj2 (N.leb_le k1 k2)) by lia. cbn [map snd fst].
  unfold ts_core. cbn [ts_cfg ts_dynamics_factor ts_beta ts_draw_probability map fst snd concat tsr_in tst_in app].
  set (trs := [([ts_in (m1, s1)], mkMTO k1); ([ts_in (m2, s2)], mkMTO k2)]).
  change (team_sizes [[ts_in (m1, s1)]; [ts_in (m2, s2)]]) with [1%nat; (1 + 1)%nat]. cbv zeta.
  destruct (safe_schedule (fun _ => var_new) [1%nat; (1 + 1)%nat] trs (map ts_in [(m1, s1); (m2, s2)]) (map Fin [1; 1]) (Fin tau) (Fin beta) (Fin dp) ts_min_delta) as (s & layer & ER & _).
  { reflexivity. }
  { reflexivity. }
  { cbn [map]. apply Forall_cons; [|apply Forall_cons; [|apply Forall_nil]]; apply xr_good_player; lra. }
  cbn [map] in ER. change [tsr_in ([(m1, s1)], k1); tsr_in ([(m2, s2)], k2)] with trs. rewrite ER.
  assert (HW : wv 1 1 [(m1, s1); (m2, s2)] [1; 1] tau beta e false = 1).
  { assert (ED : Dif 1 1 [(m1, s1); (m2, s2)] [1; 1] = m1 - m2). { unfold Dif, Mt, wi, mi, off, sz. cbn [seq map Nat.add nth fst]. rewrite !Rsum_cons, !Rsum_nil. ring. }
    assert (EC : cc 1 1 [(m1, s1); (m2, s2)] [1; 1] tau beta = c).
    { unfold cc, Cq, c. f_equal. rewrite !Vt2 by lia. cbn [nth snd]. ring. }
    unfold wv. rewrite ED, EC. fold t. unfold wwin. destruct (Rlt_dec _ _); [|contradiction]. destruct (Rlt_dec t 0); [reflexivity|contradiction]. }
  destruct (run_lost (m1, s1) (m2, s2) beta tau e H1 H2 HW trs (Fin dp) s layer) as [-> G]; auto.
  { cbn [trs nth snd mto_rank mto_rank_field]. apply N.eqb_neq. unfold mto_rank; cbn. lia. }
  { unfold trs. cbn [nth fst]. rewrite <- He. f_equal. unfold flen. cbn [length Z.of_nat]. rewrite !xr_ofZ. unfold fsum. cbn [fold_left].
    change (fsum0 : XR) with (Fin 0). rewrite !xr_add. f_equal. cbn. ring. }
  destruct (G 0%nat ltac:(lia)) as (q0 & Q0 & G0). destruct (G 1%nat ltac:(lia)) as (q1 & Q1 & G1).
  exists (sqrt (/ q0)), (sqrt (/ q1)). unfold read_groups. cbn [length seq map slice team_start nth prior_layer priorf Nat.add Nat.sub skipn firstn pf_variable].
  unfold gauss in G0, G1. rewrite G0, G1. rewrite !nang_mu by lra.
  assert (SG : forall q, 0 < q -> g_sigma (nang q) = Fin (sqrt (/ q))).
  { intros q Hq. unfold g_sigma, nang. cbn [g_pi]. rewrite xr_ofZ, xr_eqb, Reqb_false by lra. rewrite xr_recip by lra. rewrite xr_sqrt by (apply Rlt_le, Rinv_0_lt_compat; auto). reflexivity. }
  rewrite !SG by auto. reflexivity.
Qed.
Lemma C53_refuted_proof : forall dp beta tau s1 s2, 0 < s1 -> 0 < s2 ->
  exists m1 m2 u1 u2, trueskill_multi_team [tsr_in ([(m1, s1)], 1%N); tsr_in ([(m2, s2)], 2%N)] (ts_cfg dp beta tau) None =
    Ok [[mkTS NaN (Fin u1)]; [mkTS NaN (Fin u2)]].
Proof.
  intros dp beta tau s1 s2 H1 H2. set (c := sqrt (2 * (beta ^ 2 + tau ^ 2) + s1 ^ 2 + s2 ^ 2)).
  pose proof (draw_margin_eval dp beta 2 ltac:(lra)) as He. set (e := unit_margin dp * sqrt 2 * beta) in *.
  assert (Hc : 0 < c). { unfold c. apply sqrt_lt_R0. assert (0 < s1 ^ 2) by pos. pose proof (pow2_ge_0 s2). pose proof (pow2_ge_0 beta). pose proof (pow2_ge_0 tau). lra. }
  pose proof sqrt2_pos. set (x := - (20 * sqrt 2) - Rabs (e / c)). exists (c * x), 0.
  destruct (upset_lost (c * x) s1 0 s2 1 2 dp beta tau H1 H2 ltac:(lia)) as (e' & E & K). fold c in K.
  assert (e' = e) by (rewrite He in E; now injection E). subst e'. replace ((c * x - 0) / c) with x in K by (field; lra).
  pose proof (Rabs_pos (e / c)). pose proof (Rle_abs (- (e / c))) as A. rewrite Rabs_Ropp in A.
  apply K; [unfold x; lra|]. apply tiny_far. unfold x. lra.
Qed.
