(** Proofs about [trueskill_multi_team] with two teams: the theorems. *)
From Coq Require Import ZArith NArith List Bool Lia Arith.PeanoNat Permutation Reals Lra.
From Verif Require Import Arith XR Tac ModelLib ModelWengLin ModelTS ModelTSGraph Spec SpecTS SpecInTS MathTS ProofTS ProofTSGraph ProofTSSafe ProofTSTwo.
Import ListNotations.
Local Open Scope R_scope.

Definition pl_d : wpl := ((0, 0), 0).
Lemma nth_app_team (t1 t2 : list wpl) t k : (t < 2)%nat -> (k < length (nth t [t1; t2] []))%nat ->
  nth (off (length t1) t + k) (t1 ++ t2) pl_d = nth k (nth t [t1; t2] []) pl_d.
Proof.
  intros Ht Hk. destruct t as [|[|t]]; [| |lia]; cbn [off nth Nat.add] in *.
  - now rewrite app_nth1.
  - rewrite app_nth2_plus. reflexivity.
Qed.
Lemma Rsum_team (f : wpl -> R) t1 t2 t : (t < 2)%nat ->
  Rsum (map (fun k => f (nth (off (length t1) t + k) (t1 ++ t2) pl_d)) (seq 0 (sz (length t1) (length t2) t))) = Rsum (map f (nth t [t1; t2] [])).
Proof.
  intros Ht. f_equal. replace (sz (length t1) (length t2) t) with (length (nth t [t1; t2] [])) by (destruct t as [|[|t]]; cbn; auto; lia).
  rewrite <- (map_nth_seq (nth t [t1; t2] []) pl_d) at 2. rewrite map_map. apply map_ext_in. intros k Hk. apply in_seq in Hk. now rewrite nth_app_team by (auto; lia).
Qed.
Lemma w_var_pos beta tau (t : list wpl) : t <> [] -> Forall (fun x : wpl => 0 < snd (fst x) /\ 0 < snd x) t -> 0 < w_var beta tau t.
Proof.
  intros N H. rewrite Forall_forall in H. apply XR.Rsum_pos; [destruct t; [congruence|discriminate]|]. intros y Hy. apply in_map_iff in Hy as (x & <- & Hx).
  destruct (H x Hx). apply Rmult_lt_0_compat; [now apply pow_lt|]. pose proof (pow2_ge_0 tau). pose proof (pow2_ge_0 beta). assert (0 < snd (fst x) ^ 2) by now apply pow_lt. lra.
Qed.
Section Top.
  Variables (t1 t2 : list wpl) (beta tau : R).
  Let l := t1 ++ t2.
  Let a := length t1.
  Let b := length t2.
  Hypothesis N1 : t1 <> [].
  Hypothesis N2 : t2 <> [].
  Hypothesis HP : Forall (fun x : wpl => 0 < snd (fst x) /\ 0 < snd x) (t1 ++ t2).
  Let ps := map fst l.
  Let ws := map snd l.
  Lemma nth_ps i : nth i ps (0, 0) = fst (nth i l pl_d). Proof. apply (map_nth fst l pl_d). Qed.
  Lemma nth_ws i : nth i ws 0 = snd (nth i l pl_d). Proof. apply (map_nth snd l pl_d). Qed.
  Lemma len_l : length l = (a + b)%nat. Proof. apply app_length. Qed.
  Lemma Mt_eq t : (t < 2)%nat -> Mt a b ps ws t = w_mean (nth t [t1; t2] []).
  Proof.
    intros Ht. unfold w_mean. rewrite <- (Rsum_team _ t1 t2 t Ht). unfold Mt. f_equal. apply map_ext. intros k. unfold wi, mi. now rewrite nth_ps, nth_ws.
  Qed.
  Lemma Vt_eq t : (t < 2)%nat -> Vt a b ps ws tau beta t = w_var beta tau (nth t [t1; t2] []).
  Proof.
    intros Ht. unfold w_var. rewrite <- (Rsum_team _ t1 t2 t Ht). unfold Vt. f_equal. apply map_ext. intros k. unfold wi, Si. rewrite nth_ps, nth_ws. fold l a. ring.
  Qed.
  Let D := w_mean t1 - w_mean t2.
  Let C := w_var beta tau t1 + w_var beta tau t2.
  Let c := sqrt C.
  Lemma Dif_eq : Dif a b ps ws = D. Proof. unfold Dif. now rewrite !Mt_eq by lia. Qed.
  Lemma Cq_eq : Cq a b ps ws tau beta = C. Proof. unfold Cq. now rewrite !Vt_eq by lia. Qed.
  Lemma core_two k1 k2 dp e :
    let draw := N.eqb k1 k2 in
    let v := if draw then vdraw (D / c) (e / c) else vwin (D / c) (e / c) in
    let w := if draw then wdraw (D / c) (e / c) else wwin (D / c) (e / c) in
    ts_draw_margin (Fin dp) (Fin beta) (Fin (INR (length t1 + length t2))) = Fin e -> 0 < w < 1 ->
    ts_core (ts_cfg dp beta tau) [(tsr_in (map fst t1, k1), map Fin (map snd t1)); (tsr_in (map fst t2, k2), map Fin (map snd t2))] =
    Some [map (w_out tau c v w) t1; map (w_out tau c (- v) w) t2].
  Proof.
    intros draw v w He Hw. unfold ts_core. cbn [ts_cfg ts_dynamics_factor ts_beta ts_draw_probability map fst snd concat tsr_in].
    assert (SZ : team_sizes [tst_in (map fst t1); tst_in (map fst t2)] = [a; (a + b)%nat]).
    { unfold team_sizes, tst_in. cbn [map]. rewrite !map_length. reflexivity. }
    cbn [map fst snd] in SZ. rewrite SZ. cbv zeta. rewrite !app_nil_r.
    assert (EP : tst_in (map fst t1) ++ tst_in (map fst t2) = map ts_in ps) by (unfold tst_in, ps, l; now rewrite !map_app).
    assert (EW : map Fin (map snd t1) ++ map Fin (map snd t2) = map Fin ws) by (unfold ws, l; now rewrite !map_app).
    rewrite EP, EW.
    set (trs := [(tst_in (map fst t1), mkMTO k1); (tst_in (map fst t2), mkMTO k2)]).
    assert (LPS : length ps = (a + b)%nat) by (unfold ps; rewrite map_length; apply len_l). assert (LWS : length ws = (a + b)%nat) by (unfold ws; rewrite map_length; apply len_l).
    assert (Ha : (0 < a)%nat) by (unfold a; destruct t1; [congruence|cbn; lia]). assert (Hb : (0 < b)%nat) by (unfold b; destruct t2; [congruence|cbn; lia]).
    rewrite Forall_forall in HP. fold l in HP.
    assert (HS : forall i, (i < a + b)%nat -> snd (nth i ps (0, 0)) <> 0).
    { intros i Hi. rewrite nth_ps. apply Rgt_not_eq. apply HP, nth_In. now rewrite len_l. }
    assert (HW : forall i, (i < a + b)%nat -> 0 < wi ws i).
    { intros i Hi. unfold wi. rewrite nth_ws. apply HP, nth_In. now rewrite len_l. }
    assert (HV : forall t, (t < 2)%nat -> 0 < Vt a b ps ws tau beta t).
    { intros t Ht. rewrite Vt_eq by auto. apply w_var_pos; [destruct t as [|[|t]]; cbn; auto; lia|]. apply Forall_forall. intros x Hx.
      apply HP. unfold l. apply in_app_iff. destruct t as [|[|t]]; cbn in Hx; [now left|now right|destruct t; contradiction]. }
    assert (EC : cc a b ps ws tau beta = c) by (unfold cc, c; now rewrite Cq_eq).
    assert (EV : vv a b ps ws tau beta e draw = v) by (unfold vv, v; now rewrite Dif_eq, EC).
    assert (EW' : wv a b ps ws tau beta e draw = w) by (unfold wv, w; now rewrite Dif_eq, EC).
    assert (Hwv : 0 < wv a b ps ws tau beta e draw < 1) by now rewrite EW'.
    destruct (safe_schedule (fun _ => var_new) [a; (a + b)%nat] trs (map ts_in ps) (map Fin ws) (Fin tau) (Fin beta) (Fin dp) ts_min_delta) as (s & layer & ER & _).
    { reflexivity. }
    { now rewrite !map_length, LPS, LWS. }
    { apply Forall_map, Forall_forall. intros [m u] I. apply xr_good_player. apply in_map_iff in I as (x & E & I). apply HP in I as [I _]. rewrite E in I. cbn in I. lra. }
    change [tsr_in (map fst t1, k1); tsr_in (map fst t2, k2)] with trs. rewrite ER. f_equal.
    destruct (run_two a b ps ws tau beta LPS LWS Ha Hb HS HV e draw Hwv trs (Fin dp) ts_min_delta s layer) as (-> & pl & pt & tt & td & dd & du & ST); auto.
    { unfold trs. cbn [nth fst]. rewrite <- He. f_equal. unfold flen, tst_in. rewrite !map_length. rewrite !xr_ofZ. unfold fsum. cbn [fold_left].
      change (fsum0 : XR) with (Fin 0). rewrite !xr_add, <- !INR_IZR_INZ, plus_INR, Rplus_0_l. reflexivity. }
    unfold read_groups. change (length [a; (a + b)%nat]) with 2%nat. 
    assert (G : forall t, (t < 2)%nat -> map (fun f => mkTS (g_mu (v_gaussian (s (pf_variable f)))) (g_sigma (v_gaussian (s (pf_variable f)))))
        (slice (prior_layer a b ps tau) (team_start [a; (a + b)%nat] t) (nth t [a; (a + b)%nat] O)) = map (w_out tau c (sg t * v) w) (nth t [t1; t2] [])).
    { intros t Ht. rewrite (slice_nth a b ps ws LPS LWS Ha Hb _ (priorf ps tau 0) t) by (auto; unfold prior_layer; now rewrite map_length, seq_length). rewrite map_map.
      rewrite <- (map_nth_seq (nth t [t1; t2] []) pl_d) at 1. rewrite map_map.
      replace (length (nth t [t1; t2] [])) with (sz a b t) by (destruct t as [|[|t]]; cbn; auto; lia).
      apply map_ext_in. intros k Hk. apply in_seq in Hk. destruct (off_sz a b ps ws LPS LWS Ha Hb t k Ht ltac:(lia)) as [L T].
      unfold prior_layer. rewrite (map_nth (priorf ps tau)), seq_nth by auto. cbn [Nat.add priorf pf_variable]. 
      destruct ST as [ST _]. destruct (ST _ L) as [EG _]. unfold gauss in EG. rewrite EG.
      destruct (final_gauss a b ps ws tau beta LPS LWS Ha Hb HS HV e draw Hwv _ L (HW _ L)) as [E1 E2]. rewrite E1, E2, T, EC, EV, EW', Cq_eq.
      rewrite <- nth_app_team by (auto; destruct t as [|[|t]]; cbn in *; try lia). fold a l. unfold w_out, mi, Si, wi. rewrite nth_ps, nth_ws.
      assert (CP : 0 < C). { rewrite <- Cq_eq. now apply Cq_pos. }
      assert (CS : c ^ 2 = C). { unfold c. rewrite <- Rsqr_pow2. apply Rsqr_sqrt. lra. } rewrite CS.
      f_equal; f_equal; [|f_equal]; unfold Rdiv; ring. }
    cbn [seq map]. rewrite !G by lia. cbn [nth sg]. f_equal; [|f_equal]; apply map_ext; intros x; f_equal; ring.
  Qed.
End Top.

Lemma two_get (t1 t2 : list wpl) k1 k2 dp beta tau ws e :
  t1 <> [] -> t2 <> [] -> Forall (fun x : wpl => 0 < snd (fst x) /\ 0 < snd x) (t1 ++ t2) ->
  let c := sqrt (w_var beta tau (t1 ++ t2)) in let t := (w_mean t1 - w_mean t2) / c in let o := rank_outcome k1 k2 in
  ts_draw_margin (Fin dp) (Fin beta) (Fin (INR (length t1 + length t2))) = Fin e -> 0 < ts_w o t (e / c) < 1 ->
  get_weights [tst_in (map fst t1); tst_in (map fst t2)] ws = Ok [map Fin (map snd t1); map Fin (map snd t2)] ->
  trueskill_multi_team [tsr_in (map fst t1, k1); tsr_in (map fst t2, k2)] (ts_cfg dp beta tau) ws =
  Ok [map (w_out tau c (ts_v o t (e / c)) (ts_w o t (e / c))) t1; map (w_out tau c (- ts_v o t (e / c)) (ts_w o t (e / c))) t2].
Proof.
  intros N1 N2 HP c t o He Hw HG.
  assert (EC : c = sqrt (w_var beta tau t1 + w_var beta tau t2)) by (unfold c, w_var; now rewrite map_app, Rsum_app).
  rewrite (multi_core _ _ _ [map Fin (map snd t1); map Fin (map snd t2)]).
  2: { discriminate. }
  2: { repeat constructor; cbn [fst tsr_in tst_in]; unfold tst_in; [destruct t1|destruct t2]; cbn; congruence. }
  2: { exact HG. }
  cbv zeta. unfold enumerate. cbn [combine length seq]. unfold sort_by_key, insert_by_key, trank. cbn [snd fst tsr_in].
  unfold mto_rank. cbn [mto_rank_field].
  destruct (N.leb_spec k1 k2) as [L|L].
  - cbn [map snd fst]. pose proof (core_two t1 t2 beta tau N1 N2 HP k1 k2 dp e) as K. cbv zeta in K. rewrite <- EC in K.
    assert (EV : (if (k1 =? k2)%N then vdraw ((w_mean t1 - w_mean t2) / c) (e / c) else vwin ((w_mean t1 - w_mean t2) / c) (e / c)) = ts_v o t (e / c)).
    { unfold o, rank_outcome, t. destruct (N.compare_spec k1 k2) as [E|E|E]; [subst; now rewrite N.eqb_refl|rewrite (proj2 (N.eqb_neq k1 k2)) by lia; reflexivity|lia]. }
    assert (EW : (if (k1 =? k2)%N then wdraw ((w_mean t1 - w_mean t2) / c) (e / c) else wwin ((w_mean t1 - w_mean t2) / c) (e / c)) = ts_w o t (e / c)).
    { unfold o, rank_outcome, t. destruct (N.compare_spec k1 k2) as [E|E|E]; [subst; now rewrite N.eqb_refl|rewrite (proj2 (N.eqb_neq k1 k2)) by lia; reflexivity|lia]. }
    rewrite EV, EW in K. rewrite K by auto. cbn [combine fst snd N.of_nat map]. reflexivity.
  - cbn [map snd fst]. assert (HP' : Forall (fun x : wpl => 0 < snd (fst x) /\ 0 < snd x) (t2 ++ t1)) by (apply Forall_app in HP; apply Forall_app; tauto).
    pose proof (core_two t2 t1 beta tau N2 N1 HP' k2 k1 dp e) as K. cbv zeta in K. rewrite Rplus_comm, <- EC in K.
    rewrite (proj2 (N.eqb_neq k2 k1)) in K by lia.
    assert (EO : o = LOSS). { unfold o, rank_outcome. destruct (N.compare_spec k1 k2); auto; lia. }
    assert (ET : (w_mean t2 - w_mean t1) / c = - t) by (unfold t, Rdiv; ring). rewrite ET in K. rewrite EO in *. cbn [ts_v ts_w] in *.
    rewrite K; [|rewrite Nat.add_comm; exact He|exact Hw]. cbn [combine fst snd N.of_nat map]. rewrite Ropp_involutive. reflexivity.
Qed.
Lemma C53_proof : forall (t1 t2 : list wpl) k1 k2 dp beta tau,
  t1 <> [] -> t2 <> [] -> Forall (fun x : wpl => 0 < snd (fst x) /\ 0 < snd x) (t1 ++ t2) ->
  let c := sqrt (w_var beta tau (t1 ++ t2)) in let t := (w_mean t1 - w_mean t2) / c in let o := rank_outcome k1 k2 in
  exists e, ts_draw_margin (Fin dp) (Fin beta) (Fin (INR (length t1 + length t2))) = Fin e /\
  (0 < ts_w o t (e / c) < 1 ->
   trueskill_multi_team [tsr_in (map fst t1, k1); tsr_in (map fst t2, k2)] (ts_cfg dp beta tau) (Some [map Fin (map snd t1); map Fin (map snd t2)]) =
   Ok [map (w_out tau c (ts_v o t (e / c)) (ts_w o t (e / c))) t1; map (w_out tau c (- ts_v o t (e / c)) (ts_w o t (e / c))) t2]).
Proof.
  intros t1 t2 k1 k2 dp beta tau N1 N2 HP c t o. pose proof (draw_margin_eval dp beta _ (pos_INR (length t1 + length t2))) as He. eexists. split; [exact He|].
  intros Hw. apply two_get; auto. apply get_weights_ok. apply Forall_app in HP as [P1 P2].
  assert (W : forall t : list wpl, Forall (fun x : wpl => 0 < snd (fst x) /\ 0 < snd x) t -> length (map Fin (map snd t)) = length (tst_in (map fst t)) /\ Forall (fun x => ~ neg_weight x) (map Fin (map snd t))).
  { intros t' P. unfold tst_in. rewrite !map_length. split; auto. rewrite map_map. apply Forall_map. eapply Forall_impl; [|exact P]. cbn beta. intros x [_ Hx]. unfold neg_weight.
    rewrite xr_ofZ, xr_ltb. intros Z. destruct (Rltb_spec (snd x) 0); [lra|discriminate]. }
  constructor; [auto|]. constructor; [auto|constructor].
Qed.

Definition wone (p : R * R) : wpl := (p, 1).
Lemma wone_fst t : map fst (map wone t) = t. Proof. rewrite map_map. apply map_id. Qed.
Lemma wone_mean t : w_mean (map wone t) = side_mu t.
Proof. unfold w_mean, side_mu. rewrite map_map. f_equal. apply map_ext. intros p. cbn. ring. Qed.
Lemma wone_var beta tau t : w_var beta tau (map wone t) = INR (length t) * (beta ^ 2 + tau ^ 2) + side_var t.
Proof.
  unfold w_var, side_var. rewrite map_map. induction t as [|p t IH]; [cbn [map length]; rewrite !Rsum_nil; cbn [INR]; ring|]. cbn [map length]. rewrite !Rsum_cons, IH, S_INR. cbn [fst snd wone]. ring.
Qed.
Lemma in_le_sum {X} (f : X -> R) l x : (forall y, In y l -> 0 <= f y) -> In x l -> f x <= Rsum (map f l).
Proof.
  induction l as [|y l IH]; [contradiction|]. intros H [->|I]; cbn [map]; rewrite Rsum_cons.
  - assert (0 <= Rsum (map f l)); [|lra]. apply Rsum_nonneg. intros z Hz. apply in_map_iff in Hz as (w & <- & Hw). apply H. now right.
  - assert (0 <= f y) by (apply H; now left). assert (f x <= Rsum (map f l)) by (apply IH; auto; intros; apply H; now right). lra.
Qed.
Lemma C53_default_proof : forall (t1 t2 : list (R * R)) k1 k2 dp beta tau,
  t1 <> [] -> t2 <> [] -> Forall (fun p => 0 < snd p) (t1 ++ t2) ->
  let n := INR (length t1 + length t2) in
  let c := sqrt (n * (beta ^ 2 + tau ^ 2) + side_var t1 + side_var t2) in let t := (side_mu t1 - side_mu t2) / c in let o := rank_outcome k1 k2 in
  exists e, ts_draw_margin (Fin dp) (Fin beta) (Fin n) = Fin e /\
  (0 < ts_w o t (e / c) < 1 ->
   trueskill_multi_team [tsr_in (t1, k1); tsr_in (t2, k2)] (ts_cfg dp beta tau) None =
   Ok [map (ts_out tau c (ts_v o t (e / c)) (ts_w o t (e / c))) t1; map (ts_out tau c (- ts_v o t (e / c)) (ts_w o t (e / c))) t2]).
Proof.
  intros t1 t2 k1 k2 dp beta tau N1 N2 HP n c t o. pose proof (draw_margin_eval dp beta _ (pos_INR (length t1 + length t2))) as He. fold n in He. eexists. split; [exact He|].
  set (e := unit_margin dp * sqrt n * beta) in *. intros Hw.
  assert (EC : c = sqrt (w_var beta tau (map wone t1 ++ map wone t2))).
  { unfold c. f_equal. rewrite <- map_app, wone_var, app_length. fold n. unfold side_var. rewrite map_app, Rsum_app. ring. }
  assert (ET : t = (w_mean (map wone t1) - w_mean (map wone t2)) / c) by (unfold t; now rewrite !wone_mean).
  assert (HP' : Forall (fun x : wpl => 0 < snd (fst x) /\ 0 < snd x) (map wone t1 ++ map wone t2)).
  { rewrite <- map_app. apply Forall_map. eapply Forall_impl; [|exact HP]. cbn. intros; lra. }
  pose proof (two_get (map wone t1) (map wone t2) k1 k2 dp beta tau None e) as K. cbv zeta in K. rewrite <- EC, <- ET in K. rewrite !wone_fst, !map_length in K. fold n o in K.
  rewrite K; auto.
  - f_equal.
    assert (CV : c ^ 2 = w_var beta tau (map wone t1 ++ map wone t2)).
    { rewrite EC, <- Rsqr_pow2. apply Rsqr_sqrt. apply Rlt_le, w_var_pos; auto. destruct t1; [congruence|discriminate]. }
    assert (CP : 0 < c ^ 2). { rewrite CV. apply w_var_pos; auto. destruct t1; [congruence|discriminate]. }
    assert (G : forall v p, In p (t1 ++ t2) -> w_out tau c v (ts_w o t (e / c)) (wone p) = ts_out tau c v (ts_w o t (e / c)) p).
    { intros v p I. unfold w_out, ts_out, ts_mu', ts_var', wone. cbn [fst snd]. rewrite Forall_forall in HP. pose proof (HP p I) as PP. set (S := snd p ^ 2 + tau ^ 2). set (w := ts_w o t (e / c)) in *.
      assert (SP : 0 < S). { unfold S. pose proof (pow2_ge_0 tau). assert (0 < snd p ^ 2) by now apply pow_lt. lra. }
      assert (SC : S <= c ^ 2).
      { rewrite CV, <- map_app. unfold w_var. rewrite map_map. apply (Rle_trans _ (1 ^ 2 * (snd p ^ 2 + tau ^ 2 + beta ^ 2))).
        - pose proof (pow2_ge_0 beta). unfold S. lra.
        - apply (in_le_sum (fun x => snd (wone x) ^ 2 * (snd (fst (wone x)) ^ 2 + tau ^ 2 + beta ^ 2)) (t1 ++ t2) p); auto. intros y _. cbn [wone fst snd]. pose proof (pow2_ge_0 beta). pose proof (pow2_ge_0 tau). pose proof (pow2_ge_0 (snd y)). lra. }
      assert (WS : w * S / c ^ 2 <= 1). { apply (Rmult_le_reg_r (c ^ 2)); [lra|]. unfold Rdiv. rewrite Rmult_assoc, Rinv_l, Rmult_1_r, Rmult_1_l by lra. nra. }
      f_equal; [f_equal; unfold Rdiv; ring|]. unfold std. destruct (Rlt_dec (S * (1 - w * S / c ^ 2)) 0) as [L|L]; [exfalso; assert (0 <= S * (1 - w * S / c ^ 2)) by (apply Rmult_le_pos; lra); lra|].
      do 2 f_equal. unfold Rdiv. ring. }
    f_equal; [|f_equal]; rewrite map_map; apply map_ext_in; intros p I; apply G, in_app_iff; auto.
  - destruct t1; [congruence|discriminate].
  - destruct t2; [congruence|discriminate].
  - assert (RP : forall l : list (R * R), repeat (#1)%flt (length (tst_in l)) = map Fin (map snd (map wone l))).
    { intros l. unfold tst_in. rewrite map_length, xr_ofZ. induction l as [|p l IH]; [reflexivity|]. cbn [length repeat map snd wone]. now rewrite IH. }
    unfold get_weights. cbn [map]. now rewrite !RP.
Qed.
Lemma C84_agree_proof : forall (t1 t2 : list (R * R)) k1 k2 dp beta,
  t1 <> [] -> t2 <> [] -> Forall (fun p => 0 < snd p) (t1 ++ t2) ->
  let n := INR (length t1 + length t2) in
  let c := sqrt (n * beta ^ 2 + side_var t1 + side_var t2) in let t := (side_mu t1 - side_mu t2) / c in let o := rank_outcome k1 k2 in
  exists e, ts_draw_margin (Fin dp) (Fin beta) (Fin n) = Fin e /\
  (0 < ts_w o t (e / c) < 1 ->
   let '(r1, r2) := trueskill_two_teams (tst_in t1) (tst_in t2) o (ts_cfg dp beta 0) in
   trueskill_multi_team [tsr_in (t1, k1); tsr_in (t2, k2)] (ts_cfg dp beta 0) None = Ok [r1; r2]).
Proof.
  intros t1 t2 k1 k2 dp beta N1 N2 HP n c t o. destruct (C53_default_proof t1 t2 k1 k2 dp beta 0 N1 N2 HP) as (e & E1 & E2). fold n in E1. exists e. split; [exact E1|]. intros Hw.
  apply Forall_app in HP as [P1 P2].
  assert (OK : forall l, l <> [] -> Forall (fun p : R * R => 0 < snd p) l -> wl_ok l) by (intros l N P; split; auto).
  destruct (C51_formula_proof t1 t2 o dp beta 0 (OK _ N1 P1) (OK _ N2 P2)) as (e' & F1 & F2). cbv zeta in F2. fold n in F1, F2. fold c in F2. fold t in F2.
  assert (e' = e) by (rewrite E1 in F1; now injection F1). subst e'. rewrite F2. cbv zeta in E2. fold n o in E2.
  replace (n * (beta ^ 2 + 0 ^ 2)) with (n * beta ^ 2) in E2 by ring. fold c in E2. fold t in E2. now apply E2.
Qed.

Lemma vwin_diag x : vwin x x = phi 0 / Phi 0.
Proof. pose proof Phi_0. pose proof tiny_small. unfold vwin. rewrite Rminus_diag_eq by auto. destruct (Rlt_dec _ _); [lra|reflexivity]. Qed.
Lemma v0_range : 0 < phi 0 / Phi 0 < 1.
Proof.
  pose proof Phi_0. pose proof (phi_pos 0). split; [apply Rdiv_lt_0_compat; lra|].
  assert (phi 0 < 1 / 2).
  { unfold phi. replace (- (0 ^ 2 / 2)) with 0 by field. rewrite exp_0. pose proof PI_bounds. assert (Q : sqrt (2 * 2) < sqrt (2 * PI)) by (apply sqrt_lt_1; lra). rewrite sqrt_square in Q by lra.
    unfold Rdiv. rewrite !Rmult_1_l. apply Rinv_lt_contravar; lra. }
  apply (Rmult_lt_reg_r (Phi 0)); [lra|]. unfold Rdiv. rewrite Rmult_assoc, Rinv_l by lra. lra.
Qed.
Lemma wwin_diag x : 0 < wwin x x < 1.
Proof.
  pose proof Phi_0. pose proof tiny_small. unfold wwin. rewrite vwin_diag. rewrite Rminus_diag_eq by auto. destruct (Rlt_dec _ _); [lra|].
  pose proof v0_range. replace (phi 0 / Phi 0 * (phi 0 / Phi 0 + x - x)) with ((phi 0 / Phi 0) * (phi 0 / Phi 0)) by ring. nra.
Qed.
Lemma C84_refuted_proof : forall dp beta tau s1 s2, tau <> 0 -> 0 < s1 -> 0 < s2 ->
  exists m1 m2, let p1 := (m1, s1) in let p2 := (m2, s2) in
    let '(r1, r2) := trueskill_two_teams (tst_in [p1]) (tst_in [p2]) WIN (ts_cfg dp beta tau) in
    trueskill_multi_team [tsr_in ([p1], 1%N); tsr_in ([p2], 2%N)] (ts_cfg dp beta tau) None <> Ok [r1; r2].
Proof.
  intros dp beta tau s1 s2 Ht H1 H2.
  destruct (C53_default_proof [(0, s1)] [(0, s2)] 1 2 dp beta tau) as (e & E1 & _); [discriminate|discriminate|repeat constructor; auto|]. cbn [length Nat.add] in E1.
  exists e, 0. cbv zeta.
  assert (OK1 : forall m s, 0 < s -> wl_ok [(m, s)]) by (intros; split; [discriminate|repeat constructor; auto]).
  destruct (C53_default_proof [(e, s1)] [(0, s2)] 1 2 dp beta tau) as (e2 & E2 & E3); [discriminate|discriminate|repeat constructor; auto|].
  destruct (C51_formula_proof [(e, s1)] [(0, s2)] WIN dp beta tau (OK1 _ _ H1) (OK1 _ _ H2)) as (e3 & E4 & E5). cbv zeta in E3, E5. cbn [length Nat.add] in *.
  assert (e2 = e) by (rewrite E1 in E2; now injection E2). assert (e3 = e) by (rewrite E1 in E4; now injection E4). subst e2 e3.
  change (rank_outcome 1 2) with WIN in E3. rewrite E5.
  set (c := sqrt (INR 2 * (beta ^ 2 + tau ^ 2) + side_var [(e, s1)] + side_var [(0, s2)])) in *.
  set (c' := sqrt (INR 2 * beta ^ 2 + side_var [(e, s1)] + side_var [(0, s2)])) in *.
  assert (SV : forall m s, side_var [(m, s)] = s ^ 2) by (intros; unfold side_var; cbn [map snd]; rewrite Rsum_cons, Rsum_nil; ring).
  assert (SM : forall m s, side_mu [(m, s)] = m) by (intros; unfold side_mu; cbn [map fst]; rewrite Rsum_cons, Rsum_nil; ring).
  rewrite !SM in *. rewrite !Rminus_0_r in *. cbn [ts_v ts_w] in *. rewrite E3 by apply wwin_diag. rewrite !vwin_diag. cbn [map]. intros Z.
  assert (Z1 : ts_rating (ts_out tau c (phi 0 / Phi 0) (wwin (e / c) (e / c)) (e, s1)) = ts_rating (ts_out tau c' (phi 0 / Phi 0) (wwin (e / c') (e / c')) (e, s1))) by congruence.
  unfold ts_out in Z1. cbn [ts_rating] in Z1. injection Z1 as Z1. unfold ts_mu' in Z1. cbn [fst snd] in Z1. pose proof v0_range as V0.
  assert (0 < tau ^ 2) by (rewrite <- Rsqr_pow2; apply Rsqr_pos_lt; auto). pose proof (pow2_ge_0 beta) as B0. assert (0 < s1 ^ 2) by now apply pow_lt. assert (0 < s2 ^ 2) by now apply pow_lt.
  assert (CP' : 0 < c') by (unfold c'; apply sqrt_lt_R0; rewrite !SV; cbn [INR]; lra).
  assert (CL : c' < c) by (unfold c, c'; apply sqrt_lt_1; rewrite !SV; cbn [INR]; lra).
  assert (K : (s1 ^ 2 + tau ^ 2) / c * (phi 0 / Phi 0) < (s1 ^ 2 + tau ^ 2) / c' * (phi 0 / Phi 0)); [|lra].
  apply Rmult_lt_compat_r; [lra|]. apply Rmult_lt_compat_l; [lra|]. apply Rinv_lt_contravar; nra.
Qed.

(** ** C79: a weight of zero *)
Lemma core_zero (t1 t2 : list wpl) k1 k2 dp beta tau e :
  t1 <> [] -> t2 <> [] -> Forall (fun x : wpl => 0 < snd (fst x)) (t1 ++ t2) -> 0 < w_var beta tau t1 -> 0 < w_var beta tau t2 -> snd (nth 0 t1 pl_d) = 0 ->
  let c := sqrt (w_var beta tau t1 + w_var beta tau t2) in let D := w_mean t1 - w_mean t2 in
  let draw := N.eqb k1 k2 in
  let w := if draw then wdraw (D / c) (e / c) else wwin (D / c) (e / c) in
  ts_draw_margin (Fin dp) (Fin beta) (Fin (INR (length t1 + length t2))) = Fin e -> 0 < w < 1 ->
  exists r1 r2, ts_core (ts_cfg dp beta tau) [(tsr_in (map fst t1, k1), map Fin (map snd t1)); (tsr_in (map fst t2, k2), map Fin (map snd t2))] =
    Some [mkTS NaN NaN :: r1; r2].
Proof.
  intros N1 N2 HP V1 V2 Z0 c D draw w He Hw. unfold ts_core. cbn [ts_cfg ts_dynamics_factor ts_beta ts_draw_probability map fst snd concat tsr_in].
  set (a := length t1). set (b := length t2). set (l := t1 ++ t2) in *. set (ps := map fst l). set (ws := map snd l).
  assert (SZ : team_sizes [tst_in (map fst t1); tst_in (map fst t2)] = [a; (a + b)%nat]).
  { unfold team_sizes, tst_in. cbn [map]. rewrite !map_length. reflexivity. }
  cbn [map fst snd] in SZ. rewrite SZ. cbv zeta. rewrite !app_nil_r.
  assert (EP : tst_in (map fst t1) ++ tst_in (map fst t2) = map ts_in ps) by (unfold tst_in, ps, l; now rewrite !map_app).
  assert (EW : map Fin (map snd t1) ++ map Fin (map snd t2) = map Fin ws) by (unfold ws, l; now rewrite !map_app).
  rewrite EP, EW.
  set (trs := [(tst_in (map fst t1), mkMTO k1); (tst_in (map fst t2), mkMTO k2)]).
  assert (LL : length l = (a + b)%nat) by apply app_length.
  assert (LPS : length ps = (a + b)%nat) by (unfold ps; now rewrite map_length). assert (LWS : length ws = (a + b)%nat) by (unfold ws; now rewrite map_length).
  assert (Ha : (0 < a)%nat) by (unfold a; destruct t1; [congruence|cbn; lia]). assert (Hb : (0 < b)%nat) by (unfold b; destruct t2; [congruence|cbn; lia]).
  rewrite Forall_forall in HP.
  assert (HS : forall i, (i < a + b)%nat -> snd (nth i ps (0, 0)) <> 0).
  { intros i Hi. unfold ps, l. rewrite nth_ps. apply Rgt_not_eq. apply HP, nth_In. fold l. lia. }
  assert (HV : forall t, (t < 2)%nat -> 0 < Vt a b ps ws tau beta t).
  { intros t Ht. unfold a, b, ps, ws, l. rewrite Vt_eq by auto. destruct t as [|[|t]]; cbn; auto; lia. }
  assert (EC : cc a b ps ws tau beta = c) by (unfold cc, c; f_equal; apply (Cq_eq t1 t2)).
  assert (EW' : wv a b ps ws tau beta e draw = w) by (unfold wv, w, D; now rewrite <- (Dif_eq t1 t2), EC).
  assert (Hwv : 0 < wv a b ps ws tau beta e draw < 1) by now rewrite EW'.
  destruct (safe_schedule (fun _ => var_new) [a; (a + b)%nat] trs (map ts_in ps) (map Fin ws) (Fin tau) (Fin beta) (Fin dp) ts_min_delta) as (s & layer & ER & _).
  { reflexivity. }
  { now rewrite !map_length, LPS, LWS. }
  { apply Forall_map, Forall_forall. intros [m u] I. apply xr_good_player. apply in_map_iff in I as (x & E & I). apply HP in I. rewrite E in I. cbn in I. lra. }
  change [tsr_in (map fst t1, k1); tsr_in (map fst t2, k2)] with trs. rewrite ER.
  destruct (run_zero a b ps ws tau beta LPS LWS Ha Hb HS HV e draw Hwv trs (Fin dp) ts_min_delta s layer) as (-> & G); auto.
  { unfold wi, ws, l. rewrite nth_ws. destruct t1; [congruence|]. exact Z0. }
  { unfold trs. cbn [nth fst]. rewrite <- He. f_equal. unfold flen, tst_in. rewrite !map_length. rewrite !xr_ofZ. unfold fsum. cbn [fold_left].
    change (fsum0 : XR) with (Fin 0). rewrite !xr_add, <- !INR_IZR_INZ, plus_INR, Rplus_0_l. reflexivity. }
  unfold read_groups. change (length [a; (a + b)%nat]) with 2%nat. cbn [seq map].
  rewrite (slice_nth a b ps ws LPS LWS Ha Hb _ (priorf ps tau 0) 0) by (unfold prior_layer; rewrite ?map_length, ?seq_length; auto).
  cbn [sz off Nat.add]. replace (seq 0 a) with (0%nat :: seq 1 (a - 1)) by (destruct a; [lia|cbn [seq]; now rewrite Nat.sub_succ, Nat.sub_0_r]). cbn [map]. assert (NP : nth 0 (prior_layer a b ps tau) (priorf ps tau 0) = priorf ps tau 0).
  { unfold prior_layer. rewrite (map_nth (priorf ps tau)), seq_nth by lia. reflexivity. }
  rewrite NP. cbn [priorf pf_variable].
  unfold gauss in G. rewrite G. 
  change (g_mu (mkG NaN NaN)) with (NaN : XR). change (g_sigma (mkG NaN NaN)) with (NaN : XR). eauto.
Qed.
Lemma C79_zero_proof : forall (p : R * R) (t1 t2 : list wpl) k1 k2 dp beta tau,
  (k1 <= k2)%N -> t1 <> [] -> t2 <> [] -> 0 < snd p -> Forall (fun x : wpl => 0 < snd (fst x) /\ 0 < snd x) (t1 ++ t2) ->
  let t1' := (p, 0) :: t1 in
  let c := sqrt (w_var beta tau (t1' ++ t2)) in let t := (w_mean t1' - w_mean t2) / c in let o := rank_outcome k1 k2 in
  exists e, ts_draw_margin (Fin dp) (Fin beta) (Fin (INR (length t1' + length t2))) = Fin e /\
  (0 < ts_w o t (e / c) < 1 ->
   exists r1 r2, trueskill_multi_team [tsr_in (map fst t1', k1); tsr_in (map fst t2, k2)] (ts_cfg dp beta tau) (Some [map Fin (map snd t1'); map Fin (map snd t2)]) =
     Ok [mkTS NaN NaN :: r1; r2]).
Proof.
  intros p t1 t2 k1 k2 dp beta tau HK N1 N2 Hp HP t1' c t o. pose proof (draw_margin_eval dp beta _ (pos_INR (length t1' + length t2))) as He. eexists. split; [exact He|].
  set (e := unit_margin dp * sqrt (INR (length t1' + length t2)) * beta) in *. intros Hw.
  assert (EC : c = sqrt (w_var beta tau t1' + w_var beta tau t2)) by (unfold c, w_var; now rewrite map_app, Rsum_app).
  assert (N1' : t1' <> []) by discriminate. assert (HPs := HP). apply Forall_app in HP as [P1 P2].
  assert (Z0 : snd (nth 0 t1' pl_d) = 0) by reflexivity.
  assert (V1 : 0 < w_var beta tau t1').
  { pose proof (w_var_pos beta tau t1 N1 P1) as V. unfold w_var in *. unfold t1'. cbn [map]. rewrite Rsum_cons. cbn [snd]. lra. }
  assert (PA : Forall (fun x : wpl => 0 < snd (fst x)) (t1' ++ t2)).
  { unfold t1'. cbn [app]. constructor; [exact Hp|]. eapply Forall_impl; [|exact HPs]. cbn beta. intros; tauto. }
  assert (PN : Forall (fun x : wpl => 0 <= snd x) t1').
  { constructor; [cbn; lra|]. eapply Forall_impl; [|exact P1]. cbn beta; intros; lra. }
  clearbody t1'. clear P1 N1 HPs Hp p t1.
  rewrite (multi_core _ _ _ [map Fin (map snd t1'); map Fin (map snd t2)]).
  2: { discriminate. }
  2: { repeat constructor; cbn [fst tsr_in]; unfold tst_in; [destruct t1'|destruct t2]; cbn; congruence. }
  2: { apply get_weights_ok.
       assert (W : forall t : list wpl, Forall (fun x : wpl => 0 <= snd x) t -> length (map Fin (map snd t)) = length (tst_in (map fst t)) /\ Forall (fun x => ~ neg_weight x) (map Fin (map snd t))).
       { intros t' P. unfold tst_in. rewrite !map_length. split; auto. rewrite map_map. apply Forall_map. eapply Forall_impl; [|exact P]. cbn beta. intros x Hx. unfold neg_weight.
         rewrite xr_ofZ, xr_ltb. intros Z. destruct (Rltb_spec (snd x) 0); [lra|discriminate]. }
       constructor; [|constructor; [|constructor]]; apply W; auto. eapply Forall_impl; [|exact P2]. cbn beta; intros; lra. }
  cbv zeta. unfold enumerate. cbn [combine length seq]. unfold sort_by_key, insert_by_key, trank. cbn [snd fst tsr_in].
  unfold mto_rank. cbn [mto_rank_field]. rewrite (proj2 (N.leb_le k1 k2) HK). cbn [map snd fst].
  destruct (core_zero t1' t2 k1 k2 dp beta tau e) as (r1 & r2 & K); auto.
  { now apply w_var_pos. }
  { rewrite <- EC. fold t. unfold o, rank_outcome in Hw. destruct (N.compare_spec k1 k2) as [E|E|E]; [subst; now rewrite N.eqb_refl|rewrite (proj2 (N.eqb_neq k1 k2)) by lia; exact Hw|lia]. }
  rewrite K. exists r1, r2. reflexivity.
Qed.
(** For every configuration there is such a game. *)
Lemma C79_refuted_proof : forall dp beta tau s1 s2 s3, 0 < s1 -> 0 < s2 -> 0 < s3 ->
  exists m1 m2 m3 r1 r2, trueskill_multi_team [tsr_in ([(m1, s1); (m2, s2)], 1%N); tsr_in ([(m3, s3)], 2%N)] (ts_cfg dp beta tau) (Some [[Fin 0; Fin 1]; [Fin 1]]) =
    Ok [mkTS NaN NaN :: r1; r2].
Proof.
  intros dp beta tau s1 s2 s3 H1 H2 H3. pose proof (draw_margin_eval dp beta 3 ltac:(lra)) as He. set (e := unit_margin dp * sqrt 3 * beta) in *.
  destruct (C79_zero_proof (0, s1) [((e, s2), 1)] [((0, s3), 1)] 1 2 dp beta tau) as (e' & E & K); [lia|discriminate|discriminate|exact H1|repeat constructor; cbn; lra|].
  cbn [length Nat.add] in E. replace (INR 3) with 3 in E by (cbn [INR]; ring). assert (e' = e) by (rewrite He in E; now injection E). subst e'.
  exists 0, e, 0. apply K. cbn [rank_outcome N.compare ts_w]. change (rank_outcome 1 2) with WIN. cbn [ts_w].
  assert (EM : w_mean [((0, s1), 0); ((e, s2), 1)] - w_mean [((0, s3), 1)] = e).
  { unfold w_mean. cbn [map fst snd]. rewrite !Rsum_cons, !Rsum_nil. ring. }
  rewrite EM. apply wwin_diag.
Qed.
