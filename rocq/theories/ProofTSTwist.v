(** Proofs of C121 for TrueSkill rating periods. *)
From Coq Require Import ZArith NArith List Bool Reals Lra Lia.
From Verif Require Import Arith XR Tac ModelLib ModelTS Spec SpecTS SpecInTS MathTS MathTSMono ProofTS ProofTSOrder ProofTSManyTop.
Import Spec ListNotations.
Local Open Scope R_scope.

Lemma ts_period_2 p q o q' o' cfg : trueskill_rating_period p [(q, o); (q', o')] cfg = fst (trueskill (fst (trueskill p q o cfg)) q' o' (cfg : TrueSkillConfig XR)).
Proof. rewrite (proj1 (C57_proof _ _ p [(q, o); (q', o')] [] cfg)). reflexivity. Qed.
(** A loss against a far weaker opponent costs a fixed share of the difference. *)
Lemma far_loss m s m3 s3 dp beta tau e : 0 < s -> 0 < s3 -> ts_draw_margin (Fin dp) (Fin beta) (Fin 2) = Fin e ->
  let c2 := 2 * beta ^ 2 + s ^ 2 + s3 ^ 2 in m3 <= m - (20 * sqrt 2 * sqrt c2 + Rabs e) ->
  ts_rating (fst (trueskill (ts_in (m, s)) (ts_in (m3, s3)) LOSS (ts_cfg dp beta tau))) = Fin (m - (s ^ 2 + tau ^ 2) / c2 * (e + (m - m3))).
Proof.
  intros H H3 He c2 Hm. destruct (ts_rate m s m3 s3 LOSS dp beta tau e H H3 He) as (Hc & HV & ->). fold c2 in Hc |- *. set (c := sqrt c2) in *. cbn [ts_v].
  assert (C2 : c ^ 2 = c2). { unfold c. apply pow2_sqrt. unfold c2. pose proof (pow2_ge_0 beta). pose proof (pow2_ge_0 s). pose proof (pow2_ge_0 s3). lra. }
  rewrite vwin_vx, vx_in.
  - f_equal. rewrite <- C2. field. lra.
  - apply Phi_far. pose proof (Rle_abs (- e)) as A. rewrite Rabs_Ropp in A. apply Rmult_le_reg_r with c; [lra|].
    replace ((- ((m - m3) / c) - e / c) * c) with (- (m - m3) - e) by (field; lra). fold c in Hm. nra.
Qed.
Lemma share_lt a b k q : 0 < a < b -> 0 <= k -> 0 < q -> (k < q) -> (a + k) / (q + a) < (b + k) / (q + b).
Proof. intros [Ha Hb] Hk Hq L. apply Rmult_lt_reg_r with ((q + a) * (q + b)); [nra|]. replace ((a + k) / (q + a) * ((q + a) * (q + b))) with ((a + k) * (q + b)) by (field; lra).
  replace ((b + k) / (q + b) * ((q + a) * (q + b))) with ((b + k) * (q + a)) by (field; lra). nra. Qed.
Lemma C121_ts_refuted_proof : forall m s s2 s3 dp beta tau, 0 < s -> 0 < s2 -> 0 < s3 -> tau ^ 2 < 2 * beta ^ 2 + s2 ^ 2 -> tau ^ 2 < 2 * beta ^ 2 + s3 ^ 2 ->
  exists m2 m3 a b,
  ts_rating (trueskill_rating_period (ts_in (m, s)) [(ts_in (m2, s2), WIN); (ts_in (m3, s3), LOSS)] (ts_cfg dp beta tau)) = Fin a /\
  ts_rating (trueskill_rating_period (ts_in (m, s)) [(ts_in (m2, s2), LOSS); (ts_in (m3, s3), LOSS)] (ts_cfg dp beta tau)) = Fin b /\ a < b.
Proof.
  intros m s s2 s3 dp beta tau H H2 H3 T2 T3. destruct (C50_proof m s 0 s2 WIN dp beta tau H H2) as (e & _ & _ & He & _).
  set (c := sqrt (2 * beta ^ 2 + s ^ 2 + s2 ^ 2)). pose proof (pow2_ge_0 beta) as B0. pose proof (pow2_ge_0 tau) as T0. assert (P : 0 < s ^ 2) by (apply pow_lt; auto).
  assert (P2 : 0 < s2 ^ 2) by (apply pow_lt; auto). assert (P3 : 0 < s3 ^ 2) by (apply pow_lt; auto).
  assert (C : 0 < c) by (apply sqrt_lt_R0; lra). assert (C2 : c ^ 2 = 2 * beta ^ 2 + s ^ 2 + s2 ^ 2) by (apply pow2_sqrt; lra).
  pose proof (sqrt_lt_R0 2 ltac:(lra)) as S2. set (t := 20 * sqrt 2 + Rabs (e / c)). set (m2 := m - c * t). exists m2.
  destruct (C50_proof m s m2 s2 WIN dp beta tau H H2) as (ew & mw & mw' & Ew & Emw & _ & EW & _). rewrite He in Ew. injection Ew as <-.
  destruct (C50_proof m s m2 s2 LOSS dp beta tau H H2) as (el & ml & ml' & El & Eml & _ & EL & _). rewrite He in El. injection El as <-.
  fold c in EW, EL, Emw, Eml. replace ((m - m2) / c) with t in * by (unfold m2; field; lra). cbn [ts_w] in EW, EL.
  pose proof (Rle_abs (e / c)) as A1. pose proof (Rle_abs (- (e / c))) as A2. rewrite Rabs_Ropp in A2.
  destruct (vw_ratio t (e / c) ltac:(unfold t; lra)) as ([W0 W1] & _ & _).
  assert (L1 : wwin (- t) (e / c) = 1).
  { unfold wwin. destruct (Rlt_dec (Phi (- t - e / c)) tiny) as [|n]; [|destruct n; apply Phi_far; unfold t; lra]. destruct (Rlt_dec (- t) 0) as [|n]; [auto|]. destruct n. unfold t. pose proof (Rabs_pos (e / c)). lra. }
  rewrite L1 in EL. set (V := s ^ 2 + tau ^ 2) in *. assert (HV : 0 < V) by (unfold V; lra). set (w := wwin t (e / c)) in *.
  assert (R1 : 0 < V / c ^ 2 < 1). { split; [apply Rdiv_lt_0_compat; [auto|apply pow_lt; auto]|]. apply Rmult_lt_reg_r with (c ^ 2); [apply pow_lt; auto|]. unfold Rdiv. rewrite Rmult_assoc, Rinv_l by (apply pow_nonzero; lra). rewrite C2. unfold V. lra. }
  set (x := V * (1 - w * V / c ^ 2)) in *. set (y := V * (1 - 1 * V / c ^ 2)) in *.
  assert (Y : 0 < y). { unfold y. apply Rmult_lt_0_compat; [auto|]. unfold Rdiv in *. lra. }
  assert (YX : y < x). { unfold x, y. apply Rmult_lt_compat_l; [auto|]. unfold Rdiv in *. rewrite Rmult_1_l, Rmult_assoc. nra. }
  unfold std in EW, EL. destruct (Rlt_dec x 0); [lra|]. destruct (Rlt_dec y 0); [lra|].
  set (sw := sqrt x) in *. set (sl := sqrt y) in *. assert (Sw : 0 < sw) by (apply sqrt_lt_R0; lra). assert (Sl : 0 < sl) by (apply sqrt_lt_R0; lra).
  assert (Qw : sw ^ 2 = x) by (apply pow2_sqrt; lra). assert (Ql : sl ^ 2 = y) by (apply pow2_sqrt; lra).
  set (kw := (sw ^ 2 + tau ^ 2) / (2 * beta ^ 2 + sw ^ 2 + s3 ^ 2)). set (kl := (sl ^ 2 + tau ^ 2) / (2 * beta ^ 2 + sl ^ 2 + s3 ^ 2)).
  assert (K : kl < kw). { unfold kl, kw. rewrite Qw, Ql. replace (2 * beta ^ 2 + x + s3 ^ 2) with ((2 * beta ^ 2 + s3 ^ 2) + x) by ring. replace (2 * beta ^ 2 + y + s3 ^ 2) with ((2 * beta ^ 2 + s3 ^ 2) + y) by ring. apply share_lt; lra. }
  set (g := 20 * sqrt 2 * sqrt (2 * beta ^ 2 + sw ^ 2 + s3 ^ 2) + 20 * sqrt 2 * sqrt (2 * beta ^ 2 + sl ^ 2 + s3 ^ 2) + Rabs e).
  assert (G1 : 0 <= 20 * sqrt 2 * sqrt (2 * beta ^ 2 + sw ^ 2 + s3 ^ 2)) by (repeat apply Rmult_le_pos; try apply sqrt_pos; lra).
  assert (G2 : 0 <= 20 * sqrt 2 * sqrt (2 * beta ^ 2 + sl ^ 2 + s3 ^ 2)) by (repeat apply Rmult_le_pos; try apply sqrt_pos; lra).
  set (D := (Rabs (mw - kw * (e + mw) - (ml - kl * (e + ml))) + 1) / (kw - kl) + g + Rabs mw + Rabs ml). exists (- D).
  set (dd := Rabs (mw - kw * (e + mw) - (ml - kl * (e + ml)))) in *. assert (DD : 0 <= dd) by apply Rabs_pos.
  assert (D0 : 0 < (dd + 1) / (kw - kl)) by (apply Rdiv_lt_0_compat; lra). pose proof (Rabs_pos mw). pose proof (Rabs_pos ml). pose proof (Rabs_pos e).
  pose proof (Rle_abs (- mw)) as B1. rewrite Rabs_Ropp in B1. pose proof (Rle_abs (- ml)) as B2. rewrite Rabs_Ropp in B2.
  rewrite !ts_period_2, EW, EL. cbn [fst]. change (mkTS (Fin mw) (Fin sw)) with (ts_in (mw, sw)). change (mkTS (Fin ml) (Fin sl)) with (ts_in (ml, sl)).
  rewrite !(far_loss _ _ _ _ _ _ _ e) by (auto; unfold D, g; lra). do 2 eexists. split; [reflexivity|]. split; [reflexivity|]. fold kw kl.
  assert (M : (kw - kl) * D >= dd + 1). { unfold D. replace ((kw - kl) * ((dd + 1) / (kw - kl) + g + Rabs mw + Rabs ml)) with (dd + 1 + (kw - kl) * (g + Rabs mw + Rabs ml)) by (field; lra).
    assert (0 <= (kw - kl) * (g + Rabs mw + Rabs ml)) by (apply Rmult_le_pos; unfold g; lra). lra. }
  pose proof (Rle_abs (mw - kw * (e + mw) - (ml - kl * (e + ml)))) as Q. fold dd in Q. lra.
Qed.
(** In the last game of a period a win is better than a loss, and with an ordinary draw margin a draw lies between. *)
Lemma C121_ts_last_proof : forall p rs m s m2 s2 dp beta tau, 0 < s -> 0 < s2 ->
  trueskill_rating_period p rs (ts_cfg dp beta tau) = ts_in (m, s) ->
  exists w l,
  ts_rating (trueskill_rating_period p (rs ++ [(ts_in (m2, s2), WIN)]) (ts_cfg dp beta tau)) = Fin w /\
  ts_rating (trueskill_rating_period p (rs ++ [(ts_in (m2, s2), LOSS)]) (ts_cfg dp beta tau)) = Fin l /\ l < m < w.
Proof.
  intros p rs m s m2 s2 dp beta tau H H2 E.
  assert (K : forall o, trueskill_rating_period p (rs ++ [(ts_in (m2, s2), o)]) (ts_cfg dp beta tau) = fst (trueskill (ts_in (m, s)) (ts_in (m2, s2)) o (ts_cfg dp beta tau))).
  { intros o. rewrite (proj2 (proj2 (C57_proof _ _ p rs [(ts_in (m2, s2), o)] (ts_cfg dp beta tau)))), E. rewrite (proj1 (C57_proof _ _ _ [(ts_in (m2, s2), o)] [] _)). reflexivity. }
  rewrite !K. destruct (C50_proof m s m2 s2 WIN dp beta tau H H2) as (e & w & w' & _ & _ & _ & -> & Hw & _). destruct (C50_proof m s m2 s2 LOSS dp beta tau H H2) as (e2 & l & l' & _ & _ & _ & -> & _ & Hl & _).
  exists w, l. cbn [fst ts_rating]. split; [reflexivity|]. split; [reflexivity|]. specialize (Hw eq_refl). specialize (Hl eq_refl). lra.
Qed.
