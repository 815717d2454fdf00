(** Proofs of the TrueSkill parts of C94 and C95. *)
From Coq Require Import ZArith List Bool Reals Lra Lia.
From Verif Require Import Arith XR Tac ModelLib ModelTS Spec SpecTS SpecInTS MathTS MathTSW MathTSInv MathTSMono ProofTS.
Import ListNotations.
Local Open Scope R_scope.

Lemma ts_rate m1 s1 m2 s2 o dp beta tau e : 0 < s1 -> 0 < s2 -> ts_draw_margin (Fin dp) (Fin beta) (Fin 2) = Fin e ->
  let c := sqrt (2 * beta ^ 2 + s1 ^ 2 + s2 ^ 2) in 0 < c /\ 0 < s1 ^ 2 + tau ^ 2 /\
  ts_rating (fst (trueskill (ts_in (m1, s1)) (ts_in (m2, s2)) o (ts_cfg dp beta tau))) = Fin (m1 + (s1 ^ 2 + tau ^ 2) / c * ts_v o ((m1 - m2) / c) (e / c)).
Proof.
  intros H1 H2 He c. assert (Hc : 0 < c) by (apply (tsc_pos 2); [lra|apply pow2_ge_0|apply pow_lt; auto]). split; auto.
  split; [pose proof (pow_lt s1 2 H1); pose proof (pow2_ge_0 tau); lra|].
  destruct (C50_proof m1 s1 m2 s2 o dp beta tau H1 H2) as (e' & a & b & E1 & E2 & _ & E3 & _). rewrite He in E1. injection E1 as <-.
  rewrite E3. cbn [fst ts_rating]. rewrite E2. reflexivity.
Qed.
Definition lead (o : Outcomes) (m m2 e c : R) : R := ((match o with WIN => m - m2 | _ => m2 - m end) - e) / c.
Lemma v_lead o m m2 e c : 0 < c -> o <> DRAW -> ts_v o ((m - m2) / c) (e / c) = match o with WIN => vx (lead o m m2 e c) | _ => - vx (lead o m m2 e c) end.
Proof.
  intros Hc Ho. destruct o; [| |congruence]; cbn [ts_v]; rewrite vwin_vx; unfold lead.
  - replace ((m - m2) / c - e / c) with ((m - m2 - e) / c) by (field; lra). reflexivity.
  - replace (- ((m - m2) / c) - e / c) with ((m2 - m - e) / c) by (field; lra). reflexivity.
Qed.
Lemma C94_ts_proof : forall m s m2 m2' s2 o dp beta tau e, 0 < s -> 0 < s2 -> o <> DRAW -> m2 < m2' ->
  ts_draw_margin (Fin dp) (Fin beta) (Fin 2) = Fin e ->
  let c := sqrt (2 * beta ^ 2 + s ^ 2 + s2 ^ 2) in
  let x := ((match o with WIN => m - m2 | _ => m2 - m end) - e) / c in
  let x' := ((match o with WIN => m - m2' | _ => m2' - m end) - e) / c in
  (x <= 0 /\ x' <= 0 \/ 0 < x /\ 0 < x') -> (Phi x < tiny /\ Phi x' < tiny \/ tiny <= Phi x /\ tiny <= Phi x') -> exists a b,
  ts_rating (fst (trueskill (ts_in (m, s)) (ts_in (m2, s2)) o (ts_cfg dp beta tau))) = Fin a /\
  ts_rating (fst (trueskill (ts_in (m, s)) (ts_in (m2', s2)) o (ts_cfg dp beta tau))) = Fin b /\ a < b.
Proof.
  intros m s m2 m2' s2 o dp beta tau e H1 H2 Ho Hm He c x x' HS HT.
  destruct (ts_rate m s m2 s2 o dp beta tau e H1 H2 He) as (Hc & HV & E1). destruct (ts_rate m s m2' s2 o dp beta tau e H1 H2 He) as (_ & _ & E2).
  fold c in Hc, E1, E2. do 2 eexists. split; [exact E1|]. split; [exact E2|]. rewrite !v_lead by auto. unfold lead. fold x x'.
  assert (K : 0 < (s ^ 2 + tau ^ 2) / c) by pos. apply Rplus_lt_compat_l, Rmult_lt_compat_l; auto. clear E1 E2.
  assert (IC : 0 < / c) by pos. destruct o; [| |congruence].
  - assert (L : x' < x) by (unfold x, x'; apply Rmult_lt_compat_r; lra). apply vx_lt; tauto.
  - assert (L : x < x') by (unfold x, x'; apply Rmult_lt_compat_r; lra). apply Ropp_lt_contravar. apply vx_lt; tauto.
Qed.
Lemma C94_ts_almost_proof : forall m s m2 m2' s2 o dp beta tau e, 0 < s -> 0 < s2 -> o <> DRAW -> m2 < m2' ->
  ts_draw_margin (Fin dp) (Fin beta) (Fin 2) = Fin e ->
  let c := sqrt (2 * beta ^ 2 + s ^ 2 + s2 ^ 2) in
  tiny <= Phi (((match o with WIN => m - m2' | _ => m2 - m end) - e) / c) -> exists a b,
  ts_rating (fst (trueskill (ts_in (m, s)) (ts_in (m2, s2)) o (ts_cfg dp beta tau))) = Fin a /\
  ts_rating (fst (trueskill (ts_in (m, s)) (ts_in (m2', s2)) o (ts_cfg dp beta tau))) = Fin b /\ a < b + 0.0000002 * (s ^ 2 + tau ^ 2) / c.
Proof.
  intros m s m2 m2' s2 o dp beta tau e H1 H2 Ho Hm He c HT.
  destruct (ts_rate m s m2 s2 o dp beta tau e H1 H2 He) as (Hc & HV & E1). destruct (ts_rate m s m2' s2 o dp beta tau e H1 H2 He) as (_ & _ & E2).
  fold c in Hc, E1, E2. do 2 eexists. split; [exact E1|]. split; [exact E2|]. rewrite !v_lead by auto.
  assert (K : 0 < (s ^ 2 + tau ^ 2) / c) by pos. assert (IC : 0 < / c) by pos. clear E1 E2.
  replace (0.0000002 * (s ^ 2 + tau ^ 2) / c) with ((s ^ 2 + tau ^ 2) / c * 0.0000002) by (field; lra). set (k := (s ^ 2 + tau ^ 2) / c) in *.
  destruct o; [| |congruence]; unfold lead in *.
  - assert (L : (m - m2' - e) / c < (m - m2 - e) / c) by (apply Rmult_lt_compat_r; lra). pose proof (vx_almost _ _ L HT). nra.
  - assert (L : (m2 - m - e) / c < (m2' - m - e) / c) by (apply Rmult_lt_compat_r; lra). pose proof (vx_almost _ _ L HT). nra.
Qed.
Lemma C94_ts_refuted_proof : forall m s s2 dp beta tau, 0 < s -> 0 < s2 -> exists m2 m2' a b, m2 < m2' /\
  ts_rating (fst (trueskill (ts_in (m, s)) (ts_in (m2, s2)) WIN (ts_cfg dp beta tau))) = Fin a /\
  ts_rating (fst (trueskill (ts_in (m, s)) (ts_in (m2', s2)) WIN (ts_cfg dp beta tau))) = Fin b /\ b < a.
Proof.
  intros m s s2 dp beta tau H1 H2. destruct (C50_proof m s 0 s2 WIN dp beta tau H1 H2) as (e & _ & _ & He & _).
  set (d := (phi 0 / Phip 0 - phi 0 / Phi 0) / 2). pose proof step0 as S. assert (D : 0 < d) by (unfold d; lra).
  set (c := sqrt (2 * beta ^ 2 + s ^ 2 + s2 ^ 2)). exists (m - e - c * d), (m - e).
  destruct (ts_rate m s (m - e - c * d) s2 WIN dp beta tau e H1 H2 He) as (Hc & HV & E1). destruct (ts_rate m s (m - e) s2 WIN dp beta tau e H1 H2 He) as (_ & _ & E2).
  fold c in Hc, E1, E2. do 2 eexists. split; [nra|]. split; [exact E1|]. split; [exact E2|]. rewrite !v_lead by (auto; congruence). unfold lead.
  replace ((m - (m - e) - e) / c) with 0 by (field; lra). replace ((m - (m - e - c * d) - e) / c) with d by (field; lra).
  assert (K : 0 < (s ^ 2 + tau ^ 2) / c) by pos. apply Rplus_lt_compat_l, Rmult_lt_compat_l; auto.
  pose proof tiny_small. pose proof Phi_0. pose proof (Phi_pos_ge d ltac:(lra)). rewrite (vx_out 0), (vx_out d) by lra. rewrite (Phi_Phip d) by auto.
  pose proof (xv_pos 0 d ltac:(lra) ltac:(lra)). unfold d in *. lra.
Qed.
Lemma C95_ts_proof : forall m m' s m2 s2 o dp beta tau, 0 < s -> 0 < s2 -> o <> DRAW -> tau ^ 2 < 2 * beta ^ 2 + s2 ^ 2 -> m' < m -> exists a b,
  ts_rating (fst (trueskill (ts_in (m', s)) (ts_in (m2, s2)) o (ts_cfg dp beta tau))) = Fin a /\
  ts_rating (fst (trueskill (ts_in (m, s)) (ts_in (m2, s2)) o (ts_cfg dp beta tau))) = Fin b /\ a < b.
Proof.
  intros m m' s m2 s2 o dp beta tau H1 H2 Ho HK Hm. destruct (C50_proof m s m2 s2 WIN dp beta tau H1 H2) as (e & _ & _ & He & _).
  destruct (ts_rate m' s m2 s2 o dp beta tau e H1 H2 He) as (Hc & HV & E1). destruct (ts_rate m s m2 s2 o dp beta tau e H1 H2 He) as (_ & _ & E2).
  set (c := sqrt (2 * beta ^ 2 + s ^ 2 + s2 ^ 2)) in *. assert (CC : c * c = 2 * beta ^ 2 + s ^ 2 + s2 ^ 2).
  { apply sqrt_sqrt. pose proof (pow2_ge_0 beta). pose proof (pow2_ge_0 s). pose proof (pow2_ge_0 s2). lra. }
  do 2 eexists. split; [exact E1|]. split; [exact E2|]. rewrite !v_lead by auto. clear E1 E2 He.
  assert (IC : 0 < / c) by pos. set (k := (s ^ 2 + tau ^ 2) / (c * c)). assert (K : 0 <= k < 1).
  { split; [unfold k; apply Rlt_le; apply Rdiv_lt_0_compat; nra|]. unfold k. apply Rmult_lt_reg_r with (c * c); [nra|]. unfold Rdiv. rewrite Rmult_assoc, Rinv_l by nra. lra. }
  replace ((s ^ 2 + tau ^ 2) / c) with (c * k) by (unfold k; field; lra). clearbody k c.
  destruct o; [| |congruence]; unfold lead.
  - assert (L : (m' - m2 - e) / c < (m - m2 - e) / c) by (apply Rmult_lt_compat_r; lra). pose proof (xkv_lt k _ _ K L) as Q.
    apply (Rmult_lt_compat_l c) in Q; auto. rewrite !Rmult_plus_distr_l in Q.
    replace (c * ((m' - m2 - e) / c)) with (m' - m2 - e) in Q by (field; lra). replace (c * ((m - m2 - e) / c)) with (m - m2 - e) in Q by (field; lra). lra.
  - assert (L : (m2 - m - e) / c < (m2 - m' - e) / c) by (apply Rmult_lt_compat_r; lra). pose proof (xkv_lt k _ _ K L) as Q.
    apply (Rmult_lt_compat_l c) in Q; auto. rewrite !Rmult_plus_distr_l in Q.
    replace (c * ((m2 - m' - e) / c)) with (m2 - m' - e) in Q by (field; lra). replace (c * ((m2 - m - e) / c)) with (m2 - m - e) in Q by (field; lra). lra.
Qed.
Lemma Phi_far x : x <= - (20 * sqrt 2) -> Phi x < tiny.
Proof.
  intros H. pose proof sqrt2_pos. assert (A : Phi x <= Phi (- (20 * sqrt 2))).
  { destruct H as [H| ->]; [|lra]. apply Rlt_le, Phi_lt_neg; lra. }
  eapply Rle_lt_trans; [exact A|]. rewrite Phi_neg by lra. replace (- - (20 * sqrt 2) / sqrt 2) with 20 by (field; lra).
  unfold nr_pos. cbv zeta. replace (/ (1 + 20 / 2)) with (1 / 11) by field. assert (nr_P (1 / 11) < 0) by (unfold nr_P; lra).
  assert (exp (nr_P (1 / 11) - 20 ^ 2) <= exp (-400)) by (apply exp_mono; lra). pose proof exp400. pose proof (exp_pos (nr_P (1 / 11) - 20 ^ 2)). lra.
Qed.
Lemma C95_ts_refuted_proof : forall s s2 o dp beta tau, 0 < s -> 0 < s2 -> o <> DRAW -> 2 * beta ^ 2 + s2 ^ 2 < tau ^ 2 -> exists m m' m2 a b, m' < m /\
  ts_rating (fst (trueskill (ts_in (m', s)) (ts_in (m2, s2)) o (ts_cfg dp beta tau))) = Fin a /\
  ts_rating (fst (trueskill (ts_in (m, s)) (ts_in (m2, s2)) o (ts_cfg dp beta tau))) = Fin b /\ b < a.
Proof.
  intros s s2 o dp beta tau H1 H2 Ho HK. destruct (C50_proof 0 s 0 s2 WIN dp beta tau H1 H2) as (e & _ & _ & He & _).
  set (c := sqrt (2 * beta ^ 2 + s ^ 2 + s2 ^ 2)).
  pose (far := fun d => match o with WIN => e - c * (20 * sqrt 2 + d) | _ => c * (20 * sqrt 2 + d) - e end : R).
  pose (dm := match o with WIN => 1 | _ => 0 end : R). exists (far (1 - dm)), (far dm), 0.
  destruct (ts_rate (far dm) s 0 s2 o dp beta tau e H1 H2 He) as (Hc & HV & E1). destruct (ts_rate (far (1 - dm)) s 0 s2 o dp beta tau e H1 H2 He) as (_ & _ & E2).
  fold c in Hc, E1, E2. assert (CC : c * c = 2 * beta ^ 2 + s ^ 2 + s2 ^ 2).
  { apply sqrt_sqrt. pose proof (pow2_ge_0 beta). pose proof (pow2_ge_0 s). pose proof (pow2_ge_0 s2). lra. }
  assert (KK : c < (s ^ 2 + tau ^ 2) / c). { apply Rmult_lt_reg_r with c; auto. unfold Rdiv. rewrite Rmult_assoc, Rinv_l by lra. lra. }
  do 2 eexists. split; [|split; [exact E1|split; [exact E2|]]].
  - unfold far, dm. destruct o; [| |congruence]; lra.
  - rewrite !v_lead by auto. assert (EL : forall d, lead o (far d) 0 e c = - (20 * sqrt 2 + d)).
    { intros d. unfold lead, far. destruct o; [| |congruence]; field; lra. }
    rewrite !EL. rewrite !vx_in by (apply Phi_far; unfold dm; destruct o; lra). unfold far, dm. clear E1 E2. set (k := (s ^ 2 + tau ^ 2) / c) in *. destruct o; [| |congruence]; lra.
Qed.
