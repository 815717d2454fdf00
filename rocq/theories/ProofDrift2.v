(** C108 continued: Sticko, Glicko-Boost and DWZ players of any age. *)
From Coq Require Import ZArith NArith List Bool Reals Lra Lia.
From Verif Require Import Arith XR Tac ModelLib ModelDwz ModelGlicko ModelSticko ModelBoost Spec ProofElo ProofUscf ProofDwz ProofGlicko ProofSticko ProofBoost ProofDrift.
Import Spec ListNotations.
Local Open Scope R_scope.

(** The expected score uses both deviations, the update only the opponent's. *)
Lemma gE_two r rj RD1 RD2 : 0 < RD1 -> 0 < RD2 ->
  (rj < r -> gE r rj (sqrt (RD1 ^ 2 + RD2 ^ 2)) < gE r rj RD2) /\ (r < rj -> gE r rj RD2 < gE r rj (sqrt (RD1 ^ 2 + RD2 ^ 2))) /\
  (r = rj -> gE r rj (sqrt (RD1 ^ 2 + RD2 ^ 2)) = gE r rj RD2).
Proof.
  intros H1 H2. assert (S : 0 <= RD2 < sqrt (RD1 ^ 2 + RD2 ^ 2)).
  { split; [lra|]. rewrite <- (sqrt_pow2 RD2) at 1 by lra. apply sqrt_lt_1_alt. pose proof (pow_lt RD1 2 H1). pose proof (pow2_ge_0 RD2). lra. }
  split; [|split]; intros H.
  - apply gE_dev; auto.
  - pose proof (gE_dev rj r RD2 _ S H) as [_ D]. pose proof (gE_compl r rj RD2). pose proof (gE_compl r rj (sqrt (RD1 ^ 2 + RD2 ^ 2))). lra.
  - subst rj. now rewrite !gE_self.
Qed.
Lemma gE_shift r rj x RD : gE r (rj - x) RD = gE (r + x) rj RD.
Proof. unfold gE. do 4 f_equal. ring. Qed.

Lemma C108_sticko_proof : forall r1 RD1 r2 RD2 h beta lambda gamma c e1 e2 pw pd pl, 0 < RD1 -> 0 < RD2 -> 0 <= h -> 0 <= lambda ->
  let cfg := mkStickoConfig (Fin h) (Fin beta) (Fin lambda) (Fin gamma) (Fin c) in
  sticko_expected_score (mkSticko (Fin r1) (Fin RD1)) (mkSticko (Fin r2) (Fin RD2)) cfg = (Fin e1, Fin e2) -> pw + pd + pl = 1 -> pw + pd / 2 = e1 ->
  exists f : Outcomes -> R,
    (forall o, st_rating (fst (sticko (mkSticko (Fin r1) (Fin RD1)) (mkSticko (Fin r2) (Fin RD2)) o cfg)) = Fin (f o)) /\
    (beta <= 0 -> r2 <= r1 -> r2 < r1 + gamma -> pw * f WIN + pd * f DRAW + pl * f LOSS < r1) /\
    (0 <= beta -> r1 <= r2 -> r1 + gamma < r2 -> r1 < pw * f WIN + pd * f DRAW + pl * f LOSS) /\
    (beta = 0 -> gamma = 0 -> r1 = r2 -> pw * f WIN + pd * f DRAW + pl * f LOSS = r1) /\
    (0 < beta -> gamma = 0 -> r1 = r2 -> r1 < pw * f WIN + pd * f DRAW + pl * f LOSS).
Proof.
  intros * H1 H2 Hh Hl cfg E Hp He. pose proof (sticko_expected_eval r1 RD1 r2 RD2 h beta lambda gamma c) as X. unfold stp, stcfg in X. unfold cfg in E. rewrite X in E. injection E as E _.
  eexists. split; [intros o; unfold cfg; rewrite C33_game_proof by auto; reflexivity|]. cbv beta.
  pose proof (gpre_pos RD1 c H1) as HRD. set (RD := gpre RD1 c) in *. unfold sticko_r, glicko_r. cbn [map st_game]. rewrite !gM_single, !gd2inv_single, gE_shift. unfold mean. cbn [length INR points]. rewrite !Rsum_cons, !Rsum_nil.
  set (G := gE (r1 + gamma) r2 RD2) in *. set (K := gq / (_ + _)).
  assert (HK : 0 < K).
  { unfold K. apply Rdiv_lt_0_compat; [apply gq_pos|]. assert (0 < / RD ^ 2) by (apply Rinv_0_lt_compat, pow_lt; auto).
    assert (0 <= gq ^ 2 * (gg RD2 ^ 2 * G * (1 - G))).
    { apply Rmult_le_pos; [apply pow2_ge_0|]. unfold G. pose proof (gE_range (r1 + gamma) r2 RD2). apply Rmult_le_pos; [apply Rmult_le_pos; [apply pow2_ge_0|lra]|lra]. } lra. }
  assert (P : 0 < K * gg RD2) by (apply Rmult_lt_0_compat; [auto|apply gg_pos]).
  replace (pw * _ + pd * _ + pl * _) with (r1 + K * gg RD2 * (e1 - G + beta) + lambda / 100 * (r2 - r1)) by (rewrite <- He; replace pl with (1 - pw - pd) by lra; field).
  destruct (gE_two (r1 + gamma) r2 RD1 RD2 H1 H2) as (T1 & T2 & T3). change (gE (r1 + gamma) r2 (sqrt (RD1 ^ 2 + RD2 ^ 2)) = e1) in E. rewrite E in T1, T2, T3. fold G in T1, T2, T3.
  split; [|split; [|split]].
  - intros B A A'. specialize (T1 ltac:(lra)). assert (0 < K * gg RD2 * (G - e1 - beta)) by (apply Rmult_lt_0_compat; lra).
    assert (0 <= lambda / 100 * (r1 - r2)) by (apply Rmult_le_pos; lra). lra.
  - intros B A A'. specialize (T2 ltac:(lra)). assert (0 < K * gg RD2 * (e1 - G + beta)) by (apply Rmult_lt_0_compat; lra).
    assert (0 <= lambda / 100 * (r2 - r1)) by (apply Rmult_le_pos; lra). lra.
  - intros -> -> ->. rewrite T3 by lra. lra.
  - intros B -> ->. rewrite T3 by lra. assert (0 < K * gg RD2 * beta) by (apply Rmult_lt_0_compat; lra). lra.
Qed.

(** Glicko-Boost. *)
Lemma boost_Z_single r rj RDj s : boost_Z r [(rj, RDj, s)] = (s - gE r rj RDj) / sqrt (gE r rj RDj * (1 - gE r rj RDj)).
Proof.
  unfold boost_Z. rewrite gM_single, gd2inv_single. pose proof gq_pos as Q. pose proof (gg_pos RDj) as Hg. pose proof (gE_range r rj RDj) as G. set (e := gE r rj RDj) in *.
  replace (gq ^ 2 * (gg RDj ^ 2 * e * (1 - e)) / gq ^ 2) with (gg RDj ^ 2 * (e * (1 - e))) by (field; lra).
  assert (P : 0 < e * (1 - e)) by (apply Rmult_lt_0_compat; lra).
  rewrite sqrt_mult_alt by apply pow2_ge_0. rewrite sqrt_pow2 by lra. assert (0 < sqrt (e * (1 - e))) by (apply sqrt_lt_R0; auto). field. lra.
Qed.
(** No boost for a result at or below expectation, and for a player expected to
    score at least one half no boost at all when the threshold is at least one. *)
Lemma boost_none c r rj RDj s RD : 0 <= bc_k c -> s <= gE r rj RDj ->
  boost_rd c r RD [(rj, RDj, s)] = Rmin (glicko_rd r RD [(rj, RDj, s)]) 350.
Proof.
  intros Hk Hs. unfold boost_rd. cbv zeta. destruct (Rlt_dec (bc_k c) (boost_Z r [(rj, RDj, s)])) as [L|]; [|reflexivity]. exfalso. rewrite boost_Z_single in L.
  pose proof (gE_range r rj RDj) as G. assert (0 < sqrt (gE r rj RDj * (1 - gE r rj RDj))) as Q by (apply sqrt_lt_R0, Rmult_lt_0_compat; lra).
  assert ((s - gE r rj RDj) / sqrt (gE r rj RDj * (1 - gE r rj RDj)) <= 0); [|lra]. apply Rmult_le_reg_r with (1 := Q). unfold Rdiv. rewrite Rmult_assoc, Rinv_l; lra.
Qed.
Lemma boost_none_fav c r rj RDj s RD : 0 <= bc_k c -> bc_k c = 0 \/ 1 <= bc_k c -> s <= 1 -> 1 / 2 <= gE r rj RDj ->
  boost_rd c r RD [(rj, RDj, s)] = Rmin (glicko_rd r RD [(rj, RDj, s)]) 350.
Proof.
  intros Hk K1 Hs G2. unfold boost_rd. cbv zeta. destruct (Rlt_dec (bc_k c) (boost_Z r [(rj, RDj, s)])) as [L|]; [|reflexivity].
  destruct (Req_EM_T (bc_k c) 0) as [|N]; [reflexivity|]. destruct K1 as [K1|K1]; [contradiction|]. exfalso. rewrite boost_Z_single in L.
  pose proof (gE_range r rj RDj) as G. set (e := gE r rj RDj) in *. assert (P : 0 < e * (1 - e)) by (apply Rmult_lt_0_compat; lra).
  assert (Q : 0 < sqrt (e * (1 - e))) by (apply sqrt_lt_R0; auto).
  assert (1 - e <= sqrt (e * (1 - e))). { rewrite <- (sqrt_pow2 (1 - e)) at 1 by lra. apply sqrt_le_1_alt. replace ((1 - e) ^ 2) with ((1 - e) * (1 - e)) by ring. apply Rmult_le_compat_r; lra. }
  assert ((s - e) / sqrt (e * (1 - e)) <= 1); [|lra]. apply Rmult_le_reg_r with (1 := Q). unfold Rdiv. rewrite Rmult_assoc, Rinv_l; lra.
Qed.
Lemma glicko_rd_score r RD rj RDj s s' : glicko_rd r RD [(rj, RDj, s)] = glicko_rd r RD [(rj, RDj, s')].
Proof. unfold glicko_rd. now rewrite !gd2inv_single. Qed.

Lemma rd_pos r RD g : 0 < RD -> 0 < glicko_rd r RD g.
Proof. intros H. unfold glicko_rd. apply sqrt_lt_R0, Rinv_0_lt_compat. assert (0 < / RD ^ 2) by (apply Rinv_0_lt_compat, pow_lt; auto). pose proof (gd2inv_nonneg r g). lra. Qed.
Lemma rd_mono r RD RD' g : 0 < RD <= RD' -> glicko_rd r RD g <= glicko_rd r RD' g.
Proof.
  intros H. unfold glicko_rd. apply sqrt_le_1_alt, Rinv_le_contravar.
  - assert (0 < / RD' ^ 2) by (apply Rinv_0_lt_compat, pow_lt; lra). pose proof (gd2inv_nonneg r g). lra.
  - apply Rplus_le_compat_r, Rinv_le_contravar; [apply pow_lt; lra|]. apply pow_incr. lra.
Qed.
(** A boost to at least the old deviation does not make the new one smaller. *)
Lemma boost_rd_ge c r RD g : 0 < RD ->
  (bc_k c <> 0 -> bc_k c < boost_Z r g -> RD <= (1 + (boost_Z r g - bc_k c) * bc_b0 c) * glicko_rd r RD g + bc_b1 c) ->
  Rmin (glicko_rd r RD g) 350 <= boost_rd c r RD g.
Proof.
  intros HR H. unfold boost_rd. cbv zeta. destruct (Rlt_dec (bc_k c) (boost_Z r g)); [|lra]. destruct (Req_EM_T (bc_k c) 0); [lra|].
  apply Rle_min_compat_r, rd_mono. split; auto.
Qed.
Lemma C108_boost_proof : forall r1 RD1 r2 RD2 c e1 e2 pw pd pl, 0 < RD1 -> 0 < RD2 -> 0 <= bc_k c -> 0 <= bc_b0 c -> 0 <= bc_b1 c ->
  let cfg := mkBoostConfig (Fin (bc_eta c)) (Fin (bc_k c)) (Fin (bc_b0 c)) (Fin (bc_b1 c))
    (Fin (bc_a0 c)) (Fin (bc_a1 c)) (Fin (bc_a2 c)) (Fin (bc_a3 c)) (Fin (bc_a4 c)) in
  let g o := [(r2 - bc_eta c, RD2, points o)] in
  boost_expected_score (mkBoost (Fin r1) (Fin RD1)) (mkBoost (Fin r2) (Fin RD2)) cfg = (Fin e1, Fin e2) -> pw + pd + pl = 1 -> pw + pd / 2 = e1 -> 0 <= pw -> 0 <= pd ->
  exists f : Outcomes -> R,
    (forall o, gb_rating (fst (glicko_boost (mkBoost (Fin r1) (Fin RD1)) (mkBoost (Fin r2) (Fin RD2)) o cfg)) = Fin (f o)) /\
    (bc_k c = 0 \/ 1 <= bc_k c -> r2 < r1 + bc_eta c -> pw * f WIN + pd * f DRAW + pl * f LOSS < r1) /\
    (bc_k c = 0 \/ 1 <= bc_k c -> r2 = r1 + bc_eta c -> pw * f WIN + pd * f DRAW + pl * f LOSS = r1) /\
    ((forall o, bc_k c <> 0 -> bc_k c < boost_Z r1 (g o) -> RD1 <= (1 + (boost_Z r1 (g o) - bc_k c) * bc_b0 c) * glicko_rd r1 RD1 (g o) + bc_b1 c) ->
     r1 + bc_eta c < r2 -> r1 < pw * f WIN + pd * f DRAW + pl * f LOSS).
Proof.
  intros * H1 H2 Hk Hb0 Hb1 cfg g E Hp He Hw Hd. unfold cfg in E. fold (bcfg c) in E. rewrite boost_expected_eval in E. injection E as E _.
  exists (fun o => boost_r c r1 RD1 (g o)). split; [intros o; unfold cfg; rewrite C35_game_proof by auto; reflexivity|].
  unfold boost_r, g. rewrite !gM_single. set (G := gE r1 (r2 - bc_eta c) RD2). pose proof (gE_shift r1 r2 (bc_eta c) RD2) as SG. fold G in SG.
  destruct (gE_two (r1 + bc_eta c) r2 RD1 RD2 H1 H2) as (T1 & T2 & T3). change (gE (r1 + bc_eta c) r2 (sqrt (RD1 ^ 2 + RD2 ^ 2)) = e1) in E. rewrite E, <- SG in T1, T2, T3.
  pose proof (gE_range r1 (r2 - bc_eta c) RD2) as RG. fold G in RG.
  set (b := Rmin (glicko_rd r1 RD1 (g WIN)) 350).
  assert (EB : forall o, Rmin (glicko_rd r1 RD1 [(r2 - bc_eta c, RD2, points o)]) 350 = b) by (intros o; unfold b, g; f_equal; apply glicko_rd_score).
  assert (Pb : 0 < b) by (apply Rmin_glb_lt; [apply rd_pos; auto|lra]).
  assert (P : 0 < gq * b ^ 2 * gg RD2) by (apply Rmult_lt_0_compat; [apply Rmult_lt_0_compat; [apply gq_pos|apply pow_lt; auto]|apply gg_pos]).
  assert (FAV : bc_k c = 0 \/ 1 <= bc_k c -> 1 / 2 <= G -> forall o, boost_rd c r1 RD1 [(r2 - bc_eta c, RD2, points o)] = b).
  { intros K1 G2 o. rewrite boost_none_fav; auto. destruct o; cbn; lra. }
  assert (SUM : pw * (r1 + gq * b ^ 2 * (gg RD2 * (points WIN - G))) + pd * (r1 + gq * b ^ 2 * (gg RD2 * (points DRAW - G))) + pl * (r1 + gq * b ^ 2 * (gg RD2 * (points LOSS - G))) = r1 + gq * b ^ 2 * gg RD2 * (e1 - G)).
  { cbn [points]. rewrite <- He. replace pl with (1 - pw - pd) by lra. field. }
  assert (HALF : r2 <= r1 + bc_eta c -> 1 / 2 <= G). { intros [L| ->]; [|rewrite SG, gE_self; lra]. apply Rlt_le. rewrite <- (gE_self r2 RD2), SG. now apply gE_lt. }
  split; [|split].
  - intros K1 L. rewrite !FAV by (auto; apply HALF; lra). rewrite SUM. specialize (T1 L). assert (0 < gq * b ^ 2 * gg RD2 * (G - e1)) by (apply Rmult_lt_0_compat; lra). lra.
  - intros K1 L. rewrite !FAV by (auto; apply HALF; lra). rewrite SUM, T3 by lra. lra.
  - intros HB L. specialize (T2 L). assert (G2 : G < 1 / 2) by (rewrite <- (gE_self r2 RD2), SG; now apply gE_lt).
    assert (UP : forall o, G <= points o -> gq * b ^ 2 * (gg RD2 * (points o - G)) <= gq * boost_rd c r1 RD1 [(r2 - bc_eta c, RD2, points o)] ^ 2 * (gg RD2 * (points o - G))).
    { intros o Ho. pose proof (boost_rd_ge c r1 RD1 _ H1 (HB o)) as B. unfold g in B. rewrite EB in B. apply Rmult_le_compat_r; [apply Rmult_le_pos; [apply Rlt_le, gg_pos|lra]|]. apply Rmult_le_compat_l; [apply Rlt_le, gq_pos|]. apply pow_incr. lra. }
    pose proof (Rmult_le_compat_l pw _ _ Hw (UP WIN ltac:(cbn; lra))) as U1. pose proof (Rmult_le_compat_l pd _ _ Hd (UP DRAW ltac:(cbn; lra))) as U2.
    rewrite (boost_none c r1 (r2 - bc_eta c) RD2 (points LOSS) RD1 Hk) by (cbn; fold G; lra). rewrite EB.
    assert (0 < gq * b ^ 2 * gg RD2 * (e1 - G)) by (apply Rmult_lt_0_compat; lra). lra.
Qed.

(** DWZ players of any age. *)
Lemma dwz_mean_le r lo hi c e pw pd pl : 0 < e < 1 -> 5 <= lo -> 5 <= hi -> pw + pd + pl = 1 -> pw + pd / 2 = e -> 0 <= pw -> 0 <= pd ->
  (e < 1 / 2 -> c = lo) -> (1 / 2 < e -> c = hi) ->
  (lo <= hi -> r <= pw * dwz_upd r lo 1 1 e + pd * dwz_upd r c 1 (1 / 2) e + pl * dwz_upd r hi 1 0 e) /\
  (hi <= lo -> pw * dwz_upd r lo 1 1 e + pd * dwz_upd r c 1 (1 / 2) e + pl * dwz_upd r hi 1 0 e <= r) /\
  (lo < hi -> 0 < pw -> r < pw * dwz_upd r lo 1 1 e + pd * dwz_upd r c 1 (1 / 2) e + pl * dwz_upd r hi 1 0 e) /\
  (hi < lo -> 0 < pw -> pw * dwz_upd r lo 1 1 e + pd * dwz_upd r c 1 (1 / 2) e + pl * dwz_upd r hi 1 0 e < r).
Proof.
  intros He L5 H5 Hp HE Hw Hd C1 C2. set (A := 800 / (lo + 1)). set (B := 800 / (hi + 1)). set (C := 800 / (c + 1)).
  assert (CC : (C - B) * (1 / 2 - e) = (A - B) * Rmax 0 (1 / 2 - e)).
  { destruct (Rtotal_order e (1 / 2)) as [L|[L|L]].
    - rewrite Rmax_right by lra. unfold C. rewrite C1 by auto. reflexivity.
    - rewrite L. replace (1 / 2 - 1 / 2) with 0 by field. rewrite Rmax_left by lra. ring.
    - rewrite Rmax_left by lra. unfold C. rewrite C2 by auto. fold B. ring. }
  assert (S : pw * dwz_upd r lo 1 1 e + pd * dwz_upd r c 1 (1 / 2) e + pl * dwz_upd r hi 1 0 e = r + (A - B) * (pw * (1 - e) + pd * Rmax 0 (1 / 2 - e))).
  { unfold dwz_upd. fold A B C. replace pl with (1 - pw - pd) by lra.
    replace (pw * (r + A * (1 - e)) + pd * (r + C * (1 / 2 - e)) + (1 - pw - pd) * (r + B * (0 - e))) with (r + (A - B) * (pw * (1 - e)) + pd * ((C - B) * (1 / 2 - e)) + B * (pw + pd / 2 - e)) by field.
    rewrite HE, CC. ring. }
  rewrite S. pose proof (Rmax_l 0 (1 / 2 - e)) as M. set (W := pw * (1 - e) + pd * Rmax 0 (1 / 2 - e)) in *.
  assert (W0 : 0 <= W) by (unfold W; assert (0 <= pw * (1 - e)) by (apply Rmult_le_pos; lra); assert (0 <= pd * Rmax 0 (1 / 2 - e)) by (apply Rmult_le_pos; lra); lra).
  assert (W1 : 0 < pw -> 0 < W) by (intros; unfold W; assert (0 < pw * (1 - e)) by (apply Rmult_lt_0_compat; lra); assert (0 <= pd * Rmax 0 (1 / 2 - e)) by (apply Rmult_le_pos; lra); lra).
  assert (MON : forall x y, 5 <= x -> x <= y -> 800 / (y + 1) <= 800 / (x + 1)) by (intros; apply Rmult_le_compat_l; [lra|]; apply Rinv_le_contravar; lra).
  assert (MON' : forall x y, 5 <= x -> x < y -> 800 / (y + 1) < 800 / (x + 1)) by (intros; apply Rmult_lt_compat_l; [lra|]; apply Rinv_lt_contravar; [apply Rmult_lt_0_compat; lra|lra]).
  split; [|split; [|split]].
  - intros L. pose proof (MON lo hi L5 L) as Q. fold A B in Q. assert (0 <= (A - B) * W) by (apply Rmult_le_pos; lra). lra.
  - intros L. pose proof (MON hi lo H5 L) as Q. fold A B in Q. assert (0 <= (B - A) * W) by (apply Rmult_le_pos; lra). lra.
  - intros L PW. pose proof (MON' lo hi L5 L) as Q. fold A B in Q. assert (0 < (A - B) * W) by (apply Rmult_lt_0_compat; auto; lra). lra.
  - intros L PW. pose proof (MON' hi lo H5 L) as Q. fold A B in Q. assert (0 < (B - A) * W) by (apply Rmult_lt_0_compat; auto; lra). lra.
Qed.
Lemma dwz_J5 a : 5 <= dwz_J a.
Proof. unfold dwz_J. repeat destruct (_ <=? _)%N; lra. Qed.
(** The coefficient after a result above and below expectation. *)
Lemma dwz_E_above r a s e i : e < s -> dwz_E r a s e i = Rmax 5 (Rmin ((if (a <? 20)%N then r / 2000 else 1) * ((r / 1000) ^ 4 + dwz_J a)) (Rmin 30 (5 * i))).
Proof.
  intros H. unfold dwz_E, dwz_raw_E, dwz_acc, dwz_brake. destruct (Rle_dec s e); [lra|]. destruct (Rle_dec e s); [|lra].
  destruct (Rlt_dec r 1300), (a <? 20)%N; rewrite Rplus_0_r; reflexivity.
Qed.
Lemma dwz_E_below r a s e i : s < e -> dwz_E r a s e i = Rmax 5 (Rmin ((r / 1000) ^ 4 + dwz_J a + (if Rlt_dec r 1300 then exp ((1300 - r) / 150) - 1 else 0)) (if Rlt_dec r 1300 then 150 else Rmin 30 (5 * i))).
Proof.
  intros H. unfold dwz_E, dwz_raw_E, dwz_acc, dwz_brake. destruct (Rle_dec s e); [|lra]. destruct (Rle_dec e s); [lra|].
  destruct (Rlt_dec r 1300), (a <? 20)%N; rewrite Rmult_1_l; reflexivity.
Qed.
Lemma pow4_nonneg x : 0 <= x ^ 4.
Proof. replace (x ^ 4) with ((x ^ 2) ^ 2) by ring. apply pow2_ge_0. Qed.
Lemma C108_dwz_age_proof : forall r1 i1 a1 r2 i2 a2 e1 e2 pw pd pl, (1 <= i1)%N -> (1 <= i2)%N ->
  dwz_expected_score (mkDwz (Fin r1) i1 a1) (mkDwz (Fin r2) i2 a2) = (Fin e1, Fin e2) -> pw + pd + pl = 1 -> pw + pd / 2 = e1 -> 0 <= pw -> 0 <= pd ->
  exists f : Outcomes -> R,
    (forall o, dwz_rating (fst (dwz (mkDwz (Fin r1) i1 a1) (mkDwz (Fin r2) i2 a2) o)) = Fin (f o)) /\
    (r1 <= 2000 \/ (20 <= a1)%N -> r1 <= pw * f WIN + pd * f DRAW + pl * f LOSS) /\
    (2000 <= r1 \/ 1300 <= r1 /\ (20 <= a1)%N -> pw * f WIN + pd * f DRAW + pl * f LOSS <= r1) /\
    (1300 <= r1 < 2000 -> (a1 < 20)%N -> (5 <= i1)%N -> 0 < pw -> r1 < pw * f WIN + pd * f DRAW + pl * f LOSS) /\
    (2000 < r1 <= 2200 -> (a1 < 20)%N -> (6 <= i1)%N -> 0 < pw -> pw * f WIN + pd * f DRAW + pl * f LOSS < r1).
Proof.
  intros * Hi1 Hi2 E Hp He Hw Hd. rewrite dwz_expected_eval in E. injection E as E _. eexists. split; [intros o; rewrite dwz_eval by auto; reflexivity|]. cbv beta.
  pose proof (elo_E_range r1 r2) as RE. rewrite E in *. cbn [points]. set (i := NR i1).
  set (X := (r1 / 1000) ^ 4 + dwz_J a1). assert (X5 : 5 <= X) by (unfold X; pose proof (pow4_nonneg (r1 / 1000)); pose proof (dwz_J5 a1); lra).
  destruct (dwz_mean_le r1 (dwz_E r1 a1 1 e1 i) (dwz_E r1 a1 0 e1 i) (dwz_E r1 a1 (1 / 2) e1 i) e1 pw pd pl) as (M1 & M2 & M3 & M4); auto; try apply dwz_E_ge5; try lra.
  { intros L. rewrite !dwz_E_above by lra. reflexivity. }
  { intros L. rewrite !dwz_E_below by lra. reflexivity. }
  rewrite (dwz_E_above r1 a1 1 e1 i), (dwz_E_below r1 a1 0 e1 i) in M1, M2, M3, M4 by lra. rewrite (dwz_E_above r1 a1 1 e1 i), (dwz_E_below r1 a1 0 e1 i) by lra.
  fold X in M1, M2, M3, M4. fold X.
  split; [|split; [|split]].
  - intros C. apply M1. apply Rle_max_compat_l.
    assert (AX : (if (a1 <? 20)%N then r1 / 2000 else 1) * X <= X).
    { destruct (a1 <? 20)%N eqn:EA; [|lra]. apply N.ltb_lt in EA. destruct C as [C|C]; [|lia]. apply Rle_trans with (1 * X); [apply Rmult_le_compat_r; lra|lra]. }
    destruct (Rlt_dec r1 1300).
    + assert (1 <= exp ((1300 - r1) / 150)) by (pose proof (exp_ineq1_le ((1300 - r1) / 150)); lra). apply Rmin_glb; [eapply Rle_trans; [apply Rmin_l|lra]|]. eapply Rle_trans; [apply Rmin_r|]. eapply Rle_trans; [apply Rmin_l|lra].
    + rewrite Rplus_0_r. apply Rle_min_compat_r. exact AX.
  - intros C. apply M2. destruct (Rlt_dec r1 1300); [exfalso; destruct C as [C|[C _]]; lra|]. rewrite Rplus_0_r. apply Rle_max_compat_l, Rle_min_compat_r.
    destruct (a1 <? 20)%N eqn:EA; [|lra]. apply N.ltb_lt in EA. destruct C as [C|[_ C]]; [|lia]. apply Rle_trans with (1 * X); [lra|apply Rmult_le_compat_r; lra].
  - intros C CA CI PW. apply M3; auto. destruct (Rlt_dec r1 1300); [lra|]. apply N.ltb_lt in CA. rewrite CA, Rplus_0_r.
    assert (I5 : 5 <= i) by (unfold i; change 5 with (IZR 5); apply IZR_le; lia).
    assert (J5 : dwz_J a1 = 5) by (unfold dwz_J; apply N.ltb_lt in CA; destruct (a1 <=? 20)%N eqn:Z; [reflexivity|apply N.leb_gt in Z; lia]).
    assert (XU : X <= 21). { unfold X. rewrite J5. assert ((r1 / 1000) ^ 4 <= 2 ^ 4) by (apply pow_incr; lra). lra. }
    assert (XL : 6 < X). { unfold X. rewrite J5. assert (1.3 ^ 4 <= (r1 / 1000) ^ 4) by (apply pow_incr; lra). lra. }
    assert (CAP : 25 <= Rmin 30 (5 * i)) by (apply Rmin_glb; lra). set (cap := Rmin 30 (5 * i)) in *.
    assert (LT : r1 / 2000 * X < X) by (apply Rlt_le_trans with (1 * X); [apply Rmult_lt_compat_r; lra|lra]).
    rewrite (Rmin_left X) by lra. rewrite Rmin_left by lra. rewrite (Rmax_right 5 X) by lra. apply Rmax_lub_lt; lra.
  - intros C CA CI PW. apply M4; auto. destruct (Rlt_dec r1 1300); [lra|]. apply N.ltb_lt in CA. rewrite CA, Rplus_0_r.
    assert (I5 : 6 <= i) by (unfold i; change 6 with (IZR 6); apply IZR_le; lia).
    assert (J5 : dwz_J a1 = 5) by (unfold dwz_J; apply N.ltb_lt in CA; destruct (a1 <=? 20)%N eqn:Z; [reflexivity|apply N.leb_gt in Z; lia]).
    assert (XU : X < 29). { unfold X. rewrite J5. assert ((r1 / 1000) ^ 4 <= 2.2 ^ 4) by (apply pow_incr; lra). lra. }
    assert (CAP : Rmin 30 (5 * i) = 30) by (apply Rmin_left; lra). rewrite CAP.
    assert (LT : X < r1 / 2000 * X) by (apply Rle_lt_trans with (1 * X); [lra|apply Rmult_lt_compat_r; lra]).
    rewrite (Rmin_left X) by lra. rewrite (Rmax_right 5 X) by lra. eapply Rlt_le_trans; [|apply Rmax_r]. apply Rmin_glb_lt; lra.
Qed.

(** C123: the influence of age on one game. *)
Lemma dwz_E_age r a b S We i j : (a <= b)%N -> 1 <= i <= j -> r <= 2000 \/ (20 <= a)%N \/ S < We -> dwz_E r a S We i <= dwz_E r b S We j.
Proof.
  intros AB [I1 IJ] C. unfold dwz_E. apply Rle_max_compat_l. apply Rmin_glb.
  - eapply Rle_trans; [apply Rmin_l|]. unfold dwz_raw_E. apply Rplus_le_compat_r.
    assert (J : dwz_J a <= dwz_J b). { unfold dwz_J. destruct (a <=? 20)%N eqn:A1, (b <=? 20)%N eqn:B1; repeat rewrite ?N.leb_le, ?N.leb_gt in *; try lra; try lia; destruct (a <=? 25)%N eqn:A2, (b <=? 25)%N eqn:B2; repeat rewrite ?N.leb_le, ?N.leb_gt in *; try lra; lia. }
    pose proof (pow4_nonneg (r / 1000)) as P4. pose proof (dwz_J5 a) as J5. unfold dwz_acc. destruct (a <? 20)%N eqn:A0, (b <? 20)%N eqn:B0; rewrite ?N.ltb_lt, ?N.ltb_ge in *.
    + assert (dwz_J a = dwz_J b) as ->; [|lra]. unfold dwz_J. replace (a <=? 20)%N with true by (symmetry; apply N.leb_le; lia). now replace (b <=? 20)%N with true by (symmetry; apply N.leb_le; lia).
    + destruct (Rle_dec We S); [|lra]. destruct C as [C|[C|C]]; [|lia|lra]. apply Rle_trans with (1 * ((r / 1000) ^ 4 + dwz_J a)); [apply Rmult_le_compat_r; lra|lra].
    + lia.
    + lra.
  - eapply Rle_trans; [apply Rmin_r|]. assert (Rmin 30 (5 * i) <= Rmin 30 (5 * j)) by (apply Rle_min_compat_l; lra).
    destruct (Rlt_dec r 1300); [destruct (Rle_dec S We)|]; lra.
Qed.
Lemma dwz_upd_dev r E E' n S We : 5 <= E <= E' -> 0 <= n -> Rabs (dwz_upd r E' n S We - r) <= Rabs (dwz_upd r E n S We - r).
Proof.
  intros H Hn. unfold dwz_upd. replace (r + 800 / (E' + n) * (S - We) - r) with (800 / (E' + n) * (S - We)) by ring. replace (r + 800 / (E + n) * (S - We) - r) with (800 / (E + n) * (S - We)) by ring.
  rewrite !Rabs_mult. apply Rmult_le_compat_r; [apply Rabs_pos|]. assert (0 < / (E' + n) <= / (E + n)) by (split; [apply Rinv_0_lt_compat|apply Rinv_le_contravar]; lra). unfold Rdiv. rewrite !Rabs_right by lra. lra.
Qed.
Lemma C123_period_proof : forall r i j a b rs, (1 <= i <= j)%N -> (a <= b)%N ->
  let games := map (fun g : R * N * N * Outcomes => let '(x, k, y, o) := g in (mkDwz (Fin x) k y, o)) rs in
  let S := Rsum (map (fun g : R * N * N * Outcomes => points (snd g)) rs) in
  let We := Rsum (map (fun g : R * N * N * Outcomes => elo_E r (fst (fst (fst g)))) rs) in
  r <= 2000 \/ (20 <= a)%N \/ S < We ->
  exists x y, dwz_rating (dwz_rating_period (mkDwz (Fin r) i a) games) = Fin x /\ dwz_rating (dwz_rating_period (mkDwz (Fin r) j b) games) = Fin y /\
    Rabs (y - r) <= Rabs (x - r) /\ (We < S -> r < y <= x) /\ (S < We -> x <= y < r).
Proof.
  intros * HI AB games S We C. unfold games. rewrite !C22_formula_proof by lia. fold S We. cbn [dwz_rating]. do 2 eexists. split; [reflexivity|]. split; [reflexivity|].
  assert (HE : 5 <= dwz_E r a S We (IZR (Z.of_N i)) <= dwz_E r b S We (IZR (Z.of_N j))).
  { split; [apply dwz_E_ge5|]. apply dwz_E_age; auto. split; [change 1 with (IZR 1)|]; apply IZR_le; lia. }
  pose proof (dwz_upd_dev r _ _ (INR (length rs)) S We HE (pos_INR _)) as D. pose proof (pos_INR (length rs)) as N0. set (n := INR (length rs)) in *.
  split; [exact D|]. unfold dwz_upd in *. set (Ea := dwz_E r a S We _) in *. set (Eb := dwz_E r b S We _) in *.
  assert (0 < 800 / (Ea + n)) by (apply Rdiv_lt_0_compat; lra). assert (0 < 800 / (Eb + n)) by (apply Rdiv_lt_0_compat; lra).
  split; intros L.
  - assert (0 < 800 / (Ea + n) * (S - We)) by (apply Rmult_lt_0_compat; lra). assert (0 < 800 / (Eb + n) * (S - We)) by (apply Rmult_lt_0_compat; lra). rewrite !Rabs_right in D by lra. lra.
  - assert (0 < 800 / (Ea + n) * (We - S)) by (apply Rmult_lt_0_compat; lra). assert (0 < 800 / (Eb + n) * (We - S)) by (apply Rmult_lt_0_compat; lra). rewrite !Rabs_left in D by lra. lra.
Qed.
Lemma C123_game_proof : forall r i j a b r2 i2 a2 o, (1 <= i <= j)%N -> (1 <= i2)%N -> (a <= b)%N -> r <= 2000 \/ (20 <= a)%N \/ o = LOSS ->
  exists x y, dwz_rating (fst (dwz (mkDwz (Fin r) i a) (mkDwz (Fin r2) i2 a2) o)) = Fin x /\ dwz_rating (fst (dwz (mkDwz (Fin r) j b) (mkDwz (Fin r2) i2 a2) o)) = Fin y /\
    Rabs (y - r) <= Rabs (x - r) /\ (o = WIN -> r < y <= x) /\ (o = LOSS -> x <= y < r).
Proof.
  intros * HI HI2 AB C. pose proof (C22_single_proof r i a r2 i2 a2 o ltac:(lia) HI2) as P. pose proof (C22_single_proof r j b r2 i2 a2 o ltac:(lia) HI2) as Q. rewrite <- P, <- Q. clear P Q.
  pose proof (elo_E_range r r2) as RE.
  destruct (C123_period_proof r i j a b [(r2, i2, a2, o)] HI AB) as (x & y & X & Y & D & U & V).
  { destruct C as [C|[C|C]]; auto. right. right. subst o. cbn [map fst snd points]. rewrite !Rsum_cons, !Rsum_nil. lra. }
  exists x, y. split; [exact X|]. split; [exact Y|]. split; [exact D|]. cbn [map fst snd points] in U, V. rewrite !Rsum_cons, !Rsum_nil in U, V. split; intros ->; cbn [points] in U, V; [apply U|apply V]; lra.
Qed.
(** Above 2000 the "acceleration" is a brake. *)
Lemma C123_refuted_proof : forall r i a r2 i2 a2, 2000 < r <= 2200 -> (6 <= i)%N -> (a < 20)%N -> (1 <= i2)%N ->
  exists x y, dwz_rating (fst (dwz (mkDwz (Fin r) i a) (mkDwz (Fin r2) i2 a2) WIN)) = Fin x /\ dwz_rating (fst (dwz (mkDwz (Fin r) i 20) (mkDwz (Fin r2) i2 a2) WIN)) = Fin y /\ r < x < y.
Proof.
  intros * C HI HA HI2. rewrite !dwz_eval by (auto; lia). cbn [fst dwz_rating points]. do 2 eexists. split; [reflexivity|]. split; [reflexivity|].
  pose proof (elo_E_range r r2) as RE. rewrite !dwz_E_above by lra. apply N.ltb_lt in HA. rewrite HA. change (20 <? 20)%N with false. cbv iota.
  assert (J5 : dwz_J a = 5) by (unfold dwz_J; apply N.ltb_lt in HA; destruct (a <=? 20)%N eqn:Z; [reflexivity|apply N.leb_gt in Z; lia]). rewrite J5. change (dwz_J 20) with 5.
  set (X := (r / 1000) ^ 4 + 5). assert (XU : X < 29). { unfold X. assert ((r / 1000) ^ 4 <= 2.2 ^ 4) by (apply pow_incr; lra). lra. }
  assert (X5 : 5 <= X) by (unfold X; pose proof (pow4_nonneg (r / 1000)); lra).
  assert (I6 : 6 <= NR i) by (unfold NR; change 6 with (IZR 6); apply IZR_le; lia). rewrite (Rmin_left 30) by lra. rewrite Rmult_1_l, (Rmin_left X) by lra. rewrite (Rmax_right 5 X) by lra.
  assert (LT : X < Rmax 5 (Rmin (r / 2000 * X) 30)). { assert (X < r / 2000 * X) by (apply Rle_lt_trans with (1 * X); [lra|apply Rmult_lt_compat_r; lra]). eapply Rlt_le_trans; [|apply Rmax_r]. apply Rmin_glb_lt; lra. }
  set (Y := Rmax 5 _) in *. unfold dwz_upd. assert (0 < / (Y + 1) < / (X + 1)) by (split; [apply Rinv_0_lt_compat|apply Rinv_lt_contravar; [apply Rmult_lt_0_compat|]]; lra).
  assert (0 < 800 / (Y + 1) * (1 - elo_E r r2)) by (apply Rmult_lt_0_compat; [apply Rdiv_lt_0_compat|]; lra).
  assert (800 / (Y + 1) * (1 - elo_E r r2) < 800 / (X + 1) * (1 - elo_E r r2)) by (apply Rmult_lt_compat_r; unfold Rdiv; lra). lra.
Qed.
