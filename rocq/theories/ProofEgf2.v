(** Proofs about EGF handicaps and about long winning streaks. *)
From Coq Require Import ZArith NArith List Bool Reals Lra Lia Arith.PeanoNat.
From Flocq Require Import Core.Raux.
From Verif Require Import Arith XR Tac ModelLib ModelEgf Spec ProofElo ProofUscf ProofEgf.
Import ListNotations.
Local Open Scope R_scope.

(** ** C90: handicap stones *)
Lemma egf_B_lt a b : a < b -> b < 3300 -> egf_B a < egf_B b.
Proof. intros H1 H2. unfold egf_B. assert (ln (3300 - b) < ln (3300 - a)) by (apply ln_increasing; lra). lra. Qed.
Lemma egf_E_opp a b c : b < c -> c < 3300 -> egf_E a c < egf_E a b.
Proof.
  intros H1 H2. rewrite !egf_E_inv. pose proof (egf_B_lt b c H1 H2).
  assert (exp (egf_B b - egf_B a) < exp (egf_B c - egf_B a)) by (apply exp_increasing; lra).
  pose proof (exp_pos (egf_B b - egf_B a)). apply Rinv_lt_contravar; [apply Rmult_lt_0_compat; lra|lra].
Qed.
Lemma eff_pos H r : 0 < H -> eff1 H r = r /\ eff2 H r = r + 100 * (H - 1 / 2).
Proof.
  intros P. unfold eff1, eff2, egf_adj, egf_h1, egf_h2. destruct (Rlt_dec H 0); [lra|]. destruct (Req_EM_T 0 0); [|lra]. destruct (Req_EM_T H 0); lra.
Qed.
Lemma eff_zero r : eff1 0 r = r /\ eff2 0 r = r.
Proof. unfold eff1, eff2, egf_adj, egf_h1, egf_h2. destruct (Rlt_dec 0 0); [lra|]. destruct (Req_EM_T 0 0); lra. Qed.
Lemma C90_stone_proof : forall r1 r2 H, r1 < 3300 -> 0 < H -> r2 + 100 * (H + 1 / 2) < 3300 ->
  egf_expected_score (mkEgf (Fin r1)) (mkEgf (Fin r2)) (mkEgfConfig (Fin (H + 1))) =
  egf_expected_score (mkEgf (Fin r1)) (mkEgf (Fin (r2 + 100))) (mkEgfConfig (Fin H)).
Proof.
  intros r1 r2 H H1 HP H2. destruct (eff_pos (H + 1) r1 ltac:(lra)) as [A _]. destruct (eff_pos (H + 1) r2 ltac:(lra)) as [_ B].
  destruct (eff_pos H r1 HP) as [C _]. destruct (eff_pos H (r2 + 100) HP) as [_ D].
  rewrite !egf_expected_eval by (rewrite ?A, ?B, ?C, ?D; lra). rewrite A, B, C, D. replace (r2 + 100 * (H + 1 - 1 / 2)) with (r2 + 100 + 100 * (H - 1 / 2)) by field. reflexivity.
Qed.
Lemma C90_helps_proof : forall r1 r2 H H', r1 < 3300 -> 1 <= H -> H < H' -> r2 + 100 * (H' - 1 / 2) < 3300 ->
  exists e0 e e',
    egf_expected_score (mkEgf (Fin r1)) (mkEgf (Fin r2)) (mkEgfConfig (Fin 0)) = (Fin e0, Fin (1 - e0)) /\
    egf_expected_score (mkEgf (Fin r1)) (mkEgf (Fin r2)) (mkEgfConfig (Fin H)) = (Fin e, Fin (1 - e)) /\
    egf_expected_score (mkEgf (Fin r1)) (mkEgf (Fin r2)) (mkEgfConfig (Fin H')) = (Fin e', Fin (1 - e')) /\
    e' < e < e0.
Proof.
  intros r1 r2 H H' H1 HP HL H2. destruct (eff_pos H' r1 ltac:(lra)) as [A _]. destruct (eff_pos H' r2 ltac:(lra)) as [_ B].
  destruct (eff_pos H r1 ltac:(lra)) as [C _]. destruct (eff_pos H r2 ltac:(lra)) as [_ D]. destruct (eff_zero r1) as [E _]. destruct (eff_zero r2) as [_ G].
  exists (egf_E r1 r2), (egf_E r1 (r2 + 100 * (H - 1 / 2))), (egf_E r1 (r2 + 100 * (H' - 1 / 2))).
  rewrite !egf_expected_eval by (rewrite ?A, ?B, ?C, ?D, ?E, ?G; lra). rewrite A, B, C, D, E, G. repeat split; apply egf_E_opp; lra.
Qed.

(** ** C91: past 3300 *)
Lemma egf_con_nan r : 3300 < r -> egf_con (Fin r) = NaN.
Proof.
  intros H. unfold egf_con. xr. cbn [fpow XRA xpow]. assert (N : (3300 - r) / 200 < 0) by lra.
  rewrite Reqb_false by lra. rewrite Rltb_false by lra. rewrite Reqb_false by lra.
  replace (Ztrunc (16 / 10)) with 1%Z. rewrite Reqb_false by lra. reflexivity.
  rewrite Ztrunc_floor by lra. symmetry. apply Zfloor_imp. cbn; lra.
Qed.
Lemma egf_above r1 (p2 : EGFRating XR) o c : 3300 < r1 -> fst (egf (mkEgf (Fin r1)) p2 o c) = mkEgf (Fin (-900)).
Proof.
  intros H. unfold egf. destruct (egf_expected_score _ _ _) as [e1 e2]. cbv zeta; cbn [fst egf_rating]. f_equal.
  unfold egf_new_rating. rewrite egf_con_nan by auto. cbn. reflexivity.
Qed.
Lemma egf_at r2 : r2 < 3300 -> fst (egf (mkEgf (Fin 3300)) (mkEgf (Fin r2)) WIN egf_config_new) = mkEgf (Fin (3300 + egf_bon 3300)).
Proof.
  intros H. unfold egf. assert (EE : egf_expected_score (mkEgf (Fin 3300)) (mkEgf (Fin r2)) egf_config_new = (Fin 1, Fin 0)).
  { unfold egf_expected_score, egf_config_new. change (@fofZ XR XRA 0) with (Fin 0). rewrite egf_split_eval. cbn [egf_rating].
    destruct (eff_zero r2) as [_ G]. unfold eff2 in G. replace (egf_h1 0) with 0 by (unfold egf_h1; destruct (Rlt_dec 0 0); lra).
    rewrite egf_beta_eval by (rewrite G; lra). rewrite G.
    assert (B : egf_beta (Fin 3300) (Fin 0) = Inf false).
    { unfold egf_beta. xr. rewrite Reqb_true by reflexivity. cbv zeta. xr. replace (3300 - 0 - 3300) with 0 by ring. cbn [fln XRA xln].
      rewrite Rltb_false by lra. rewrite Reqb_true by reflexivity. cbn [fmul XRA xmul fofZ]. rewrite Reqb_false by lra. rewrite Rltb_true by lra. reflexivity. }
    rewrite B. cbv zeta. cbn [fsub XRA xsub xadd xneg negb fexp xexp]. xr. f_equal; f_equal; field. }
  rewrite EE. cbv zeta. cbn [fst egf_rating]. f_equal. change (to_chess_points WIN) with (Fin 1).
  unfold egf_new_rating. rewrite egf_bonus_eval. assert (C : egf_con (Fin 3300) = Fin 0).
  { unfold egf_con. xr. cbn [fpow XRA xpow]. replace ((3300 - 3300) / 200) with 0 by field. rewrite Reqb_false by lra. rewrite Rltb_false by lra. rewrite Reqb_true by reflexivity. rewrite Rltb_true by lra. reflexivity. }
  rewrite C. xr. f_equal. replace (0 * (1 - 1) + 3300 + egf_bon 3300) with (3300 + egf_bon 3300) by ring. pose proof (egf_bon_pos 3300). rewrite Rmax_left by lra. reflexivity.
Qed.
Lemma egf_bon_dec a b : a <= b -> egf_bon b <= egf_bon a.
Proof.
  intros H. unfold egf_bon. apply Rmult_le_compat_r; [lra|].
  assert (exp ((2300 - b) / 80) <= exp ((2300 - a) / 80)) by (apply exp_mono; lra). pose proof (exp_pos ((2300 - b) / 80)).
  destruct (Req_dec (exp ((2300 - b) / 80)) (exp ((2300 - a) / 80))) as [->|N]; [lra|]. apply Rlt_le, ln_increasing; lra.
Qed.
Definition egf_beat (opp : R) (p : EGFRating XR) : EGFRating XR := fst (egf p (mkEgf (Fin opp)) WIN egf_config_new).
Lemma egf_beat_below opp r : opp < 3300 -> r < 3300 -> exists r', egf_beat opp (mkEgf (Fin r)) = mkEgf (Fin r') /\ r + egf_bon 3300 <= r'.
Proof.
  intros Ho Hr. destruct (eff_zero r) as [E _]. destruct (eff_zero opp) as [_ G]. unfold egf_beat, egf_config_new. change (@fofZ XR XRA 0) with (Fin 0).
  rewrite egf_eval by (rewrite ?E, ?G; lra). cbn [fst]. eexists. split; [reflexivity|]. rewrite E, G. unfold egf_upd. cbn [points].
  eapply Rle_trans; [|apply Rmax_r]. pose proof (egf_C_pos r). pose proof (egf_E_range r opp). pose proof (egf_bon_dec r 3300 ltac:(lra)). nra.
Qed.
Lemma C91_streak_proof : forall r opp, r < 3300 -> opp < 3300 ->
  exists n, Nat.iter n (fun p => fst (egf p (mkEgf (Fin opp)) WIN egf_config_new)) (mkEgf (Fin r)) = mkEgf (Fin (-900)) /\
    exists r', Nat.iter (n - 1) (fun p => fst (egf p (mkEgf (Fin opp)) WIN egf_config_new)) (mkEgf (Fin r)) = mkEgf (Fin r') /\ 3300 < r'.
Proof.
  intros r opp Hr Ho. fold (egf_beat opp). set (b := egf_bon 3300). assert (Hb : 0 < b) by apply egf_bon_pos.
  assert (K : exists m r', Nat.iter m (egf_beat opp) (mkEgf (Fin r)) = mkEgf (Fin r') /\ 3300 < r').
  { assert (S : forall m, (exists k r', Nat.iter k (egf_beat opp) (mkEgf (Fin r)) = mkEgf (Fin r') /\ 3300 <= r') \/
      (exists r', Nat.iter m (egf_beat opp) (mkEgf (Fin r)) = mkEgf (Fin r') /\ r + INR m * b <= r')).
    { induction m as [|m [IH|(r' & E & L)]]; [right; exists r; split; [reflexivity|cbn; lra]|left; exact IH|].
      destruct (Rle_lt_dec 3300 r') as [H|H]; [left; exists m, r'; auto|]. right. destruct (egf_beat_below opp r' Ho H) as (r2 & E2 & L2).
      exists r2. cbn [Nat.iter nat_rect]. change (nat_rect _ (mkEgf (Fin r)) (fun _ => egf_beat opp) m) with (Nat.iter m (egf_beat opp) (mkEgf (Fin r))). rewrite E. split; [exact E2|]. rewrite S_INR. unfold b in *. lra. }
    assert (T : exists k r', Nat.iter k (egf_beat opp) (mkEgf (Fin r)) = mkEgf (Fin r') /\ 3300 <= r').
    { pose (x := (3300 - r) / b). assert (Hx : 0 < x) by (apply Rdiv_lt_0_compat; lra). destruct (archimed x) as [Hu _].
      assert (Hz : (0 < up x)%Z) by (apply lt_IZR; lra). pose (m := Z.to_nat (up x)). assert (Hm : x < INR m) by (unfold m; rewrite INR_IZR_INZ, Z2Nat.id by lia; lra). unfold x in Hm. destruct (S m) as [D|(r' & E & L)]; [exact D|]. exists m, r'. split; auto.
      assert (3300 - r <= INR m * b); [|lra]. apply Rlt_le, Rmult_lt_reg_r with (/ b); [now apply Rinv_0_lt_compat|]. rewrite (Rmult_assoc (INR m)), Rinv_r by lra. unfold Rdiv in Hm. lra. }
    destruct T as (k & r' & E & [L|L]); [exists k, r'; auto|]. exists (Datatypes.S k), (3300 + b). split; [|lra].
    cbn [Nat.iter nat_rect]. change (nat_rect _ (mkEgf (Fin r)) (fun _ => egf_beat opp) k) with (Nat.iter k (egf_beat opp) (mkEgf (Fin r))). rewrite E, <- L. now apply egf_at. }
  destruct K as (m & r' & E & L). exists (S m). split; [|exists r'; split; [|exact L]].
  - cbn [Nat.iter nat_rect]. change (nat_rect _ (mkEgf (Fin r)) (fun _ => egf_beat opp) m) with (Nat.iter m (egf_beat opp) (mkEgf (Fin r))). rewrite E. now apply egf_above.
  - cbn [Nat.sub]. rewrite Nat.sub_0_r. exact E.
Qed.
(** A handicap that lifts the receiver above 3300 makes both expectations NaN. *)
Lemma C91_handicap_proof : forall r1 r2 o H, r1 < 3300 -> r2 < 3300 -> 0 < H -> 3300 < r2 + 100 * (H - 1 / 2) ->
  egf (mkEgf (Fin r1)) (mkEgf (Fin r2)) o (mkEgfConfig (Fin H)) = (mkEgf (Fin (-900)), mkEgf (Fin (-900))) /\
  egf_expected_score (mkEgf (Fin r1)) (mkEgf (Fin r2)) (mkEgfConfig (Fin H)) = (NaN, NaN).
Proof.
  intros r1 r2 o H H1 H2 HP HL. assert (EE : egf_expected_score (mkEgf (Fin r1)) (mkEgf (Fin r2)) (mkEgfConfig (Fin H)) = (NaN, NaN)).
  { unfold egf_expected_score. rewrite egf_split_eval. cbn [egf_rating]. assert (B : egf_beta (Fin r2) (Fin (egf_h2 H)) = NaN).
    { unfold egf_h2. destruct (Rlt_dec H 0); [lra|]. unfold egf_beta. xr. rewrite Reqb_false by lra. cbv zeta. xr. cbn [fln XRA xln].
      rewrite Rltb_false by lra. rewrite Reqb_false by lra. reflexivity. }
    rewrite B. reflexivity. }
  split; [|exact EE]. unfold egf. rewrite EE. cbv zeta. cbn [egf_rating]. rewrite !egf_con_eval, !egf_bonus_eval by auto. rewrite points_eval. reflexivity.
Qed.
