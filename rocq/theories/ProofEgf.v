From Coq Require Import ZArith NArith List Bool Reals Lra Lia Permutation.
From Flocq Require Import Core.Raux.
From Verif Require Import Arith XR Tac ModelLib ModelEgf Spec ProofElo ProofUscf.
Import ListNotations.
Local Open Scope R_scope.

Lemma egf_beta_eval r h : 0 < 3300 - egf_adj h r ->
  egf_beta (Fin r) (Fin h) = Fin (egf_B (egf_adj h r)).
Proof.
  unfold egf_beta, egf_adj, egf_B. xr. unfold Reqb. destruct (Req_EM_T h 0); intros H; cbv zeta.
  - xr. replace (3300 - 0 - r) with (3300 - r) by ring. xr. reflexivity.
  - xr. replace (3300 - 100 * (h - 5 / 10) - r) with (3300 - (r + 100 * (h - 1 / 2))) by field. xr. reflexivity.
Qed.

Lemma egf_split_eval H : egf_handicap_split (mkEgfConfig (Fin H)) = (Fin (egf_h1 H), Fin (egf_h2 H)).
Proof.
  unfold egf_handicap_split, egf_h1, egf_h2; cbn [egf_handicap]. cbn [fsignneg XRA]. xr. unfold Rltb.
  destruct (Rlt_dec H 0).
  - now rewrite Rabs_left by lra.
  - now rewrite Rabs_pos_eq by lra.
Qed.

Lemma egf_E_inv a b : egf_E a b = / (1 + exp (egf_B b - egf_B a)).
Proof. unfold egf_E, Rdiv. apply Rmult_1_l. Qed.
Lemma egf_E_range a b : 0 < egf_E a b < 1.
Proof. rewrite egf_E_inv. apply logistic_bounds, exp_pos. Qed.
Lemma egf_E_swap a b : egf_E b a = 1 - egf_E a b.
Proof.
  rewrite !egf_E_inv. replace (egf_B a - egf_B b) with (- (egf_B b - egf_B a)) by ring.
  rewrite exp_Ropp. pose proof (exp_pos (egf_B b - egf_B a)). field. lra.
Qed.

(** Both players' effective ratings for handicap H. *)
Definition eff1 (H r : R) := egf_adj (egf_h1 H) r.
Definition eff2 (H r : R) := egf_adj (egf_h2 H) r.

Lemma egf_expected_eval r1 r2 H : eff1 H r1 < 3300 -> eff2 H r2 < 3300 ->
  egf_expected_score (mkEgf (Fin r1)) (mkEgf (Fin r2)) (mkEgfConfig (Fin H)) =
  (Fin (egf_E (eff1 H r1) (eff2 H r2)), Fin (1 - egf_E (eff1 H r1) (eff2 H r2))).
Proof.
  unfold eff1, eff2. intros H1 H2. unfold egf_expected_score. rewrite egf_split_eval. cbn [egf_rating].
  rewrite !egf_beta_eval by lra. xr. now rewrite egf_E_inv.
Qed.

Lemma egf_con_eval r : r < 3300 -> egf_con (Fin r) = Fin (egf_C r).
Proof.
  intros H. unfold egf_con, egf_C. xr.
  f_equal; f_equal; lra.
Qed.
Lemma egf_bonus_eval r : egf_bonus (Fin r) = Fin (egf_bon r).
Proof. unfold egf_bonus, egf_bon. xr. reflexivity. Qed.
Lemma egf_bon_pos r : 0 < egf_bon r.
Proof.
  unfold egf_bon. apply Rdiv_lt_0_compat; [|lra]. rewrite <- ln_1. apply ln_increasing; [lra|].
  pose proof (exp_pos ((2300 - r) / 80)). lra.
Qed.
Lemma egf_C_pos r : 0 < egf_C r. Proof. apply exp_pos. Qed.

Lemma egf_new_rating_eval r S E : r < 3300 ->
  egf_new_rating (Fin r) (egf_con (Fin r)) (Fin S) (Fin E) (egf_bonus (Fin r)) = Fin (egf_upd r S E).
Proof.
  intros H. unfold egf_new_rating, egf_upd. rewrite egf_con_eval, egf_bonus_eval by auto. xr. f_equal.
  rewrite Rmax_comm. f_equal. ring.
Qed.

Lemma egf_eval r1 r2 o H : r1 < 3300 -> r2 < 3300 -> eff1 H r1 < 3300 -> eff2 H r2 < 3300 ->
  egf (mkEgf (Fin r1)) (mkEgf (Fin r2)) o (mkEgfConfig (Fin H)) =
  (mkEgf (Fin (egf_upd r1 (points o) (egf_E (eff1 H r1) (eff2 H r2)))),
   mkEgf (Fin (egf_upd r2 (points (invert o)) (egf_E (eff2 H r2) (eff1 H r1))))).
Proof.
  intros. unfold egf. rewrite egf_expected_eval by auto. cbn [egf_rating]. cbv zeta.
  rewrite points_eval. change (#1 - Fin (points o))%flt with (Fin (1 - points o)).
  rewrite !egf_new_rating_eval by auto. now rewrite points_invert, <- egf_E_swap.
Qed.

Lemma C13_proof : forall r1 r2 o H,
  r1 < 3300 -> r2 < 3300 -> egf_adj (egf_h1 H) r1 < 3300 -> egf_adj (egf_h2 H) r2 < 3300 ->
  let E := egf_E (egf_adj (egf_h1 H) r1) (egf_adj (egf_h2 H) r2) in
  egf_expected_score (mkEgf (Fin r1)) (mkEgf (Fin r2)) (mkEgfConfig (Fin H)) = (Fin E, Fin (1 - E)) /\
  0 < E < 1 /\
  egf (mkEgf (Fin r1)) (mkEgf (Fin r2)) o (mkEgfConfig (Fin H)) =
    (mkEgf (Fin (egf_upd r1 (points o) E)), mkEgf (Fin (egf_upd r2 (1 - points o) (1 - E)))).
Proof.
  intros r1 r2 o H h1 h2 h3 h4 E. split; [apply egf_expected_eval; auto|].
  split; [apply egf_E_range|]. rewrite egf_eval by auto. unfold eff1, eff2. fold E.
  rewrite egf_E_swap. fold E. now rewrite points_invert.
Qed.

Lemma C14_proof : forall (p1 p2 : EGFRating XR) o (c : EGFConfig XR),
  fleb (Fin (-900)) (egf_rating (fst (egf p1 p2 o c))) = true /\
  fleb (Fin (-900)) (egf_rating (snd (egf p1 p2 o c))) = true.
Proof.
  intros. unfold egf. destruct (egf_expected_score p1 p2 c). cbv zeta; cbn [fst snd egf_rating].
  split; apply xmax_ge.
Qed.

Lemma egf_upd_899 : egf_upd (-899) 0 (1 / 2) = -900.
Proof.
  unfold egf_upd. apply Rmax_left.
  assert (HC : 4199 / 200 <= egf_C (-899)).
  { unfold egf_C. replace ((3300 - -899) / 200) with (4199 / 200) by lra.
    rewrite <- (Rpower_1 (4199 / 200)) at 1 by lra. apply Rle_Rpower; lra. }
  assert (HB : egf_bon (-899) <= 41 / 5).
  { unfold egf_bon. apply Rmult_le_compat_r; [lra|].
    assert (HL : 1 + exp ((2300 - -899) / 80) <= exp 1 * exp (40)).
    { assert (H1 : exp ((2300 - -899) / 80) < exp 40) by (apply exp_increasing; lra).
      assert (H2 : 1 <= exp 40) by (rewrite <- exp_0; apply Rlt_le, exp_increasing; lra).
      assert (H3 : 2 <= exp 1) by (pose proof (exp_ineq1 1); lra). nra. }
    rewrite <- exp_plus in HL. rewrite <- (ln_exp 41). apply ln_mono; [pose proof (exp_pos ((2300 - -899) / 80)); lra|].
    replace 41 with (1 + 40) by lra. exact HL. }
  lra.
Qed.

Lemma egf_B_diff0 r : egf_E r r = 1 / 2.
Proof. rewrite egf_E_inv. replace (egf_B r - egf_B r) with 0 by ring. rewrite exp_0. lra. Qed.

Lemma C14_refuted_proof : exists p opp : EGFRating XR,
  fleb (Fin (-900)) (egf_rating p) = true /\ fleb (Fin (-900)) (egf_rating opp) = true /\
  egf_rating_period p [(opp, LOSS, egf_config_new); (opp, LOSS, egf_config_new)] = mkEgf (Fin (-901)).
Proof.
  exists (mkEgf (Fin (-899))), (mkEgf (Fin (-899))). cbn [egf_rating].
  split; [cbn; apply Rleb_true; lra|]. split; [cbn; apply Rleb_true; lra|].
  unfold egf_rating_period. cbn [egf_rating fold_left egf_period_step].
  change (@egf_config_new XR XRA) with (mkEgfConfig (Fin 0)).
  assert (Ha : eff1 0 (-899) = -899).
  { unfold eff1, egf_h1, egf_adj. destruct (Rlt_dec 0 0); [lra|]. destruct (Req_EM_T 0 0); lra. }
  assert (Hb : eff2 0 (-899) = -899).
  { unfold eff2, egf_h2, egf_adj. destruct (Rlt_dec 0 0); [lra|]. destruct (Req_EM_T 0 0); lra. }
  rewrite egf_expected_eval by lra. cbn [to_chess_points]. rewrite !xr_ofZ.
  rewrite egf_new_rating_eval by lra. rewrite Ha, Hb, egf_B_diff0, egf_upd_899. xr. f_equal. f_equal. lra.
Qed.

Lemma C15_refuted_proof : exists r1 r2 : R,
  fst (egf (mkEgf (Fin r1)) (mkEgf (Fin r2)) WIN egf_config_new) = mkEgf (Fin (-900)) /\ -900 < r1.
Proof.
  exists 3400, 2000. split; [|lra].
  unfold egf. destruct (egf_expected_score _ _ _) as [e1 e2]. cbv zeta; cbn [fst egf_rating]. f_equal.
  assert (N : egf_con (Fin 3400) = NaN).
  { unfold egf_con. xr. cbn [fpow XRA xpow].
    rewrite Reqb_false by lra. rewrite Rltb_false by lra. rewrite Reqb_false by lra.
    replace (Ztrunc (16 / 10)) with 1%Z. rewrite Reqb_false by lra. reflexivity.
    rewrite Ztrunc_floor by lra. symmetry. apply Zfloor_imp. cbn; lra. }
  unfold egf_new_rating. rewrite N. cbn. reflexivity.
Qed.

Lemma C15_partial_proof : forall r1 r2 H r1' r2',
  r1 < 3300 -> r2 < 3300 -> egf_adj (egf_h1 H) r1 < 3300 -> egf_adj (egf_h2 H) r2 < 3300 ->
  egf (mkEgf (Fin r1)) (mkEgf (Fin r2)) WIN (mkEgfConfig (Fin H)) = (mkEgf (Fin r1'), mkEgf (Fin r2')) ->
  r1 < r1'.
Proof.
  intros * h1 h2 h3 h4. rewrite egf_eval by auto. intros [= <- _]. unfold egf_upd; cbn [points].
  eapply Rlt_le_trans; [|apply Rmax_r]. pose proof (egf_C_pos r1). pose proof (egf_bon_pos r1).
  pose proof (egf_E_range (eff1 H r1) (eff2 H r2)). nra.
Qed.

Lemma eff_opp H r : egf_adj (egf_h1 (- H)) r = egf_adj (egf_h2 H) r /\ egf_adj (egf_h2 (- H)) r = egf_adj (egf_h1 H) r.
Proof.
  unfold egf_adj, egf_h1, egf_h2.
  destruct (Rlt_dec (- H) 0), (Rlt_dec H 0); try lra; split;
    repeat (match goal with |- context [Req_EM_T ?a ?b] => destruct (Req_EM_T a b) end); lra.
Qed.

Lemma C16_proof : forall r1 r2 o H,
  r1 < 3300 -> r2 < 3300 -> egf_adj (egf_h1 H) r1 < 3300 -> egf_adj (egf_h2 H) r2 < 3300 ->
  let '(a, b) := egf (mkEgf (Fin r1)) (mkEgf (Fin r2)) o (mkEgfConfig (Fin H)) in
  egf (mkEgf (Fin r2)) (mkEgf (Fin r1)) (invert o) (mkEgfConfig (Fin (- H))) = (b, a) /\
  (let '(x, y) := egf_expected_score (mkEgf (Fin r1)) (mkEgf (Fin r2)) (mkEgfConfig (Fin H)) in
   egf_expected_score (mkEgf (Fin r2)) (mkEgf (Fin r1)) (mkEgfConfig (Fin (- H))) = (y, x)).
Proof.
  intros r1 r2 o H h1 h2 h3 h4. rewrite egf_eval by auto.
  destruct (eff_opp H r1) as [a1 a2], (eff_opp H r2) as [b1 b2].
  assert (c1 : eff1 (- H) r2 = eff2 H r2) by exact b1.
  assert (c2 : eff2 (- H) r1 = eff1 H r1) by exact a2.
  assert (d1 : eff1 (- H) r2 < 3300) by (rewrite c1; exact h4).
  assert (d2 : eff2 (- H) r1 < 3300) by (rewrite c2; exact h3).
  split.
  - rewrite egf_eval by auto. rewrite c1, c2.
    replace (invert (invert o)) with o by (destruct o; reflexivity). reflexivity.
  - rewrite !egf_expected_eval by auto. rewrite c1, c2, (egf_E_swap (eff1 H r1) (eff2 H r2)). f_equal. f_equal. ring.
Qed.

(** Period: sum of the single-game changes computed from the initial rating. *)
Lemma C73_proof : forall r rs, r < 3300 ->
  (forall opp o H, In (opp, o, H) rs -> egf_adj (egf_h1 H) r < 3300 /\ egf_adj (egf_h2 H) opp < 3300) ->
  egf_rating_period (mkEgf (Fin r)) (map (fun g => let '(opp, o, H) := g in (mkEgf (Fin opp), o, mkEgfConfig (Fin H))) rs) =
  mkEgf (Fin (r + Rsum (map (fun g => let '(opp, o, H) := g in
     egf_upd r (points o) (egf_E (egf_adj (egf_h1 H) r) (egf_adj (egf_h2 H) opp)) - r) rs))).
Proof.
  intros r rs Hr Hall. unfold egf_rating_period; cbn [egf_rating].
  assert (G : forall acc, fold_left (egf_period_step (mkEgf (Fin r)) (egf_con (Fin r)) (egf_bonus (Fin r)))
     (map (fun g => let '(opp, o, H) := g in (mkEgf (Fin opp), o, mkEgfConfig (Fin H))) rs) (Fin acc) =
     Fin (acc + Rsum (map (fun g => let '(opp, o, H) := g in
     egf_upd r (points o) (egf_E (egf_adj (egf_h1 H) r) (egf_adj (egf_h2 H) opp)) - r) rs))).
  { induction rs as [|[[opp o] H] rs IH]; intros acc; cbn [map fold_left].
    - rewrite Rsum_nil. f_equal; ring.
    - destruct (Hall opp o H (or_introl eq_refl)) as [h1 h2].
      rewrite Rsum_cons. unfold egf_period_step at 2. rewrite egf_expected_eval by auto. cbn [egf_rating].
      rewrite points_eval, egf_new_rating_eval by auto. unfold eff1, eff2. rewrite xr_sub, xr_add, IH.
      + f_equal. ring.
      + intros; eapply Hall; right; eassumption. }
  rewrite xr_ofZ, G, xr_add. do 2 f_equal. ring.
Qed.
