(** Proofs of C141: one more team in a game, one more player in a team. *)
From Coq Require Import ZArith NArith List Bool Reals Lra Lia Permutation.
From Verif Require Import Arith XR Tac ModelLib ModelWengLin ModelTS Spec SpecIn SpecTS SpecInTS ProofElo ProofWengLin ProofRank ProofTS MathTS ProofFirst.
Import Spec ListNotations.
Local Open Scope R_scope.

Lemma C141_team_proof : forall beta kappa pre post pre' post' t r x, 0 <= kappa -> Forall (fun y => wl_ok (fst y)) (x :: pre ++ (t, r) :: post) -> Permutation (x :: pre ++ post) (pre' ++ post') ->
  let cfg := mkWLConfig (Fin beta) (Fin kappa) in exists a b,
  nth_error (weng_lin_multi_team (map wlr_in (pre ++ (t, r) :: post)) cfg) (length pre) = Some (wlt_in a) /\
  nth_error (weng_lin_multi_team (map wlr_in (pre' ++ (t, r) :: post')) cfg) (length pre') = Some (wlt_in b) /\
  ((r < snd x)%N -> Forall2 (fun p q => fst p < fst q) a b) /\ ((snd x < r)%N -> Forall2 (fun p q => fst q < fst p) a b) /\
  (snd x = r -> Rsum (map fst t) < Rsum (map fst (fst x)) -> Forall2 (fun p q => fst p < fst q) a b) /\ (snd x = r -> Rsum (map fst (fst x)) < Rsum (map fst t) -> Forall2 (fun p q => fst q < fst p) a b) /\
  (snd x = r -> Rsum (map fst t) = Rsum (map fst (fst x)) -> Forall2 (fun p q => fst p = fst q) a b) /\ Forall2 (fun p q => snd q <= snd p) a b.
Proof.
  intros beta kappa pre post pre' post' t r [tx rx] Hk HF HP cfg. inversion HF as [|? ? Hx HF0]; subst. cbn [fst snd] in *. exists (wl_team' beta kappa t r (pre ++ post)), (wl_team' beta kappa t r (pre' ++ post')).
  assert (HF' : Forall (fun y => wl_ok (fst y)) (pre' ++ (t, r) :: post')).
  { rewrite Forall_forall in *. intros y Hy. assert (In y (pre' ++ post') \/ y = (t, r)) by (apply in_app_or in Hy; rewrite in_app_iff; cbn in Hy; intuition). destruct H as [H| ->]; [|apply HF0, in_elt].
    apply (Permutation_in y (Permutation_sym HP)) in H. destruct H as [<-|H]; [exact Hx|]. apply HF0. rewrite in_app_iff in *. cbn. tauto. }
  split; [apply C46_formula_proof; assumption|]. split; [apply C46_formula_proof; assumption|].
  assert (Ht : wl_ok t) by (rewrite Forall_forall in HF0; apply (HF0 (t, r)), in_elt). pose proof (wl_s2_pos t Ht) as U. pose proof (wl_s2_pos tx Hx) as UX. destruct Ht as [_ Hf]. unfold wl_team'. cbv zeta.
  set (fd := fun y : list (R * R) * N => let '(t', r') := y in wls_delta beta (wl_theta t) (wl_s2 t) (wl_theta t') (wl_s2 t') (rank_score r r')). set (fe := fun y : list (R * R) * N => let '(t', r') := y in wls_eta beta (wl_theta t) (wl_s2 t) (wl_theta t') (wl_s2 t')).
  assert (SD : Rsum (map fd (pre' ++ post')) = fd (tx, rx) + Rsum (map fd (pre ++ post))) by (rewrite <- (Rsum_perm _ _ (Permutation_map fd HP)); cbn [map]; now rewrite Rsum_cons).
  assert (SE : Rsum (map fe (pre' ++ post')) = fe (tx, rx) + Rsum (map fe (pre ++ post))) by (rewrite <- (Rsum_perm _ _ (Permutation_map fe HP)); cbn [map]; now rewrite Rsum_cons).
  rewrite SD, SE. set (A := Rsum (map fd _)). set (De := Rsum (map fe _)). rewrite Forall_forall in Hf.
  assert (P : forall p, In p t -> 0 < snd p ^ 2 / wl_s2 t) by (intros p I; apply Rdiv_lt_0_compat; [apply pow_lt, Hf, I|exact U]).
  set (c := wlc beta (wl_s2 t) (wl_s2 tx)). assert (C0 : 0 < c) by (apply wlc_pos; lra). assert (UC : 0 < wl_s2 t / c) by (now apply Rdiv_lt_0_compat). pose proof (wlp_range (wl_theta t) (wl_theta tx) c) as PR.
  assert (FD : fd (tx, rx) = wl_s2 t / c * (rank_score r rx - wlp (wl_theta t) (wl_theta tx) c)) by reflexivity.
  assert (UPW : 0 < fd (tx, rx) -> Forall2 (fun p q => fst p < fst q) (map (wl_player kappa (wl_s2 t) A De) t) (map (wl_player kappa (wl_s2 t) (fd (tx, rx) + A) (fe (tx, rx) + De)) t)).
  { intros L. apply F2_map. intros p I. specialize (P p I). unfold wl_player. cbn [fst]. nra. }
  assert (DOW : fd (tx, rx) < 0 -> Forall2 (fun p q => fst q < fst p) (map (wl_player kappa (wl_s2 t) A De) t) (map (wl_player kappa (wl_s2 t) (fd (tx, rx) + A) (fe (tx, rx) + De)) t)).
  { intros L. apply F2_map. intros p I. specialize (P p I). unfold wl_player. cbn [fst]. nra. }
  split; [|split; [|split; [|split; [|split]]]].
  - intros L. apply UPW. rewrite FD. unfold rank_score. destruct (N.compare_spec r rx); try lia. apply Rmult_lt_0_compat; lra.
  - intros L. apply DOW. rewrite FD. unfold rank_score. destruct (N.compare_spec r rx); try lia. nra.
  - intros -> L. apply UPW. rewrite FD. unfold rank_score. rewrite N.compare_refl. rewrite <- (wlp_self (wl_theta tx) c). pose proof (wlp_lt (wl_theta t) (wl_theta tx) (wl_theta tx) c C0 L). apply Rmult_lt_0_compat; lra.
  - intros -> L. apply DOW. rewrite FD. unfold rank_score. rewrite N.compare_refl. rewrite <- (wlp_self (wl_theta tx) c). pose proof (wlp_lt (wl_theta tx) (wl_theta t) (wl_theta tx) c C0 L). nra.
  - intros -> L. apply F2_map. intros p I. unfold wl_player. cbn [fst]. assert (Z : fd (tx, r) = 0) by (rewrite FD; unfold rank_score; rewrite N.compare_refl; change (wl_theta t = wl_theta tx) in L; rewrite L, wlp_self; ring). rewrite Z. ring.
  - apply F2_map. intros p I. specialize (P p I). specialize (Hf p I). unfold wl_player. cbn [snd]. apply Rmult_le_compat_l; [lra|]. apply sqrt_le_1_alt. apply Rle_max_compat_r. pose proof (wls_eta_nonneg beta (wl_theta t) (wl_s2 t) (wl_theta tx) (wl_s2 tx) U ltac:(lra)) as E0. fold (fe (tx, rx)) in E0. assert (0 <= snd p ^ 2 / wl_s2 t * fe (tx, rx)) by (apply Rmult_le_pos; [lra|exact E0]). lra.
Qed.
Lemma ratio_up D m c c' : 0 < c < c' -> D <= 0 -> 0 <= m -> 0 < m \/ D < 0 -> D / c < (D + m) / c'.
Proof.
  intros Hc HD Hm H. assert (I : 0 < / c' < / c) by (split; [apply Rinv_0_lt_compat; lra|apply Rinv_lt_contravar; nra]). unfold Rdiv. destruct H; nra.
Qed.
Lemma ratio_down D m c c' : 0 < c < c' -> 0 <= D -> m <= 0 -> m < 0 \/ 0 < D -> (D + m) / c' < D / c.
Proof.
  intros Hc HD Hm H. assert (I : 0 < / c' < / c) by (split; [apply Rinv_0_lt_compat; lra|apply Rinv_lt_contravar; nra]). unfold Rdiv. destruct H; nra.
Qed.
Lemma ratio_less D c c' : 0 < c < c' -> 0 < D -> exists m, 0 < m /\ 0 < (D + m) / c' < D / c.
Proof.
  intros Hc HD. exists (D * (c' - c) / c / 2). assert (I : 0 < / c) by (apply Rinv_0_lt_compat; lra). assert (M : 0 < D * (c' - c) / c / 2) by (unfold Rdiv; repeat apply Rmult_lt_0_compat; lra).
  split; [auto|]. split; [apply Rdiv_lt_0_compat; lra|]. apply Rmult_lt_reg_r with c'; [lra|]. replace ((D + D * (c' - c) / c / 2) / c' * c') with (D / c * (c + (c' - c) / 2)) by (field; lra). apply Rmult_lt_compat_l; [apply Rdiv_lt_0_compat; lra|lra].
Qed.
Lemma wl_add t m u : wl_theta (t ++ [(m, u)]) = wl_theta t + m /\ wl_s2 (t ++ [(m, u)]) = wl_s2 t + u ^ 2.
Proof. unfold wl_theta, wl_s2. rewrite !map_app, !Rsum_app. cbn [map fst snd]. rewrite !Rsum_cons, !Rsum_nil. lra. Qed.
Lemma wl_e t1 t2 beta kappa : 0 < beta -> exists e2, wl_expected_score_two_teams (wlt_in t1) (wlt_in t2) (mkWLConfig (Fin beta) kappa) = (Fin (/ (1 + exp (- ((wl_theta t1 - wl_theta t2) / sqrt (wl_s2 t1 + wl_s2 t2 + 2 * beta ^ 2))))), Fin e2).
Proof. intros Hb. destruct (C45_teams_proof t1 t2 beta kappa Hb) as (e1 & e2 & E & -> & _). exists e2. rewrite E. do 6 f_equal. unfold Rdiv. ring. Qed.
Lemma sig_lt a b : a < b -> / (1 + exp (- a)) < / (1 + exp (- b)).
Proof. intros H. pose proof (exp_pos (- a)). pose proof (exp_pos (- b)). pose proof (exp_increasing (- b) (- a) ltac:(lra)). apply Rinv_lt_contravar; [apply Rmult_lt_0_compat; lra|lra]. Qed.
Lemma wl_cc t1 t2 m u beta : 0 < beta -> 0 < u -> 0 < sqrt (wl_s2 t1 + wl_s2 t2 + 2 * beta ^ 2) < sqrt (wl_s2 (t1 ++ [(m, u)]) + wl_s2 t2 + 2 * beta ^ 2).
Proof. intros Hb Hu. destruct (wl_add t1 m u) as [_ ->]. pose proof (wl_s2_nonneg t1). pose proof (wl_s2_nonneg t2). pose proof (pow_lt beta 2 Hb). pose proof (pow_lt u 2 Hu). split; [apply sqrt_lt_R0; lra|apply sqrt_lt_1_alt; lra]. Qed.
Lemma C141_wl_member_proof : forall t1 t2 m u beta kappa, 0 < beta -> 0 < u -> let cfg := mkWLConfig (Fin beta) kappa in let d := Rsum (map fst t1) - Rsum (map fst t2) in exists e f e' f',
  wl_expected_score_two_teams (wlt_in t1) (wlt_in t2) cfg = (Fin e, Fin f) /\ wl_expected_score_two_teams (wlt_in (t1 ++ [(m, u)])) (wlt_in t2) cfg = (Fin e', Fin f') /\
  (d <= 0 -> 0 <= m -> 0 < m \/ d < 0 -> e < e') /\ (0 <= d -> m <= 0 -> m < 0 \/ 0 < d -> e' < e) /\ (d = 0 -> m = 0 -> e' = e).
Proof.
  intros t1 t2 m u beta kappa Hb Hu cfg d. destruct (wl_e t1 t2 beta kappa Hb) as (f & E). destruct (wl_e (t1 ++ [(m, u)]) t2 beta kappa Hb) as (f' & E'). do 4 eexists. split; [exact E|]. split; [exact E'|].
  pose proof (wl_cc t1 t2 m u beta Hb Hu) as C. set (c := sqrt (wl_s2 t1 + _ + _)) in *. set (c' := sqrt (wl_s2 (t1 ++ _) + _ + _)) in *. destruct (wl_add t1 m u) as [-> _]. change d with (wl_theta t1 - wl_theta t2). set (D := wl_theta t1 - wl_theta t2). replace (wl_theta t1 + m - wl_theta t2) with (D + m) by (unfold D; ring).
  split; [|split]; intros.
  - apply sig_lt. now apply ratio_up.
  - apply sig_lt. now apply ratio_down.
  - subst m. rewrite H, Rplus_0_r. unfold Rdiv. now rewrite !Rmult_0_l.
Qed.
Lemma C141_wl_refuted_proof : forall t1 t2 u beta kappa, 0 < beta -> 0 < u -> Rsum (map fst t2) < Rsum (map fst t1) -> let cfg := mkWLConfig (Fin beta) kappa in exists m e f e' f', 0 < m /\
  wl_expected_score_two_teams (wlt_in t1) (wlt_in t2) cfg = (Fin e, Fin f) /\ wl_expected_score_two_teams (wlt_in (t1 ++ [(m, u)])) (wlt_in t2) cfg = (Fin e', Fin f') /\ e' < e.
Proof.
  intros t1 t2 u beta kappa Hb Hu HL cfg. destruct (ratio_less (wl_theta t1 - wl_theta t2) _ _ (wl_cc t1 t2 0 u beta Hb Hu)) as (m & Hm & _ & L); [unfold wl_theta; lra|]. exists m.
  destruct (wl_e t1 t2 beta kappa Hb) as (f & E). destruct (wl_e (t1 ++ [(m, u)]) t2 beta kappa Hb) as (f' & E'). do 4 eexists. split; [exact Hm|]. split; [exact E|]. split; [exact E'|].
  destruct (wl_add t1 m u) as [-> ->]. destruct (wl_add t1 0 u) as [_ S0]. rewrite S0 in L. apply sig_lt. replace (wl_theta t1 + m - wl_theta t2) with (wl_theta t1 - wl_theta t2 + m) by ring. exact L.
Qed.
Lemma ts_add t m u : side_mu (t ++ [(m, u)]) = side_mu t + m /\ side_var (t ++ [(m, u)]) = side_var t + u ^ 2.
Proof. unfold side_mu, side_var. rewrite !map_app, !Rsum_app. cbn [map fst snd]. rewrite !Rsum_cons, !Rsum_nil. lra. Qed.
Lemma ts_cc t1 t2 m u beta : 0 < beta -> t1 <> [] -> 0 < tsc (INR (length t1 + length t2)) beta (side_var t1) (side_var t2) < tsc (INR (length (t1 ++ [(m, u)]) + length t2)) beta (side_var (t1 ++ [(m, u)])) (side_var t2).
Proof.
  intros Hb Hn. destruct (ts_add t1 m u) as [_ ->]. pose proof (side_var_nonneg t1). pose proof (side_var_nonneg t2). pose proof (pow_lt beta 2 Hb). pose proof (pow2_ge_0 u).
  assert (N : 0 < INR (length t1 + length t2)) by (apply lt_0_INR; destruct t1; [congruence|cbn; lia]). assert (N' : INR (length (t1 ++ [(m, u)]) + length t2) = INR (length t1 + length t2) + 1) by (rewrite <- S_INR; f_equal; rewrite app_length; cbn; lia).
  unfold tsc. rewrite N'. split; [apply sqrt_lt_R0|apply sqrt_lt_1_alt]; nra.
Qed.
Lemma C141_ts_member_proof : forall t1 t2 m u dp beta tau, 0 < beta -> t1 <> [] -> let cfg := ts_cfg dp beta tau in let d := Rsum (map fst t1) - Rsum (map fst t2) in exists e f e' f',
  ts_expected_score_two_teams (tst_in t1) (tst_in t2) cfg = (Fin e, Fin f) /\ ts_expected_score_two_teams (tst_in (t1 ++ [(m, u)])) (tst_in t2) cfg = (Fin e', Fin f') /\
  (d <= 0 -> 0 <= m <= - d -> 0 < m \/ d < 0 -> e < e') /\ (0 < d -> - d < m <= 0 -> e' < e).
Proof.
  intros t1 t2 m u dp beta tau Hb Hn cfg d. unfold cfg. rewrite !ts_expected_two_eval by (auto; destruct t1; discriminate || congruence). do 4 eexists. do 2 (split; [reflexivity|]).
  pose proof (ts_cc t1 t2 m u beta Hb Hn) as C. set (c := tsc _ _ (side_var t1) _) in *. set (c' := tsc _ _ (side_var (t1 ++ _)) _) in *. destruct (ts_add t1 m u) as [-> _]. change d with (side_mu t1 - side_mu t2). set (D := side_mu t1 - side_mu t2). replace (side_mu t1 + m - side_mu t2) with (D + m) by (unfold D; ring).
  assert (I : 0 < / c') by (apply Rinv_0_lt_compat; lra). split; intros.
  - apply Phi_lt_neg; [apply ratio_up; auto; lra|]. unfold Rdiv. nra.
  - apply Phi_lt_pos; [apply Rdiv_lt_0_compat; lra|]. apply ratio_down; auto; lra.
Qed.
Lemma C141_ts_refuted_proof : forall t1 t2 u dp beta tau, 0 < beta -> t1 <> [] -> Rsum (map fst t2) < Rsum (map fst t1) -> let cfg := ts_cfg dp beta tau in exists m e f e' f', 0 < m /\
  ts_expected_score_two_teams (tst_in t1) (tst_in t2) cfg = (Fin e, Fin f) /\ ts_expected_score_two_teams (tst_in (t1 ++ [(m, u)])) (tst_in t2) cfg = (Fin e', Fin f') /\ e' < e.
Proof.
  intros t1 t2 u dp beta tau Hb Hn HL cfg. destruct (ratio_less (side_mu t1 - side_mu t2) _ _ (ts_cc t1 t2 0 u beta Hb Hn)) as (m & Hm & P & L); [unfold side_mu; lra|]. exists m. unfold cfg.
  do 4 eexists. split; [exact Hm|]. split; [apply ts_expected_two_eval; [auto|destruct t1; [congruence|discriminate]]|]. split; [apply ts_expected_two_eval; [auto|destruct t1; [congruence|discriminate]]|].
  destruct (ts_add t1 m u) as [-> ->]. destruct (ts_add t1 0 u) as [_ S0]. rewrite S0 in P, L. rewrite app_length in *. cbn [length] in *. replace (side_mu t1 + m - side_mu t2) with (side_mu t1 - side_mu t2 + m) by ring. now apply Phi_lt_pos.
Qed.
