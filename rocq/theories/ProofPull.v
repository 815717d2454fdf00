(** Proofs of C142: uncertainty pulls the expected score towards one half. *)
From Coq Require Import ZArith NArith List Bool Reals Lra Lia.
From Verif Require Import Arith XR Tac ModelLib ModelGlicko ModelGlicko2 ModelSticko ModelBoost ModelWengLin ModelTS Spec SpecIn SpecTS SpecInTS
  ProofElo ProofGlicko ProofGlicko2 ProofSticko ProofBoost ProofWengLin ProofRematch ProofTS MathTS MathTSInv MathTSMono MathTSLip SpecNormal ProofMore.
Import Spec ListNotations.
Local Open Scope R_scope.

Lemma half_lt k h h' D : 0 <= k -> 0 <= h < h' -> 0 < k -> 0 < D -> 1 / 2 < lg (- (D / sqrt (1 + k * h'))) < lg (- (D / sqrt (1 + k * h))).
Proof.
  intros _ Hh Hk HD. assert (A : 0 < sqrt (1 + k * h)) by (apply sqrt_lt_R0; nra). assert (B : sqrt (1 + k * h) < sqrt (1 + k * h')) by (apply sqrt_lt_1_alt; nra).
  assert (I : 0 < / sqrt (1 + k * h') < / sqrt (1 + k * h)) by (split; [apply Rinv_0_lt_compat; lra|apply Rinv_lt_contravar; [nra|lra]]). rewrite <- lg_0. unfold Rdiv. split; apply lg_lt; nra.
Qed.
(** The logistic curve near zero, and how fast the argument fades. *)
Lemma lg_near u : Rabs (lg u - 1 / 2) <= Rabs u.
Proof.
  assert (P : forall u, 0 <= u -> 0 <= 1 / 2 - lg u <= u).
  { clear u. intros u H. split; [rewrite <- lg_0; destruct H as [H| <-]; [pose proof (lg_lt 0 u H); lra|lra]|]. unfold lg. pose proof (exp_pos u) as E. pose proof (exp_ineq1_le (- u)) as Q. rewrite exp_Ropp in Q.
    apply Rmult_le_reg_r with (1 + exp u); [lra|]. replace ((1 / 2 - / (1 + exp u)) * (1 + exp u)) with ((exp u - 1) / 2) by (field; lra). assert (X : (1 - u) * exp u <= 1). { apply Rmult_le_reg_r with (/ exp u); [now apply Rinv_0_lt_compat|]. rewrite Rmult_assoc, Rinv_r, Rmult_1_r, Rmult_1_l by lra. lra. } nra. }
  destruct (Rle_dec 0 u) as [H|H]; [pose proof (P u H); rewrite (Rabs_pos_eq u) by auto; apply Rabs_le; lra|]. pose proof (P (- u) ltac:(lra)) as Q. rewrite lg_neg in Q. rewrite (Rabs_left u) by lra. apply Rabs_le. lra.
Qed.
Lemma fade k D eps : 0 < k -> 0 < eps -> exists H, 0 < H /\ forall h, H <= h -> Rabs (lg (D / sqrt (1 + k * h)) - 1 / 2) < eps.
Proof.
  intros Hk He. set (M := Rabs D / eps + 1). assert (HM : 1 <= M) by (unfold M; assert (0 <= Rabs D / eps) by (apply Rmult_le_pos; [apply Rabs_pos|left; now apply Rinv_0_lt_compat]); lra). exists (M ^ 2 / k). split; [apply Rdiv_lt_0_compat; [apply pow_lt; lra|auto]|]. intros h Hh.
  assert (S : M < sqrt (1 + k * h)). { rewrite <- (sqrt_pow2 M) by lra. apply sqrt_lt_1_alt. split; [apply pow2_ge_0|]. apply (Rmult_le_compat_l k) in Hh; [|lra]. replace (k * (M ^ 2 / k)) with (M ^ 2) in Hh by (field; lra). lra. }
  eapply Rle_lt_trans; [apply lg_near|]. unfold Rdiv. rewrite Rabs_mult, (Rabs_pos_eq (/ sqrt _)) by (left; apply Rinv_0_lt_compat; lra). apply Rmult_lt_reg_r with (sqrt (1 + k * h)); [lra|]. rewrite Rmult_assoc, Rinv_l, Rmult_1_r by lra.
  apply Rlt_le_trans with (eps * M); [unfold M; replace (eps * (Rabs D / eps + 1)) with (Rabs D + eps) by (field; lra); lra|apply Rmult_le_compat_l; lra].
Qed.
Lemma glicko_pull a A A' b B B' : b < a -> A ^ 2 + B ^ 2 < A' ^ 2 + B' ^ 2 -> exists e e', fst (glicko_expected_score (mkGlicko (Fin a) (Fin A)) (mkGlicko (Fin b) (Fin B))) = Fin e /\
  fst (glicko_expected_score (mkGlicko (Fin a) (Fin A')) (mkGlicko (Fin b) (Fin B'))) = Fin e' /\ 1 / 2 < e' < e.
Proof.
  intros H L. rewrite (glicko_exp_lg a A b B _ eq_refl), (glicko_exp_lg a A' b B' _ eq_refl). do 2 eexists. do 2 (split; [reflexivity|]). pose proof gq_pos as Q.
  pose proof (half_lt kq (A ^ 2 + B ^ 2) (A' ^ 2 + B' ^ 2) (gq * (a - b)) (Rlt_le _ _ kq_pos) ltac:(pose proof (pow2_ge_0 A); pose proof (pow2_ge_0 B); lra) kq_pos ltac:(apply Rmult_lt_0_compat; lra)) as X.
  replace (gq * ((b - a) / sqrt (1 + kq * (A' ^ 2 + B' ^ 2)))) with (- (gq * (a - b) / sqrt (1 + kq * (A' ^ 2 + B' ^ 2)))) by (unfold Rdiv; ring). replace (gq * ((b - a) / sqrt (1 + kq * (A ^ 2 + B ^ 2)))) with (- (gq * (a - b) / sqrt (1 + kq * (A ^ 2 + B ^ 2)))) by (unfold Rdiv; ring). exact X.
Qed.
Lemma sq_far A B H : 0 < H -> sqrt H <= A \/ sqrt H <= B -> H <= A ^ 2 + B ^ 2.
Proof. intros HH HD. pose proof (pow2_ge_0 A). pose proof (pow2_ge_0 B). pose proof (sqrt_pos H). rewrite <- (pow2_sqrt H) by lra. destruct HD as [HD|HD]; [assert (sqrt H ^ 2 <= A ^ 2) by (apply pow_incr; lra)|assert (sqrt H ^ 2 <= B ^ 2) by (apply pow_incr; lra)]; lra. Qed.
Lemma glicko_fade a b eps : 0 < eps -> exists D, forall A B, D <= A \/ D <= B -> exists e, fst (glicko_expected_score (mkGlicko (Fin a) (Fin A)) (mkGlicko (Fin b) (Fin B))) = Fin e /\ Rabs (e - 1 / 2) < eps.
Proof.
  intros He. destruct (fade kq (gq * (b - a)) eps kq_pos He) as (H & H0 & F). exists (sqrt H). intros A B HA. rewrite (glicko_exp_lg a A b B _ eq_refl). eexists. split; [reflexivity|]. specialize (F _ (sq_far A B H H0 HA)). unfold Rdiv in *. rewrite <- Rmult_assoc. exact F.
Qed.
Lemma C142_glicko_proof : forall a b, (forall A A' B B', b < a -> A ^ 2 + B ^ 2 < A' ^ 2 + B' ^ 2 -> exists e e', fst (glicko_expected_score (mkGlicko (Fin a) (Fin A)) (mkGlicko (Fin b) (Fin B))) = Fin e /\
  fst (glicko_expected_score (mkGlicko (Fin a) (Fin A')) (mkGlicko (Fin b) (Fin B'))) = Fin e' /\ 1 / 2 < e' < e) /\
  (forall eps, 0 < eps -> exists D, forall A B, D <= A \/ D <= B -> exists e, fst (glicko_expected_score (mkGlicko (Fin a) (Fin A)) (mkGlicko (Fin b) (Fin B))) = Fin e /\ Rabs (e - 1 / 2) < eps).
Proof. intros a b. split; [intros; now apply glicko_pull|intros; now apply glicko_fade]. Qed.
Lemma C142_sticko_proof : forall a b h beta lambda gamma c, let cfg := mkStickoConfig (Fin h) (Fin beta) (Fin lambda) (Fin gamma) (Fin c) in
  (forall A A' B B', b < a + gamma -> A ^ 2 + B ^ 2 < A' ^ 2 + B' ^ 2 -> exists e e', fst (sticko_expected_score (mkSticko (Fin a) (Fin A)) (mkSticko (Fin b) (Fin B)) cfg) = Fin e /\
  fst (sticko_expected_score (mkSticko (Fin a) (Fin A')) (mkSticko (Fin b) (Fin B')) cfg) = Fin e' /\ 1 / 2 < e' < e) /\
  (forall eps, 0 < eps -> exists D, forall A B, D <= A \/ D <= B -> exists e, fst (sticko_expected_score (mkSticko (Fin a) (Fin A)) (mkSticko (Fin b) (Fin B)) cfg) = Fin e /\ Rabs (e - 1 / 2) < eps).
Proof.
  intros a b h beta lambda gamma c cfg. split.
  - intros A A' B B' H L. unfold cfg. rewrite !C75_sticko_proof. now apply glicko_pull.
  - intros eps He. destruct (glicko_fade (a + gamma) b eps He) as (D & F). exists D. intros A B HA. unfold cfg. rewrite C75_sticko_proof. now apply F.
Qed.
Lemma C142_boost_proof : forall a b c, let cfg := mkBoostConfig (Fin (bc_eta c)) (Fin (bc_k c)) (Fin (bc_b0 c)) (Fin (bc_b1 c)) (Fin (bc_a0 c)) (Fin (bc_a1 c)) (Fin (bc_a2 c)) (Fin (bc_a3 c)) (Fin (bc_a4 c)) in
  (forall A A' B B', b < a + bc_eta c -> A ^ 2 + B ^ 2 < A' ^ 2 + B' ^ 2 -> exists e e', fst (boost_expected_score (mkBoost (Fin a) (Fin A)) (mkBoost (Fin b) (Fin B)) cfg) = Fin e /\
  fst (boost_expected_score (mkBoost (Fin a) (Fin A')) (mkBoost (Fin b) (Fin B')) cfg) = Fin e' /\ 1 / 2 < e' < e) /\
  (forall eps, 0 < eps -> exists D, forall A B, D <= A \/ D <= B -> exists e, fst (boost_expected_score (mkBoost (Fin a) (Fin A)) (mkBoost (Fin b) (Fin B)) cfg) = Fin e /\ Rabs (e - 1 / 2) < eps).
Proof.
  intros a b c cfg. split.
  - intros A A' B B' H L. unfold cfg. rewrite !(C75_boost_proof _ _ _ _ c). now apply glicko_pull.
  - intros eps He. destruct (glicko_fade (a + bc_eta c) b eps He) as (D & F). exists D. intros A B HA. unfold cfg. rewrite (C75_boost_proof _ _ _ _ c). now apply F.
Qed.
Lemma C142_glicko2_proof : forall a b s s', (forall A A' B B' v v', b < a -> A ^ 2 + B ^ 2 < A' ^ 2 + B' ^ 2 -> exists e e', fst (glicko2_expected_score (mkGlicko2 (Fin a) (Fin A) (Fin s)) (mkGlicko2 (Fin b) (Fin B) (Fin s'))) = Fin e /\
  fst (glicko2_expected_score (mkGlicko2 (Fin a) (Fin A') (Fin v)) (mkGlicko2 (Fin b) (Fin B') (Fin v'))) = Fin e' /\ 1 / 2 < e' < e) /\
  (forall eps, 0 < eps -> exists D, forall A B, D <= A \/ D <= B -> exists e, fst (glicko2_expected_score (mkGlicko2 (Fin a) (Fin A) (Fin s)) (mkGlicko2 (Fin b) (Fin B) (Fin s'))) = Fin e /\ Rabs (e - 1 / 2) < eps).
Proof.
  intros a b s s'. pose proof g2s_pos as S0. assert (S2 : 0 < / g2s ^ 2) by (apply Rinv_0_lt_compat, pow_lt; lra).
  assert (HH : forall A B, g2phi A ^ 2 + g2phi B ^ 2 = (A ^ 2 + B ^ 2) * / g2s ^ 2) by (intros A B; unfold g2phi; field; lra). split.
  - intros A A' B B' v v' H L. rewrite (g2_exp_lg a A s b B s' _ eq_refl), (g2_exp_lg a A' v b B' v' _ eq_refl), !HH. do 2 eexists. do 2 (split; [reflexivity|]).
    pose proof (half_lt k2 ((A ^ 2 + B ^ 2) * / g2s ^ 2) ((A' ^ 2 + B' ^ 2) * / g2s ^ 2) (g2mu a - g2mu b) (Rlt_le _ _ k2_pos) ltac:(pose proof (pow2_ge_0 A); pose proof (pow2_ge_0 B); split; [apply Rmult_le_pos; lra|apply Rmult_lt_compat_r; lra]) k2_pos ltac:(rewrite g2mu_diff; apply Rdiv_lt_0_compat; lra)) as X.
    replace (g2mu b - g2mu a) with (- (g2mu a - g2mu b)) by ring. unfold Rdiv in *. rewrite <- !Ropp_mult_distr_l. exact X.
  - intros eps He. destruct (fade k2 (g2mu b - g2mu a) eps k2_pos He) as (H & H0 & F). exists (sqrt H * g2s). intros A B HA. rewrite (g2_exp_lg a A s b B s' _ eq_refl). eexists. split; [reflexivity|]. apply F. apply sq_far; [auto|]. unfold g2phi. destruct HA as [HA|HA]; [left|right]; (apply Rmult_le_reg_r with g2s; [lra|]; unfold Rdiv; rewrite Rmult_assoc, Rinv_l; lra).
Qed.
Lemma C142_wl_proof : forall t1 t1' t2 t2' beta kappa, 0 < beta -> Rsum (map fst t1') = Rsum (map fst t1) -> Rsum (map fst t2') = Rsum (map fst t2) -> Rsum (map fst t2) < Rsum (map fst t1) ->
  Rsum (map (fun p => snd p ^ 2) t1) + Rsum (map (fun p => snd p ^ 2) t2) < Rsum (map (fun p => snd p ^ 2) t1') + Rsum (map (fun p => snd p ^ 2) t2') ->
  let cfg := mkWLConfig (Fin beta) kappa in exists e f e' f', wl_expected_score_two_teams (wlt_in t1) (wlt_in t2) cfg = (Fin e, Fin f) /\ wl_expected_score_two_teams (wlt_in t1') (wlt_in t2') cfg = (Fin e', Fin f') /\ 1 / 2 < e' < e.
Proof.
  intros t1 t1' t2 t2' beta kappa Hb E1 E2 L V cfg. destruct (wl_e t1 t2 beta kappa Hb) as (f & E). destruct (wl_e t1' t2' beta kappa Hb) as (f' & E'). do 4 eexists. split; [exact E|]. split; [exact E'|].
  change (wl_theta t1' = wl_theta t1) in E1. change (wl_theta t2' = wl_theta t2) in E2. change (wl_theta t2 < wl_theta t1) in L. change (wl_s2 t1 + wl_s2 t2 < wl_s2 t1' + wl_s2 t2') in V. rewrite E1, E2.
  pose proof (wl_s2_nonneg t1). pose proof (wl_s2_nonneg t2). pose proof (pow_lt beta 2 Hb). set (c := sqrt (wl_s2 t1 + _ + _)). set (c' := sqrt (wl_s2 t1' + _ + _)). assert (C : 0 < c < c') by (unfold c, c'; split; [apply sqrt_lt_R0; lra|apply sqrt_lt_1_alt; lra]).
  assert (I : 0 < / c' < / c) by (split; [apply Rinv_0_lt_compat; lra|apply Rinv_lt_contravar; nra]). split; [|apply sig_lt; unfold Rdiv; nra]. replace (1 / 2) with (/ (1 + exp (- 0))) by (rewrite Ropp_0, exp_0; lra). apply sig_lt. unfold Rdiv. nra.
Qed.
Lemma C142_ts_proof : forall t1 t1' t2 t2' dp beta tau, 0 < beta -> t1 ++ t2 <> [] -> length t1' = length t1 -> length t2' = length t2 -> Rsum (map fst t1') = Rsum (map fst t1) -> Rsum (map fst t2') = Rsum (map fst t2) -> Rsum (map fst t2) < Rsum (map fst t1) ->
  Rsum (map (fun p => snd p ^ 2) t1) + Rsum (map (fun p => snd p ^ 2) t2) < Rsum (map (fun p => snd p ^ 2) t1') + Rsum (map (fun p => snd p ^ 2) t2') ->
  let cfg := ts_cfg dp beta tau in exists e f e' f', ts_expected_score_two_teams (tst_in t1) (tst_in t2) cfg = (Fin e, Fin f) /\ ts_expected_score_two_teams (tst_in t1') (tst_in t2') cfg = (Fin e', Fin f') /\ 0.4999999 < e' < e.
Proof.
  intros t1 t1' t2 t2' dp beta tau Hb Hn L1 L2 E1 E2 L V cfg. unfold cfg. assert (Hn' : t1' ++ t2' <> []). { intros N. apply app_eq_nil in N. destruct N as [N1 N2]. subst. destruct t1, t2; cbn in *; try discriminate. now apply Hn. }
  rewrite !ts_expected_two_eval by auto. do 4 eexists. do 2 (split; [reflexivity|]). change (side_mu t1' = side_mu t1) in E1. change (side_mu t2' = side_mu t2) in E2. change (side_mu t2 < side_mu t1) in L. change (side_var t1 + side_var t2 < side_var t1' + side_var t2') in V. rewrite E1, E2, L1, L2.
  assert (N0 : 1 <= INR (length t1 + length t2)). { change 1 with (INR 1). apply le_INR. destruct t1, t2; cbn; try lia. now destruct Hn. }
  pose proof (side_var_nonneg t1). pose proof (side_var_nonneg t2). pose proof (pow_lt beta 2 Hb).
  set (c := tsc _ _ (side_var t1) _). set (c' := tsc _ _ (side_var t1') _). assert (C : 0 < c < c') by (unfold c, c', tsc; split; [apply sqrt_lt_R0; nra|apply sqrt_lt_1_alt; nra]).
  assert (I : 0 < / c' < / c) by (split; [apply Rinv_0_lt_compat; lra|apply Rinv_lt_contravar; nra]). split; [apply Phi_pos_ge|apply Phi_lt_pos]; unfold Rdiv; nra.
Qed.
(** The step of the approximation at equality: a favourite below one half. *)
Lemma Phip_small : exists x0, 0 < x0 /\ forall x, 0 < x <= x0 -> Phi x < 1 / 2.
Proof.
  pose proof Phi_0 as P0. set (d := Phi 0 - 1 / 2). assert (D : 0 < d) by (unfold d; lra). exists d. split; [auto|]. intros x Hx. rewrite Phi_Phip by lra. pose proof (Phip_close 0 x ltac:(lra)) as [_ C].
  assert (E : Phip 0 = 1 - Phi 0). { unfold Phip. rewrite Phi_neg by lra. replace (0 / sqrt 2) with 0 by (unfold Rdiv; ring). replace (- 0 / sqrt 2) with 0 by (unfold Rdiv; ring). reflexivity. }
  pose proof (Ncdf_lip x 0 0.4 (fun z _ => phi_le z)) as N. rewrite Rminus_0_r, (Rabs_pos_eq x) in N by lra. pose proof (Rle_abs (Ncdf x - Ncdf 0)). unfold d in *. lra.
Qed.
Lemma C142_ts_refuted_proof : forall m1 m2 s2 dp beta tau, 0 < beta -> m2 < m1 -> exists S, 0 < S /\ forall s1, S <= s1 -> exists e f, ts_expected_score (ts_in (m1, s1)) (ts_in (m2, s2)) (ts_cfg dp beta tau) = (Fin e, Fin f) /\ e < 1 / 2.
Proof.
  intros m1 m2 s2 dp beta tau Hb L. destruct Phip_small as (x0 & X0 & F). exists ((m1 - m2) / x0). split; [apply Rdiv_lt_0_compat; lra|]. intros s1 Hs. rewrite ts_expected_eval by auto. do 2 eexists. split; [reflexivity|]. set (c := tsc _ _ _ _).
  assert (S1 : 0 < (m1 - m2) / x0) by (apply Rdiv_lt_0_compat; lra). assert (C : s1 <= c). { unfold c, tsc. rewrite <- (sqrt_pow2 s1) at 1 by lra. apply sqrt_le_1_alt. pose proof (pow2_ge_0 s2). pose proof (pow2_ge_0 beta). lra. }
  apply F. split; [apply Rdiv_lt_0_compat; lra|]. apply Rmult_le_reg_r with c; [lra|]. unfold Rdiv. rewrite Rmult_assoc, Rinv_l, Rmult_1_r by lra. assert (Q : x0 * ((m1 - m2) / x0) <= x0 * c) by (apply Rmult_le_compat_l; lra). replace (x0 * ((m1 - m2) / x0)) with (m1 - m2) in Q by (field; lra). lra.
Qed.
(** The limit for teams: c passes every bound with the total variance. *)
Lemma far_c D eps : 0 < eps -> exists V, 0 < V /\ forall v r, V <= v -> 0 <= r -> 0 < sqrt (v + r) /\ Rabs (D / sqrt (v + r)) < eps.
Proof.
  intros He. set (M := Rabs D / eps + 1). assert (HM : 1 <= M) by (unfold M; assert (0 <= Rabs D / eps) by (apply Rmult_le_pos; [apply Rabs_pos|left; now apply Rinv_0_lt_compat]); lra). exists (M ^ 2). split; [apply pow_lt; lra|]. intros v r Hv Hr.
  assert (S : M <= sqrt (v + r)) by (rewrite <- (sqrt_pow2 M) by lra; apply sqrt_le_1_alt; lra). split; [lra|].
  unfold Rdiv. rewrite Rabs_mult, (Rabs_pos_eq (/ sqrt _)) by (left; apply Rinv_0_lt_compat; lra). apply Rmult_lt_reg_r with (sqrt (v + r)); [lra|]. rewrite Rmult_assoc, Rinv_l, Rmult_1_r by lra.
  apply Rlt_le_trans with (eps * M); [unfold M; replace (eps * (Rabs D / eps + 1)) with (Rabs D + eps) by (field; lra); lra|apply Rmult_le_compat_l; lra].
Qed.
Lemma C142_wl_limit_proof : forall a b eps beta kappa, 0 < beta -> 0 < eps -> exists V, forall t1 t2, Rsum (map fst t1) = a -> Rsum (map fst t2) = b ->
  V <= Rsum (map (fun p => snd p ^ 2) t1) + Rsum (map (fun p => snd p ^ 2) t2) -> exists e f, wl_expected_score_two_teams (wlt_in t1) (wlt_in t2) (mkWLConfig (Fin beta) kappa) = (Fin e, Fin f) /\ Rabs (e - 1 / 2) < eps.
Proof.
  intros a b eps beta kappa Hb He. destruct (far_c (- (a - b)) eps He) as (V & _ & F). exists V. intros t1 t2 E1 E2 HV. destruct (wl_e t1 t2 beta kappa Hb) as (f & E). do 2 eexists. split; [exact E|].
  change (wl_theta t1 = a) in E1. change (wl_theta t2 = b) in E2. change (V <= wl_s2 t1 + wl_s2 t2) in HV. rewrite E1, E2. destruct (F (wl_s2 t1 + wl_s2 t2) (2 * beta ^ 2) HV ltac:(pose proof (pow2_ge_0 beta); lra)) as [_ G].
  eapply Rle_lt_trans; [exact (lg_near (- ((a - b) / sqrt (wl_s2 t1 + wl_s2 t2 + 2 * beta ^ 2))))|]. replace (- ((a - b) / sqrt (wl_s2 t1 + wl_s2 t2 + 2 * beta ^ 2))) with (- (a - b) / sqrt (wl_s2 t1 + wl_s2 t2 + 2 * beta ^ 2)) by (unfold Rdiv; ring). exact G.
Qed.
Lemma rabs_inv a b : Rabs a <= b -> - b <= a <= b.
Proof. intros H. pose proof (Rle_abs a). pose proof (Rle_abs (- a)). rewrite Rabs_Ropp in *. lra. Qed.
Lemma Phi_near x : Rabs (Phi x - 1 / 2) <= 0.00000005 + Rabs x.
Proof.
  pose proof Phi_0 as P0. assert (P : forall x, 0 < x -> Rabs (Phi x - 1 / 2) <= 0.00000005 + x).
  { clear x. intros x Hx. rewrite Phi_Phip by lra. pose proof (Phip_close 0 x ltac:(lra)) as [C0 C]. assert (E : Phip 0 = 1 - Phi 0). { unfold Phip. rewrite Phi_neg by lra. replace (0 / sqrt 2) with 0 by (unfold Rdiv; ring). replace (- 0 / sqrt 2) with 0 by (unfold Rdiv; ring). reflexivity. }
    pose proof (Ncdf_lip x 0 0.4 (fun z _ => phi_le z)) as N. rewrite Rminus_0_r, (Rabs_pos_eq x) in N by lra. apply rabs_inv in N. pose proof (MathTSNorm.Ncdf_mono 0 x ltac:(lra)). apply Rabs_le. lra. }
  destruct (Rtotal_order x 0) as [H|[->|H]].
  - pose proof (P (- x) ltac:(lra)) as Q. pose proof (Phi_compl x ltac:(lra)) as K. rewrite (Rabs_left x) by lra. apply rabs_inv in Q. apply Rabs_le. lra.
  - rewrite Rabs_R0. apply Rabs_le. lra.
  - rewrite (Rabs_pos_eq x) by lra. auto.
Qed.
Lemma C142_ts_limit_proof : forall a b eps dp beta tau, 0 < beta -> 0 < eps -> exists V, forall t1 t2, Rsum (map fst t1) = a -> Rsum (map fst t2) = b ->
  V <= Rsum (map (fun p => snd p ^ 2) t1) + Rsum (map (fun p => snd p ^ 2) t2) -> exists e f, ts_expected_score_two_teams (tst_in t1) (tst_in t2) (ts_cfg dp beta tau) = (Fin e, Fin f) /\ Rabs (e - 1 / 2) < 0.00000005 + eps.
Proof.
  intros a b eps dp beta tau Hb He. destruct (far_c (a - b) eps He) as (V & V0 & F). exists V. intros t1 t2 E1 E2 HV.
  assert (Hn : t1 ++ t2 <> []). { intros N. apply app_eq_nil in N. destruct N as [-> ->]. unfold Rsum in HV. cbn in HV. lra. }
  rewrite ts_expected_two_eval by auto. do 2 eexists. split; [reflexivity|]. change (side_mu t1 = a) in E1. change (side_mu t2 = b) in E2. change (V <= side_var t1 + side_var t2) in HV. rewrite E1, E2.
  eapply Rle_lt_trans; [apply Phi_near|]. apply Rplus_lt_compat_l. unfold tsc. destruct (F (side_var t1 + side_var t2) (INR (length t1 + length t2) * beta ^ 2) HV ltac:(apply Rmult_le_pos; [apply pos_INR|apply pow2_ge_0])) as [_ G].
  match goal with |- Rabs (_ / sqrt ?x) < _ => replace x with (side_var t1 + side_var t2 + INR (length t1 + length t2) * beta ^ 2) by ring end. exact G.
Qed.
