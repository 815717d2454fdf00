(** Proofs of C95: the same result against the same opponent keeps two players in
    the order they were in. *)
From Coq Require Import ZArith NArith List Bool Reals Lra Lia.
From Coquelicot Require Import Coquelicot.
From Verif Require Import Arith XR Tac ModelLib ModelElo ModelFifa ModelIngo ModelUscf ModelEgf ModelGlicko ModelWengLin Spec
  ProofElo ProofFifa ProofIngo ProofUscf ProofEgf ProofEgf2 ProofGlicko ProofWengLin MathIval ProofOrder ProofBoost2.
Import ListNotations.
Local Open Scope R_scope.

Lemma mvt_pos f df a b : a < b -> (forall c, a <= c <= b -> is_derive f c (df c)) -> (forall c, a < c < b -> 0 < df c) -> f a < f b.
Proof.
  intros H D P. destruct (MVT_cor2 f df a b H) as (c & E & Hc); [intros c Hc; apply is_derive_Reals; auto|]. pose proof (P c Hc). nra.
Qed.
(** The logistic function. *)
Definition sg (u : R) : R := / (1 + exp (- u)).
Lemma sg_range u : 0 < sg u < 1.
Proof. unfold sg. pose proof (exp_pos (- u)). split; [apply Rinv_0_lt_compat; lra|]. rewrite <- Rinv_1. apply Rinv_lt_contravar; lra. Qed.
Lemma sg_deriv u : is_derive sg u (sg u * (1 - sg u)).
Proof. unfold sg. pose proof (exp_pos (- u)). auto_derive; [lra|]. field. lra. Qed.
Lemma sg_quarter u : sg u * (1 - sg u) <= 1 / 4.
Proof. pose proof (pow2_ge_0 (sg u - 1 / 2)). nra. Qed.
Lemma elo_E_sg a b : elo_E a b = sg ((a - b) * ln 10 / 400).
Proof. unfold elo_E, sg, Rpower, Rdiv at 1. rewrite Rmult_1_l. do 3 f_equal. field. Qed.
Lemma fifa_We_sg a b : fifa_We a b = sg ((a - b) * ln 10 / 600).
Proof. unfold fifa_We, sg, Rpower, Rdiv at 1. rewrite Rmult_1_l, Rplus_comm. do 3 f_equal. field. Qed.
Lemma wlp_sg a b c : c <> 0 -> wlp a b c = sg ((a - b) / c).
Proof. intros. unfold wlp, sg. do 3 f_equal. field. auto. Qed.
(** r - K sg ((r - b) L), in r. *)
Lemma lin_sg_deriv K L b r : is_derive (fun r => r - K * sg ((r - b) * L)) r (1 - K * (L * (sg ((r - b) * L) * (1 - sg ((r - b) * L))))).
Proof.
  assert (D : is_derive (fun r => sg ((r - b) * L)) r (L * (sg ((r - b) * L) * (1 - sg ((r - b) * L))))).
  { apply (is_derive_comp sg (fun r => (r - b) * L)); [apply sg_deriv|]. auto_derive; [auto|ring]. }
  apply (is_derive_minus (fun r => r) (fun r => K * sg ((r - b) * L))); [apply (is_derive_id r)|]. apply (is_derive_scal (fun r => sg ((r - b) * L)) r K). exact D.
Qed.
Lemma lin_sg_mono K L b r' r : 0 <= K -> 0 <= L -> K * L < 4 -> r' < r -> r' - K * sg ((r' - b) * L) < r - K * sg ((r - b) * L).
Proof.
  intros HK HL H Hr. apply (mvt_pos (fun r => r - K * sg ((r - b) * L)) (fun r => 1 - K * (L * (sg ((r - b) * L) * (1 - sg ((r - b) * L))))) r' r Hr).
  - intros. apply lin_sg_deriv.
  - intros c _. pose proof (sg_quarter ((c - b) * L)). assert (0 <= K * L) by nra. rewrite <- Rmult_assoc. nra.
Qed.
Lemma lin_sg_flip K L : 4 < K * L -> exists h, 0 < h /\ h - K * sg ((h - 0) * L) < 0 - K * sg ((0 - 0) * L).
Proof.
  intros H. pose proof (lin_sg_deriv K L 0 0) as D. apply is_derive_Reals in D. assert (S0 : sg ((0 - 0) * L) = 1 / 2) by (replace ((0 - 0) * L) with 0 by ring; unfold sg; rewrite Ropp_0, exp_0; lra).
  rewrite S0 in D. set (d := 1 - _) in D. assert (Hd : d < 0) by (unfold d; nra). destruct (D (- d) ltac:(lra)) as [[del Hdel] Q]. cbn in Q. exists (del / 2). split; [lra|].
  specialize (Q (del / 2) ltac:(lra) ltac:(rewrite Rabs_pos_eq; lra)). rewrite !Rplus_0_l in Q. set (A := del / 2 - K * sg ((del / 2 - 0) * L)) in *. set (B := 0 - K * sg ((0 - 0) * L)) in *.
  apply Rabs_def2 in Q. apply Rnot_le_lt. intros C. assert (0 <= (A - B) / (del / 2)) by (apply Rmult_le_pos; [lra|apply Rlt_le, Rinv_0_lt_compat; lra]). lra.
Qed.

Lemma C95_elo_proof : forall r r' r2 o k, 0 <= k -> k * ln 10 < 1600 -> r' < r -> exists a b,
  elo_rating (fst (elo (mkElo (Fin r')) (mkElo (Fin r2)) o (mkEloConfig (Fin k)))) = Fin a /\
  elo_rating (fst (elo (mkElo (Fin r)) (mkElo (Fin r2)) o (mkEloConfig (Fin k)))) = Fin b /\ a < b.
Proof.
  intros r r' r2 o k Hk HK H. rewrite !elo_eval. do 2 eexists. split; [reflexivity|split; [reflexivity|]]. unfold elo_upd. rewrite !elo_E_sg.
  pose proof ln10_close. unfold Rdiv. rewrite !Rmult_assoc. pose proof (lin_sg_mono k (ln 10 * / 400) r2 r' r Hk ltac:(lra) ltac:(lra) H). lra.
Qed.
(** The bound on k is sharp. *)
Lemma C95_elo_refuted_proof : forall k o, 1600 < k * ln 10 -> exists r r' r2 a b, r' < r /\
  elo_rating (fst (elo (mkElo (Fin r')) (mkElo (Fin r2)) o (mkEloConfig (Fin k)))) = Fin a /\
  elo_rating (fst (elo (mkElo (Fin r)) (mkElo (Fin r2)) o (mkEloConfig (Fin k)))) = Fin b /\ b < a.
Proof.
  intros k o HK. destruct (lin_sg_flip k (ln 10 * / 400) ltac:(lra)) as (h & Hh & F). exists h, 0, 0. rewrite !elo_eval. do 2 eexists. split; [lra|]. split; [reflexivity|split; [reflexivity|]].
  unfold elo_upd. rewrite !elo_E_sg. unfold Rdiv. rewrite !Rmult_assoc. lra.
Qed.
Lemma C95_fifa_proof : forall r r' r2 o I pen ko, 0 <= I -> I * ln 10 < 2400 -> r' < r -> exists a b,
  fifa_rating (fst (fifa (mkFifa (Fin r')) (mkFifa (Fin r2)) o (mkFifaConfig (Fin I) ko pen))) = Fin a /\
  fifa_rating (fst (fifa (mkFifa (Fin r)) (mkFifa (Fin r2)) o (mkFifaConfig (Fin I) ko pen))) = Fin b /\ a < b.
Proof.
  intros r r' r2 o I pen ko HI HK H. rewrite !fifa_eval. do 2 eexists. split; [reflexivity|split; [reflexivity|]]. unfold ko_max, fifa_upd. rewrite !fifa_We_sg. set (W := code_W1 pen o).
  pose proof ln10_close. unfold Rdiv. rewrite !Rmult_assoc. pose proof (lin_sg_mono I (ln 10 * / 600) r2 r' r HI ltac:(lra) ltac:(lra) H).
  destruct ko; [|lra]. unfold Rmax. destruct (Rle_dec _ _), (Rle_dec _ _); lra.
Qed.
Lemma C95_fifa_refuted_proof : forall I o pen, 2400 < I * ln 10 -> exists r r' r2 a b, r' < r /\
  fifa_rating (fst (fifa (mkFifa (Fin r')) (mkFifa (Fin r2)) o (mkFifaConfig (Fin I) false pen))) = Fin a /\
  fifa_rating (fst (fifa (mkFifa (Fin r)) (mkFifa (Fin r2)) o (mkFifaConfig (Fin I) false pen))) = Fin b /\ b < a.
Proof.
  intros I o pen HK. destruct (lin_sg_flip I (ln 10 * / 600) ltac:(lra)) as (h & Hh & F). exists h, 0, 0. rewrite !fifa_eval. do 2 eexists. split; [lra|]. split; [reflexivity|split; [reflexivity|]].
  unfold ko_max, fifa_upd. rewrite !fifa_We_sg. set (W := code_W1 pen o). unfold Rdiv. rewrite !Rmult_assoc. lra.
Qed.
Lemma C95_ingo_proof : forall r r' a r2 a2 o, r' < r -> exists x y,
  ingo_rating (fst (ingo (mkIngo (Fin r') a) (mkIngo (Fin r2) a2) o)) = Fin x /\
  ingo_rating (fst (ingo (mkIngo (Fin r) a) (mkIngo (Fin r2) a2) o)) = Fin y /\ x < y.
Proof.
  intros r r' a r2 a2 o H. rewrite (proj1 (C23_proof r' a r2 a2 o)), (proj1 (C23_proof r a r2 a2 o)). do 2 eexists. split; [reflexivity|split; [reflexivity|]].
  unfold ingo_upd, ingo_perf. assert (D : 0 < ingo_D a) by (unfold ingo_D; destruct (a <=? 20)%N; [|destruct (a <=? 25)%N]; lra).
  apply Rmult_lt_compat_r; [apply Rinv_0_lt_compat; lra|]. nra.
Qed.
Lemma C95_wl_proof : forall m m' s m2 s2 o beta kappa, 0 < s -> 0 < s2 -> 0 < kappa <= 1 -> m' < m -> exists a b,
  wl_rating (fst (weng_lin (mkWL (Fin m') (Fin s)) (mkWL (Fin m2) (Fin s2)) o (mkWLConfig (Fin beta) (Fin kappa)))) = Fin a /\
  wl_rating (fst (weng_lin (mkWL (Fin m) (Fin s)) (mkWL (Fin m2) (Fin s2)) o (mkWLConfig (Fin beta) (Fin kappa)))) = Fin b /\ a < b.
Proof.
  intros m m' s m2 s2 o be ka Hs Hs2 Hk H.
  destruct (C42_proof m' s m2 s2 o be ka Hs Hs2 Hk) as (a & ? & ? & ? & E1 & A & _). destruct (C42_proof m s m2 s2 o be ka Hs Hs2 Hk) as (b & ? & ? & ? & E2 & B & _).
  exists a, b. rewrite E1, E2. split; [reflexivity|split; [reflexivity|]]. rewrite A, B.
  assert (CC : 0 < s ^ 2 + s2 ^ 2 + 2 * be ^ 2) by nra. pose proof (sqrt_lt_R0 _ CC) as C0. pose proof (sqrt_sqrt _ (Rlt_le _ _ CC)) as C2. set (c := sqrt _) in *.
  fold (wlp m' m2 c) (wlp m m2 c). rewrite !wlp_sg by lra. pose proof (lin_sg_mono (s ^ 2 / c) (/ c) m2 m' m) as M.
  assert (0 <= s ^ 2 / c) by (apply Rmult_le_pos; [apply pow2_ge_0|apply Rlt_le, Rinv_0_lt_compat; auto]). assert (0 <= / c) by (apply Rlt_le, Rinv_0_lt_compat; auto).
  assert (s ^ 2 / c * / c < 4). { replace (s ^ 2 / c * / c) with (s ^ 2 / (c * c)) by (field; lra). rewrite C2. apply Rmult_lt_reg_r with (s ^ 2 + s2 ^ 2 + 2 * be ^ 2); auto. unfold Rdiv. rewrite Rmult_assoc, Rinv_l by lra. nra. }
  specialize (M H0 H1 H2 H). unfold Rdiv at 1 3. lra.
Qed.

(** Glicko. *)
Lemma gE_sg r rj RDj : gE r rj RDj = sg ((r - rj) * (gq * gg RDj)).
Proof. unfold gE, sg, Rpower, gq. do 3 f_equal. field. Qed.
Lemma order_poly E : 0 <= E <= 1 -> 0 < 605 / 10000 + 246 / 1000 * (E * (1 - E)) - E * (1 - E) * (1 - E) * (1 - 2 * E).
Proof. intros H. ival_pos E 12%nat 0%Z 1%Z 1%Z 1%Z. lra. Qed.
(** slope of the update: rho = 1/(RD^2 q^2 g^2), x = E(1-E). *)
Lemma order_slope rho E s : 246 / 1000 <= rho -> 0 < E < 1 -> 0 <= s <= 1 -> 0 < rho * (rho + E * (1 - E)) - E * (1 - E) * (s - E) * (1 - 2 * E).
Proof.
  intros Hr HE Hs. pose proof (order_poly E ltac:(lra)) as P1. pose proof (order_poly (1 - E) ltac:(lra)) as P2. assert (X : 0 < E * (1 - E)) by (apply Rmult_lt_0_compat; lra).
  assert (L : 605 / 10000 + 246 / 1000 * (E * (1 - E)) <= rho * (rho + E * (1 - E))) by nra. set (y := rho * (rho + E * (1 - E))) in *.
  assert (A1 : 0 < y - E * (1 - E) * (1 - E) * (1 - 2 * E)) by lra. assert (A0 : 0 < y - E * (1 - E) * (0 - E) * (1 - 2 * E)).
  { replace (E * (1 - E) * (0 - E) * (1 - 2 * E)) with ((1 - E) * (1 - (1 - E)) * (1 - (1 - E)) * (1 - 2 * (1 - E))) by ring. replace ((1 - E) * (1 - (1 - E))) with (E * (1 - E)) in * by ring. lra. }
  replace (y - E * (1 - E) * (s - E) * (1 - 2 * E)) with (s * (y - E * (1 - E) * (1 - E) * (1 - 2 * E)) + (1 - s) * (y - E * (1 - E) * (0 - E) * (1 - 2 * E))) by ring.
  destruct (Rle_dec s (1 / 2)); nra.
Qed.
Lemma glicko_r_order r r' RD rj RDj s : 0 < RD <= 350 -> 0 <= s <= 1 -> r' < r -> glicko_r r' RD [(rj, RDj, s)] < glicko_r r RD [(rj, RDj, s)].
Proof.
  intros HR Hs H. pose proof (gg_range RDj) as G. pose proof gq_close as Q. set (k := gq * gg RDj). assert (K : 0 < k) by (unfold k; apply Rmult_lt_0_compat; lra).
  set (a := / RD ^ 2). assert (A : 0 < a) by (apply Rinv_0_lt_compat, pow_lt; lra).
  set (F := fun r => r + k * (s - sg ((r - rj) * k)) / (a + k ^ 2 * (sg ((r - rj) * k) * (1 - sg ((r - rj) * k))))).
  assert (FE : forall r, glicko_r r RD [(rj, RDj, s)] = F r).
  { intros z. unfold glicko_r, F. rewrite gM_single, gd2inv_single, !gE_sg. fold k a. set (E := sg ((z - rj) * k)). pose proof (sg_range ((z - rj) * k)) as E0. fold E in E0.
    assert (0 < k ^ 2 * (E * (1 - E))) by (apply Rmult_lt_0_compat; [apply pow_lt; auto|apply Rmult_lt_0_compat; lra]).
    replace (gq ^ 2 * (gg RDj ^ 2 * E * (1 - E))) with (k ^ 2 * (E * (1 - E))) by (unfold k; ring). unfold k at 2. field. lra. }
  rewrite !FE. set (dF := fun r => let E := sg ((r - rj) * k) in let x := E * (1 - E) in 1 - k ^ 2 * x * (a + k ^ 2 * x + (s - E) * k ^ 2 * (1 - 2 * E)) / (a + k ^ 2 * x) ^ 2).
  apply (mvt_pos F dF r' r H).
  - intros c _. unfold F, dF. cbv zeta. pose proof (sg_range ((c - rj) * k)) as E0.
    assert (D : is_derive (fun r => sg ((r - rj) * k)) c (k * (sg ((c - rj) * k) * (1 - sg ((c - rj) * k))))).
    { apply (is_derive_comp sg (fun r => (r - rj) * k)); [apply sg_deriv|]. auto_derive; [auto|ring]. }
    set (f := fun r => sg ((r - rj) * k)) in *. change (sg ((c - rj) * k)) with (f c) in *. 
    assert (X : 0 < k ^ 2 * (f c * (1 - f c))) by (apply Rmult_lt_0_compat; [apply pow_lt; auto|apply Rmult_lt_0_compat; lra]).
    assert (U : Derive f c = k * (f c * (1 - f c))) by (apply is_derive_unique; exact D).
    apply (is_derive_ext (fun r => r + k * (s - f r) / (a + k ^ 2 * (f r * (1 - f r))))); [reflexivity|].
    auto_derive; [repeat split; auto; try lra; eexists; exact D|]. change (fun x : R => f x) with f. rewrite U. field. lra.
  - intros c _. unfold dF. cbv zeta. pose proof (sg_range ((c - rj) * k)) as E0. set (E := sg ((c - rj) * k)) in *. assert (K2 : 0 < k ^ 2) by (apply pow_lt; auto).
    assert (X : 0 < E * (1 - E)) by (apply Rmult_lt_0_compat; lra).
    assert (R1 : 246 / 1000 <= a / k ^ 2).
    { apply Rmult_le_reg_r with (k ^ 2); auto. unfold Rdiv at 2. rewrite Rmult_assoc, Rinv_l, Rmult_1_r by lra. unfold a.
      assert (/ 350 ^ 2 <= / RD ^ 2) by (apply Rinv_le_contravar; [apply pow_lt; lra|apply pow_incr; lra]). assert (k ^ 2 <= 0.0000331490) by (unfold k; assert (0 < gq * gg RDj <= 0.00575751) by (split; nra); nra). lra. }
    pose proof (order_slope (a / k ^ 2) E s R1 E0 Hs) as S. set (rho := a / k ^ 2) in *. assert (AR : a = k ^ 2 * rho) by (unfold rho; field; lra). rewrite AR.
    replace (1 - _) with ((rho * (rho + E * (1 - E)) - E * (1 - E) * (s - E) * (1 - 2 * E)) / (rho + E * (1 - E)) ^ 2) by (field; split; nra).
    apply Rdiv_lt_0_compat; auto. apply pow_lt. nra.
Qed.
Lemma C95_glicko_proof : forall r r' RD r2 RD2 o c, 0 < RD -> 0 < RD2 -> r' < r -> exists a b,
  gl_rating (fst (glicko (mkGlicko (Fin r') (Fin RD)) (mkGlicko (Fin r2) (Fin RD2)) o (mkGlickoConfig (Fin c)))) = Fin a /\
  gl_rating (fst (glicko (mkGlicko (Fin r) (Fin RD)) (mkGlicko (Fin r2) (Fin RD2)) o (mkGlickoConfig (Fin c)))) = Fin b /\ a < b.
Proof.
  intros r r' RD r2 RD2 o c H1 H2 H. rewrite !C26_proof by auto. do 2 eexists. split; [reflexivity|split; [reflexivity|]].
  apply glicko_r_order; auto; [apply gpre_range; left; lra|apply points_range].
Qed.

(** EGF, even games. *)
Lemma exp_183 : 0 < 63 / 10 - exp (183 / 100).
Proof. pose (x := 183 / 100). change (0 < 63 / 10 - exp x). ival_pos x 0%nat 183%Z 100%Z 183%Z 100%Z. unfold x; lra. Qed.
Lemma exp_305 : 0 < exp (305 / 100) - 21.
Proof. pose (x := 305 / 100). change (0 < exp x - 21). ival_pos x 0%nat 305%Z 100%Z 305%Z 100%Z. unfold x; lra. Qed.
Lemma egf_cy y : 0 < y <= 4200 -> exp (1.6 * ln (y / 200)) / y <= 0.0315.
Proof.
  intros H. assert (Y : 0 < y / 200) by lra. replace (exp (1.6 * ln (y / 200))) with (exp (0.6 * ln (y / 200)) * (y / 200)) by (rewrite <- (exp_ln (y / 200)) at 2 by auto; rewrite <- exp_plus; f_equal; lra).
  replace (exp (0.6 * ln (y / 200)) * (y / 200) / y) with (exp (0.6 * ln (y / 200)) / 200) by (field; lra).
  assert (L : ln (y / 200) <= 3.05). { pose proof exp_305. rewrite <- (ln_exp 3.05). replace 3.05 with (305 / 100) by lra. apply Rcomplements.ln_le; lra. }
  assert (exp (0.6 * ln (y / 200)) <= 6.3); [|lra]. pose proof exp_183. apply Rle_trans with (exp (183 / 100)); [|lra].
  destruct (Rle_lt_or_eq_dec (0.6 * ln (y / 200)) (183 / 100) ltac:(lra)) as [Q|Q]; [apply Rlt_le, exp_increasing, Q|rewrite Q; lra].
Qed.
Lemma egf_order r r' b S : 0 <= S <= 1 -> -900 <= r' -> r' < r -> r < 3300 ->
  r' + egf_C r' * (S - egf_E r' b) + egf_bon r' < r + egf_C r * (S - egf_E r b) + egf_bon r.
Proof.
  intros HS H1 H H2.
  set (w := fun r => exp (1.6 * ln ((3300 - r) / 200))). set (z := fun r => exp (egf_B b - (- 7 * ln (3300 - r)))). set (e := fun r => exp ((2300 - r) / 80)).
  apply (mvt_pos (fun r => r + w r * (S - 1 / (1 + z r)) + ln (1 + e r) / 5)
    (fun r => 1 - w r / (3300 - r) * (1.6 * (S - 1 / (1 + z r))) - w r / (3300 - r) * (7 * (z r / (1 + z r) ^ 2)) - (e r / (1 + e r)) / 400) r' r H).
  - intros c Hc. assert (Z0 : 0 < z c) by apply exp_pos. assert (E0 : 0 < e c) by apply exp_pos. unfold z, e, w in *. set (BB := egf_B b) in *. unfold Rminus, Rdiv in Z0, E0. auto_derive.
    + repeat split; try lra. 
    + unfold Rminus, Rdiv. replace 1.6 with (8 * / 5) by lra. set (ze := exp (BB + _)) in *. set (ee := exp (_ * / 80)) in *. set (we := exp (_ * ln _)) in *. field. repeat split; lra.
  - intros c Hc. assert (Z0 : 0 < z c) by apply exp_pos. assert (E0 : 0 < e c) by apply exp_pos. assert (W0 : 0 < w c) by apply exp_pos.
    pose proof (egf_cy (3300 - c) ltac:(lra)) as W. fold (w c) in W. set (u := w c / (3300 - c)) in *. assert (U : 0 < u) by (apply Rdiv_lt_0_compat; lra).
    assert (I : 0 < 1 / (1 + z c) < 1). { split; [apply Rdiv_lt_0_compat; lra|]. apply Rmult_lt_reg_r with (1 + z c); [lra|]. unfold Rdiv. rewrite Rmult_assoc, Rinv_l; lra. }
    assert (Q : z c / (1 + z c) ^ 2 = 1 / (1 + z c) * (1 - 1 / (1 + z c))) by (field; lra). rewrite Q. set (i := 1 / (1 + z c)) in *.
    assert (E1 : e c / (1 + e c) <= 1). { apply Rmult_le_reg_r with (1 + e c); [lra|]. unfold Rdiv. rewrite Rmult_assoc, Rinv_l; lra. }
    set (f := e c / (1 + e c)) in *. pose proof (pow2_ge_0 (i - 1 / 2)). assert (i * (1 - i) <= 1 / 4) by nra. assert (u * (1.6 * (S - i)) <= 0.0315 * 1.6) by nra. assert (u * (7 * (i * (1 - i))) <= 0.0315 * (7 / 4)) by (apply Rmult_le_compat; nra). lra.
Qed.
Lemma C95_egf_proof : forall r r' r2 o, -900 <= r' -> r' < r -> r < 3300 -> r2 < 3300 -> exists a b,
  egf_rating (fst (egf (mkEgf (Fin r')) (mkEgf (Fin r2)) o (mkEgfConfig (Fin 0)))) = Fin a /\
  egf_rating (fst (egf (mkEgf (Fin r)) (mkEgf (Fin r2)) o (mkEgfConfig (Fin 0)))) = Fin b /\ a <= b /\ (-900 < b -> a < b).
Proof.
  intros r r' r2 o H1 H H2 H3. assert (h1 : egf_h1 0 = 0) by (unfold egf_h1; destruct (Rlt_dec 0 0); lra). assert (h2 : egf_h2 0 = 0) by (unfold egf_h2; destruct (Rlt_dec 0 0); lra).
  assert (ad : forall x, egf_adj 0 x = x) by (intros; unfold egf_adj; destruct (Req_EM_T 0 0); lra).
  destruct (C13_proof r' r2 o 0 ltac:(lra) ltac:(lra) ltac:(rewrite h1, ad; lra) ltac:(rewrite h2, ad; lra)) as (_ & _ & E1).
  destruct (C13_proof r r2 o 0 ltac:(lra) ltac:(lra) ltac:(rewrite h1, ad; lra) ltac:(rewrite h2, ad; lra)) as (_ & _ & E2).
  rewrite h1, h2, !ad in E1, E2. rewrite E1, E2. do 2 eexists. split; [reflexivity|split; [reflexivity|]]. cbn [fst egf_rating].
  pose proof (egf_order r r' r2 (points o) (points_range o) H1 H H2) as L. unfold egf_upd. unfold Rmax. destruct (Rle_dec (-900) _), (Rle_dec (-900) _); split; intros; lra.
Qed.

(** USCF: provisional players keep their order; at 2355 the formula for the
    effective number of games has a jump. *)
Lemma C95_uscf_proof : forall r r' n r2 n2 o t, (1 <= n <= 8)%N -> r' < r -> exists a b,
  uscf_rating (fst (uscf (mkUscf (Fin r') n) (mkUscf (Fin r2) n2) o (mkUscfConfig (Fin t)))) = Fin a /\
  uscf_rating (fst (uscf (mkUscf (Fin r) n) (mkUscf (Fin r2) n2) o (mkUscfConfig (Fin t)))) = Fin b /\ a <= b /\ (100 < b -> a < b).
Proof.
  intros r r' n r2 n2 o t Hn H. rewrite !C10_proof. do 2 eexists. split; [reflexivity|split; [reflexivity|]]. destruct (N.leb_spec n 8) as [_|C]; [|lia].
  match goal with |- Rmax 100 ?x <= Rmax 100 ?y /\ _ => assert (L : x < y) end.
  { unfold uscf_prov. assert (N0 : 1 <= IZR (Z.of_N n)) by (apply (IZR_le 1); lia). apply Rmult_lt_compat_r; [apply Rinv_0_lt_compat; lra|]. nra. }
  unfold Rmax. destruct (Rle_dec 100 _), (Rle_dec 100 _); split; intros; lra.
Qed.
Lemma C95_uscf_refuted_proof : exists r r' n r2 n2 t a b, r' < r /\
  uscf_rating (fst (uscf (mkUscf (Fin r') n) (mkUscf (Fin r2) n2) WIN (mkUscfConfig (Fin t)))) = Fin a /\
  uscf_rating (fst (uscf (mkUscf (Fin r) n) (mkUscf (Fin r2) n2) WIN (mkUscfConfig (Fin t)))) = Fin b /\ b < a.
Proof.
  exists 2355, (2355 - 1 / 1000), 60%N, 2755, 60%N, 14. rewrite !C10_proof. do 2 eexists. split; [lra|]. split; [reflexivity|split; [reflexivity|]].
  change (60 <=? 8)%N with false. cbv iota. unfold uscf_upd, uscf_bonus. cbn [Nat.ltb Nat.leb points]. change (IZR (Z.of_N 60)) with 60. change (INR 1) with 1.
  assert (E : elo_E 2355 2755 = 1 / 11). { unfold elo_E. replace ((2755 - 2355) / 400) with 1 by lra. rewrite Rpower_1 by lra. lra. }
  pose proof (elo_E_mono (2355 - 1 / 1000) 2355 2755 ltac:(lra)) as EM. rewrite E in *. set (e := elo_E (2355 - 1 / 1000) 2755) in *.
  assert (K : uscf_K 2355 60 1 = 800 / 51). { unfold uscf_K, uscf_Ne. destruct (Rlt_dec 2355 2355); [lra|]. rewrite Rmin_right by lra. f_equal. lra. }
  assert (K' : 800 / 50.99 <= uscf_K (2355 - 1 / 1000) 60 1).
  { unfold uscf_K, uscf_Ne. destruct (Rlt_dec (2355 - 1 / 1000) 2355) as [_|C]; [|lra]. rewrite (Rmin_right 60 50) by lra. set (y := 0.662 + _).
    assert (S : 50 / 49.99 <= sqrt y). { rewrite <- (sqrt_pow2 (50 / 49.99)) by lra. apply sqrt_le_1_alt. unfold y. lra. }
    assert (Q : 0 < 50 / sqrt y <= 49.99). { split; [apply Rdiv_lt_0_compat; lra|]. apply Rmult_le_reg_r with (sqrt y); [lra|]. unfold Rdiv. rewrite Rmult_assoc, Rinv_l by lra. lra. }
    rewrite Rmin_right by lra. apply Rmult_le_compat_l; [lra|]. apply Rinv_le_contravar; lra. }
  rewrite K. set (k := uscf_K _ _ _) in *. rewrite !Rmax_right by nra. nra.
Qed.
