(** Proofs of C94: the same result against a stronger opponent is worth more. *)
From Coq Require Import ZArith NArith List Bool Reals Lra Lia.
From Verif Require Import Arith XR Tac ModelLib ModelElo ModelFifa ModelIngo ModelUscf ModelEgf ModelDwz ModelGlicko ModelSticko ModelWengLin Spec
  ProofElo ProofFifa ProofIngo ProofUscf ProofEgf ProofEgf2 ProofDwz ProofGlicko ProofSticko ProofWengLin MathIval.
Import ListNotations.
Local Open Scope R_scope.

Lemma elo_E_opp a b b' : b < b' -> elo_E a b' < elo_E a b.
Proof. intros H. rewrite (elo_E_swap b' a), (elo_E_swap b a). pose proof (elo_E_mono b b' a H). lra. Qed.
Lemma C94_elo_proof : forall r r2 r2' o k, 0 < k -> r2 < r2' -> exists a b,
  elo_rating (fst (elo (mkElo (Fin r)) (mkElo (Fin r2)) o (mkEloConfig (Fin k)))) = Fin a /\
  elo_rating (fst (elo (mkElo (Fin r)) (mkElo (Fin r2')) o (mkEloConfig (Fin k)))) = Fin b /\ a < b.
Proof.
  intros r r2 r2' o k Hk H. rewrite !elo_eval. do 2 eexists. split; [reflexivity|split; [reflexivity|]]. unfold elo_upd. pose proof (elo_E_opp r r2 r2' H). nra.
Qed.
Lemma fifa_We_opp a b b' : b < b' -> fifa_We a b' < fifa_We a b.
Proof. intros H. rewrite (fifa_We_swap b' a), (fifa_We_swap b a). pose proof (fifa_We_mono b b' a H). lra. Qed.
Lemma C94_fifa_proof : forall r r2 r2' o I pen ko, 0 < I -> r2 < r2' -> exists a b,
  fifa_rating (fst (fifa (mkFifa (Fin r)) (mkFifa (Fin r2)) o (mkFifaConfig (Fin I) ko pen))) = Fin a /\
  fifa_rating (fst (fifa (mkFifa (Fin r)) (mkFifa (Fin r2')) o (mkFifaConfig (Fin I) ko pen))) = Fin b /\ a <= b /\ (ko = false -> a < b).
Proof.
  intros r r2 r2' o I pen ko HI H. rewrite !fifa_eval. do 2 eexists. split; [reflexivity|split; [reflexivity|]]. unfold ko_max, fifa_upd. pose proof (fifa_We_opp r r2 r2' H).
  set (W := code_W1 pen o). assert (L : r + I * (W - fifa_We r r2) < r + I * (W - fifa_We r r2')) by nra.
  destruct ko; split; try discriminate; try lra. apply Rle_max_compat_l. lra.
Qed.
(** Ingo: lower numbers are better. *)
Lemma C94_ingo_proof : forall r a r2 r2' a2 o, r2' < r2 -> exists x y,
  ingo_rating (fst (ingo (mkIngo (Fin r) a) (mkIngo (Fin r2) a2) o)) = Fin x /\
  ingo_rating (fst (ingo (mkIngo (Fin r) a) (mkIngo (Fin r2') a2) o)) = Fin y /\ y < x.
Proof.
  intros r a r2 r2' a2 o H. rewrite (proj1 (C23_proof r a r2 a2 o)), (proj1 (C23_proof r a r2' a2 o)). do 2 eexists. split; [reflexivity|split; [reflexivity|]].
  unfold ingo_upd, ingo_perf. assert (D : 0 < ingo_D a) by (unfold ingo_D; destruct (a <=? 20)%N; [|destruct (a <=? 25)%N]; lra).
  apply Rmult_lt_compat_r; [apply Rinv_0_lt_compat; lra|]. lra.
Qed.
Lemma C94_uscf_proof : forall r n r2 r2' n2 o t, r2 < r2' -> exists a b,
  uscf_rating (fst (uscf (mkUscf (Fin r) n) (mkUscf (Fin r2) n2) o (mkUscfConfig (Fin t)))) = Fin a /\
  uscf_rating (fst (uscf (mkUscf (Fin r) n) (mkUscf (Fin r2') n2) o (mkUscfConfig (Fin t)))) = Fin b /\ a <= b /\ (100 < b -> a < b).
Proof.
  intros r n r2 r2' n2 o t H. rewrite !C10_proof. do 2 eexists. split; [reflexivity|split; [reflexivity|]].
  match goal with |- Rmax 100 ?x <= Rmax 100 ?y /\ _ => assert (L : x < y) end.
  { destruct (n <=? 8)%N.
    - unfold uscf_prov. pose proof (NR_nonneg n) as N0. unfold NR in N0. apply Rmult_lt_compat_r; [apply Rinv_0_lt_compat; lra|]. lra.
    - unfold uscf_upd, uscf_bonus. cbn [Nat.ltb Nat.leb]. pose proof (elo_E_opp r r2 r2' H). pose proof (uscf_K_pos r n (INR 1) ltac:(cbn; lra)) as K. fold (NR n). set (k := uscf_K r (NR n) (INR 1)) in *. nra. }
  unfold Rmax. destruct (Rle_dec 100 _), (Rle_dec 100 _); split; intros; lra.
Qed.
Lemma C94_egf_proof : forall r r2 r2' o H, r < 3300 -> r2 < r2' -> r2' < 3300 -> egf_adj (egf_h1 H) r < 3300 -> egf_adj (egf_h2 H) r2' < 3300 -> exists a b,
  egf_rating (fst (egf (mkEgf (Fin r)) (mkEgf (Fin r2)) o (mkEgfConfig (Fin H)))) = Fin a /\
  egf_rating (fst (egf (mkEgf (Fin r)) (mkEgf (Fin r2')) o (mkEgfConfig (Fin H)))) = Fin b /\ a <= b /\ (-900 < b -> a < b).
Proof.
  intros r r2 r2' o H H1 HL H2 A1 A2. assert (A3 : egf_adj (egf_h2 H) r2 < egf_adj (egf_h2 H) r2') by (unfold egf_adj; destruct (Req_EM_T (egf_h2 H) 0); lra).
  destruct (C13_proof r r2 o H ltac:(lra) ltac:(lra) ltac:(lra) ltac:(lra)) as (_ & _ & E1). destruct (C13_proof r r2' o H ltac:(lra) ltac:(lra) ltac:(lra) ltac:(lra)) as (_ & _ & E2).
  rewrite E1, E2. do 2 eexists. split; [reflexivity|split; [reflexivity|]]. unfold egf_upd. pose proof (egf_E_opp (egf_adj (egf_h1 H) r) _ _ A3 A2) as EO. pose proof (egf_C_pos r).
  set (e := egf_E _ _) in *. set (e' := egf_E _ (egf_adj (egf_h2 H) r2')) in *. assert (r + egf_C r * (points o - e) + egf_bon r < r + egf_C r * (points o - e') + egf_bon r) by nra.
  unfold Rmax. destruct (Rle_dec (-900) _), (Rle_dec (-900) _); split; intros; lra.
Qed.
(** DWZ: the development coefficient depends on whether the result was above or
    below expectation, but the change keeps its order. *)
Lemma dwz_E_ge r a S We i : 5 <= dwz_E r a S We i.
Proof. apply dwz_E_range'. Qed.
Lemma dwz_E_above r a S We We' i : We < S -> We' < S -> dwz_E r a S We i = dwz_E r a S We' i.
Proof.
  intros H H'. unfold dwz_E, dwz_raw_E, dwz_acc, dwz_brake.
  destruct (Rle_dec We S); [|lra]. destruct (Rle_dec We' S); [|lra]. destruct (Rle_dec S We); [lra|]. destruct (Rle_dec S We'); [lra|]. reflexivity.
Qed.
Lemma dwz_E_below r a S We We' i : S < We -> S < We' -> dwz_E r a S We i = dwz_E r a S We' i.
Proof.
  intros H H'. unfold dwz_E, dwz_raw_E, dwz_acc, dwz_brake.
  destruct (Rle_dec We S); [lra|]. destruct (Rle_dec We' S); [lra|]. destruct (Rle_dec S We); [|lra]. destruct (Rle_dec S We'); [|lra]. reflexivity.
Qed.
Lemma dwz_upd_opp r a S We We' i : We' < We -> dwz_upd r (dwz_E r a S We i) 1 S We < dwz_upd r (dwz_E r a S We' i) 1 S We'.
Proof.
  intros H. unfold dwz_upd. apply Rplus_lt_compat_l.
  assert (P : forall w, 0 < 800 / (dwz_E r a S w i + 1)) by (intros w; pose proof (dwz_E_ge r a S w i); apply Rdiv_lt_0_compat; lra).
  destruct (Rlt_le_dec We S) as [L|L].
  - rewrite (dwz_E_above r a S We We') by lra. apply Rmult_lt_compat_l; [apply P|lra].
  - destruct (Rlt_le_dec S We') as [L'|L'].
    + rewrite (dwz_E_below r a S We We') by lra. apply Rmult_lt_compat_l; [apply P|lra].
    + pose proof (P We). pose proof (P We'). destruct (Req_dec S We) as [->|N].
      * rewrite Rminus_diag_eq, Rmult_0_r by auto. apply Rmult_lt_0_compat; lra.
      * apply Rlt_le_trans with 0; [nra|]. apply Rmult_le_pos; lra.
Qed.
Lemma C94_dwz_proof : forall r i a r2 r2' i2 a2 o, (1 <= i)%N -> (1 <= i2)%N -> r2 < r2' -> exists x y,
  dwz_rating (fst (dwz (mkDwz (Fin r) i a) (mkDwz (Fin r2) i2 a2) o)) = Fin x /\
  dwz_rating (fst (dwz (mkDwz (Fin r) i a) (mkDwz (Fin r2') i2 a2) o)) = Fin y /\ x < y.
Proof.
  intros r i a r2 r2' i2 a2 o Hi Hi2 H. rewrite !C18_proof by auto. do 2 eexists. split; [reflexivity|split; [reflexivity|]]. apply dwz_upd_opp, elo_E_opp, H.
Qed.
Lemma gE_opp r rj rj' RDj : rj < rj' -> gE r rj' RDj < gE r rj RDj.
Proof. intros H. pose proof (gE_compl r rj RDj). pose proof (gE_compl r rj' RDj). pose proof (gE_lt rj rj' r RDj H). lra. Qed.
(** Scores may lie outside [0,1] by [e] as long as the deviation is not too large. *)
Lemma glicko_r_opp r RD rj rj' RDj s e : 0 < RD -> - e <= s <= 1 + e -> gq ^ 2 * RD ^ 2 * e <= 1 -> rj < rj' -> 0 <= e ->
  glicko_r r RD [(rj, RDj, s)] < glicko_r r RD [(rj', RDj, s)].
Proof.
  intros HR Hs He H He0. unfold glicko_r. apply Rplus_lt_compat_l. rewrite !gM_single.
  pose proof (gprec_pos r RD [(rj, RDj, s)] HR) as P1. pose proof (gprec_pos r RD [(rj', RDj, s)] HR) as P2. rewrite gd2inv_single in P1, P2. rewrite !gd2inv_single.
  pose proof (gE_opp r rj rj' RDj H) as EO. pose proof (gE_range r rj RDj) as E1. pose proof (gE_range r rj' RDj) as E2. pose proof (gg_range RDj) as G. pose proof gq_pos as Q.
  set (g := gg RDj) in *. set (E := gE r rj RDj) in *. set (E' := gE r rj' RDj) in *. set (q := gq) in *. set (a := / RD ^ 2) in *.
  assert (A : 0 < a) by (apply Rinv_0_lt_compat, pow_lt; auto). assert (AQ : q ^ 2 * e <= a).
  { unfold a. apply Rmult_le_reg_r with (RD ^ 2); [apply pow_lt; auto|]. rewrite Rinv_l by (apply pow_nonzero; lra). lra. }
  set (X := a + q ^ 2 * (g ^ 2 * E * (1 - E))) in *. set (Y := a + q ^ 2 * (g ^ 2 * E' * (1 - E'))) in *.
  apply Rminus_gt_0_lt. replace (q / Y * (g * (s - E')) - q / X * (g * (s - E))) with (q * g * ((s - E') * X - (s - E) * Y) / (X * Y)) by (field; lra).
  apply Rdiv_lt_0_compat; [|apply Rmult_lt_0_compat; lra]. apply Rmult_lt_0_compat; [apply Rmult_lt_0_compat; lra|].
  replace ((s - E') * X - (s - E) * Y) with ((E - E') * (a + q ^ 2 * g ^ 2 * (s * (1 - E - E') + E * E'))) by (unfold X, Y; ring).
  apply Rmult_lt_0_compat; [lra|].
  assert (Q2 : 0 < q ^ 2) by (apply pow_lt; auto). assert (G2 : 0 < g ^ 2 <= 1) by (split; [apply pow_lt; lra|nra]).
  assert (B : - e < s * (1 - E - E') + E * E').
  { assert (0 < E * E') by (apply Rmult_lt_0_compat; lra). assert (0 < (1 - E) * (1 - E')) by (apply Rmult_lt_0_compat; lra).
    destruct (Rle_dec 0 (1 - E - E')); nra. }
  assert (BB : q ^ 2 * g ^ 2 * - e <= q ^ 2 * g ^ 2 * (s * (1 - E - E') + E * E')) by (apply Rmult_le_compat_l; [apply Rmult_le_pos; lra|lra]).
  destruct (Req_dec e 0) as [->|Ne].
  - assert (0 < q ^ 2 * g ^ 2 * (s * (1 - E - E') + E * E')); [|lra]. apply Rmult_lt_0_compat; [apply Rmult_lt_0_compat; lra|lra].
  - assert (BC : q ^ 2 * g ^ 2 * - e < q ^ 2 * g ^ 2 * (s * (1 - E - E') + E * E')) by (apply Rmult_lt_compat_l; [apply Rmult_lt_0_compat; lra|lra]).
    assert (q ^ 2 * g ^ 2 * e <= q ^ 2 * e) by (rewrite (Rmult_comm (q ^ 2) (g ^ 2)), Rmult_assoc; assert (0 <= q ^ 2 * e) by (apply Rmult_le_pos; lra); nra). lra.
Qed.
Lemma C94_glicko_proof : forall r RD r2 r2' RD2 o c, 0 < RD -> 0 < RD2 -> r2 < r2' -> exists a b,
  gl_rating (fst (glicko (mkGlicko (Fin r) (Fin RD)) (mkGlicko (Fin r2) (Fin RD2)) o (mkGlickoConfig (Fin c)))) = Fin a /\
  gl_rating (fst (glicko (mkGlicko (Fin r) (Fin RD)) (mkGlicko (Fin r2') (Fin RD2)) o (mkGlickoConfig (Fin c)))) = Fin b /\ a < b.
Proof.
  intros r RD r2 r2' RD2 o c H1 H2 H. rewrite !C26_proof by auto. do 2 eexists. split; [reflexivity|split; [reflexivity|]].
  apply (glicko_r_opp _ _ _ _ _ _ 0); try lra; [now apply gpre_pos|pose proof (points_range o); lra].
Qed.
Lemma exp_232 : 0 < exp (232 / 100) - 10.
Proof. pose (x := 232 / 100). change (0 < exp x - 10). ival_pos x 0%nat 232%Z 100%Z 232%Z 100%Z. unfold x; lra. Qed.
Lemma gq_350 : gq ^ 2 * 350 ^ 2 * 0.24 <= 1.
Proof.
  assert (G : gq <= 0.0058). { unfold gq. assert (ln 10 <= 2.32); [|lra]. rewrite <- (ln_exp 2.32). apply Rlt_le, ln_increasing; [lra|]. pose proof exp_232 as E. replace (232 / 100) with 2.32 in E by lra. lra. }
  pose proof gq_pos. assert (gq ^ 2 <= 0.0058 ^ 2) by (apply pow_incr; lra). nra.
Qed.
Lemma C94_sticko_proof : forall r RD r2 r2' RD2 o h beta lambda gamma c, 0 < RD -> 0 < RD2 -> 0 <= h -> Rabs beta <= 0.24 -> 0 <= lambda -> r2 < r2' -> exists a b,
  let cfg := mkStickoConfig (Fin h) (Fin beta) (Fin lambda) (Fin gamma) (Fin c) in
  st_rating (fst (sticko (mkSticko (Fin r) (Fin RD)) (mkSticko (Fin r2) (Fin RD2)) o cfg)) = Fin a /\
  st_rating (fst (sticko (mkSticko (Fin r) (Fin RD)) (mkSticko (Fin r2') (Fin RD2)) o cfg)) = Fin b /\ a < b.
Proof.
  intros r RD r2 r2' RD2 o h be la ga c H1 H2 Hh Hb Hl H. cbv zeta. rewrite !C33_game_proof by auto. do 2 eexists. split; [reflexivity|split; [reflexivity|]].
  unfold sticko_r. cbn [map st_game]. pose proof (gpre_range RD c ltac:(left; lra)) as G.
  apply Rplus_lt_le_compat.
  - apply (glicko_r_opp _ _ _ _ _ _ 0.24); try lra.
    + pose proof (points_range o). unfold Rabs in Hb; destruct (Rcase_abs be); lra.
    + pose proof gq_350. pose proof gq_pos. eapply Rle_trans; [|exact gq_350]. apply Rmult_le_compat_r; [lra|]. apply Rmult_le_compat_l; [nra|]. apply pow_incr. lra.
  - unfold mean, Rsum. cbn. apply Rmult_le_compat_l; [lra|]. unfold Rdiv. rewrite Rinv_1. lra.
Qed.
Lemma wlp_opp a b b' c : 0 < c -> b < b' -> wlp a b' c < wlp a b c.
Proof. intros Hc H. pose proof (wlp_compl a b c). pose proof (wlp_compl a b' c). pose proof (wlp_lt b b' a c Hc H). lra. Qed.
Lemma C94_wl_proof : forall m s m2 m2' s2 o beta kappa, 0 < s -> 0 < s2 -> 0 < kappa <= 1 -> m2 < m2' -> exists a b,
  wl_rating (fst (weng_lin (mkWL (Fin m) (Fin s)) (mkWL (Fin m2) (Fin s2)) o (mkWLConfig (Fin beta) (Fin kappa)))) = Fin a /\
  wl_rating (fst (weng_lin (mkWL (Fin m) (Fin s)) (mkWL (Fin m2') (Fin s2)) o (mkWLConfig (Fin beta) (Fin kappa)))) = Fin b /\ a < b.
Proof.
  intros m s m2 m2' s2 o be ka Hs Hs2 Hk H.
  destruct (C42_proof m s m2 s2 o be ka Hs Hs2 Hk) as (a & ? & ? & ? & E1 & A & _). destruct (C42_proof m s m2' s2 o be ka Hs Hs2 Hk) as (b & ? & ? & ? & E2 & B & _).
  exists a, b. rewrite E1, E2. split; [reflexivity|split; [reflexivity|]]. rewrite A, B. set (c := sqrt _) in *.
  assert (C : 0 < c) by (apply sqrt_lt_R0; pose proof (pow_lt s 2 Hs); pose proof (pow_lt s2 2 Hs2); pose proof (pow2_ge_0 be); lra).
  pose proof (wlp_opp m m2 m2' c C H) as W. unfold wlp in W. assert (K : 0 < s ^ 2 / c) by (apply Rdiv_lt_0_compat; [apply pow_lt; auto|auto]).
  apply Rplus_lt_compat_l, Rmult_lt_compat_l; [exact K|lra].
Qed.
