(** Proofs of C131: the expected score of a rematch. *)
From Coq Require Import ZArith NArith List Bool Reals Lra Lia.
From Verif Require Import Arith XR Tac ModelLib ModelGlicko ModelGlicko2 ModelWengLin
  Spec ProofGlicko ProofGlicko2 ProofG2Vol ProofWengLin ProofMaxMove ProofTriangle.
Import Spec ListNotations.
Local Open Scope R_scope.

Definition lg (u : R) : R := / (1 + exp u).
Lemma lg_range u : 0 < lg u < 1.
Proof. apply logistic_bounds, exp_pos. Qed.
Lemma lg_lt u v : u < v -> lg v < lg u.
Proof. intros H. pose proof (exp_pos u). pose proof (exp_increasing u v H). unfold lg. apply Rinv_lt_contravar; [apply Rmult_lt_0_compat; lra|lra]. Qed.
Lemma lg_0 : lg 0 = 1 / 2.
Proof. unfold lg. rewrite exp_0. lra. Qed.
Lemma lg_neg u : lg (- u) = 1 - lg u.
Proof. unfold lg. rewrite exp_Ropp. pose proof (exp_pos u). field. split; lra. Qed.
Lemma lg_core1 u : 0 <= u -> u * lg u <= 1.
Proof.
  intros H. unfold lg. pose proof (exp_ineq1_le u). apply Rmult_le_reg_r with (1 + exp u); [lra|]. rewrite Rmult_assoc, Rinv_l by lra. lra.
Qed.
Lemma sinh_ge u : 0 <= u -> 2 * u <= exp u - exp (- u).
Proof.
  intros [H| <-]; [|rewrite Ropp_0, exp_0; lra].
  destruct (MVT_cor2 (fun x => exp x - exp (- x)) (fun x => exp x + exp (- x)) 0 u H) as (x & E & Hx).
  - intros c _. replace (exp c + exp (- c)) with (exp c - exp (- c) * -1) by ring.
    apply (derivable_pt_lim_minus exp (fun x => exp (- x))); [apply derivable_pt_lim_exp|]. apply (derivable_pt_lim_comp Ropp exp); [apply (derivable_pt_lim_opp id), derivable_pt_lim_id|apply derivable_pt_lim_exp].
  - cbv beta in E. rewrite Ropp_0, exp_0 in E. assert (2 <= exp x + exp (- x)).
    { rewrite exp_Ropp. pose proof (exp_pos x). apply Rmult_le_reg_r with (exp x); [auto|]. rewrite Rmult_plus_distr_r, Rinv_l by lra. pose proof (pow2_ge_0 (exp x - 1)). nra. }
    nra.
Qed.
Lemma lg_core2 u : 0 <= u -> u * (lg u * (1 - lg u)) <= 1 / 2 - lg u.
Proof.
  intros H. pose proof (sinh_ge u H) as S. rewrite exp_Ropp in S. unfold lg. pose proof (exp_pos u) as P. set (e := exp u) in *.
  apply Rmult_le_reg_r with ((1 + e) ^ 2); [apply pow_lt; lra|]. replace (u * (/ (1 + e) * (1 - / (1 + e))) * (1 + e) ^ 2) with (u * e) by (field; lra).
  replace ((1 / 2 - / (1 + e)) * (1 + e) ^ 2) with ((e ^ 2 - 1) / 2) by (field; lra).
  assert (2 * u * e <= (e - / e) * e) by (apply Rmult_le_compat_r; lra). rewrite Rmult_minus_distr_r, Rinv_l in H0 by lra. lra.
Qed.
Lemma lg_half u : 0 <= u -> 1 / 2 - lg u <= u / 2.
Proof.
  intros H. assert (L : exp (- u) / 2 <= lg u).
  { unfold lg. rewrite exp_Ropp. assert (1 <= exp u) by (pose proof (exp_ineq1_le u); lra). replace (/ exp u / 2) with (/ (2 * exp u)) by (field; lra). apply Rinv_le_contravar; lra. }
  pose proof (exp_ineq1_le (- u)). lra.
Qed.
(** What a win, or a draw of the underdog, has in common. *)
Definition good_score (s u : R) : Prop := lg u < s /\ u * (lg u * (1 - lg u)) <= s - lg u.
Lemma good_win u : 0 <= u -> good_score 1 u.
Proof. intros H. pose proof (lg_range u). pose proof (lg_core1 u H). split; [lra|]. nra. Qed.
Lemma good_draw u : 0 < u -> good_score (1 / 2) u.
Proof. intros H. split; [rewrite <- lg_0; apply lg_lt; auto|apply lg_core2; lra]. Qed.
Lemma good_points o u : 0 <= u -> o = WIN \/ (o = DRAW /\ 0 < u) -> good_score (points o) u.
Proof. intros H [-> |[-> H']]; [apply good_win|apply good_draw]; auto. Qed.
(** The gap shrinks faster than the uncertainty. *)
Lemma gap_core a D A B : 0 <= a -> 0 < D -> 0 < A -> 0 < B -> a * (A - B) <= D * A -> (a - D) / sqrt B < a / sqrt A.
Proof.
  intros Ha HD HA HB H. pose proof (sqrt_lt_R0 A HA) as SA. pose proof (sqrt_lt_R0 B HB) as SB. pose proof (pow2_sqrt A ltac:(lra)) as QA. pose proof (pow2_sqrt B ltac:(lra)) as QB.
  set (x := sqrt A) in *. set (y := sqrt B) in *. apply Rmult_lt_reg_r with (x * y); [apply Rmult_lt_0_compat; auto|].
  replace ((a - D) / y * (x * y)) with ((a - D) * x) by (field; lra). replace (a / x * (x * y)) with (a * y) by (field; lra).
  destruct (Rle_lt_dec a D) as [h|h]; [destruct Ha as [Ha| <-]; nra|]. apply Rsqr_incrst_0; [unfold Rsqr| apply Rmult_le_pos; lra|apply Rmult_le_pos; lra].
  replace ((a - D) * x * ((a - D) * x)) with ((a - D) * (a - D) * A) by (rewrite <- QA; ring). replace (a * y * (a * y)) with (a * a * B) by (rewrite <- QB; ring).
  assert (a * (a * (A - B)) <= a * (D * A)) by (apply Rmult_le_compat_l; lra). assert (0 < D * A * (a - D)) by (repeat apply Rmult_lt_0_compat; lra). nra.
Qed.
Lemma dev_step k q P S g s u a : 0 < k -> 0 < q -> 0 < P <= S -> 0 < g -> u = q * g * a -> good_score s u ->
  let y := q ^ 2 * (g ^ 2 * lg u * (1 - lg u)) in let P' := / (/ P + y) in
  0 < P' /\ 0 < q * P' * (g * (s - lg u)) /\ a * (k * (P - P')) <= q * P' * (g * (s - lg u)) * (1 + k * S).
Proof.
  intros Hk Hq [HP HS] Hg Hu [G1 G2] y P'. pose proof (lg_range u) as [L0 L1]. set (E := lg u) in *.
  assert (Y : 0 < y) by (unfold y; repeat apply Rmult_lt_0_compat; try apply pow_lt; lra). assert (IP := Rinv_0_lt_compat P HP).
  assert (P0 : 0 < P') by (apply Rinv_0_lt_compat; lra). split; [auto|]. split; [repeat apply Rmult_lt_0_compat; lra|].
  assert (PY : 0 < P * y) by (apply Rmult_lt_0_compat; auto). assert (Q : P - P' = P * P' * y) by (unfold P'; field; split; lra).
  rewrite Q. replace (a * (k * (P * P' * y))) with (q * P' * g * (k * P * (u * (E * (1 - E))))) by (unfold y; rewrite Hu; ring).
  replace (q * P' * (g * (s - E)) * (1 + k * S)) with (q * P' * g * ((s - E) * (1 + k * S))) by ring.
  apply Rmult_le_compat_l; [repeat apply Rmult_le_pos; lra|]. apply Rle_trans with (k * P * (s - E)); [apply Rmult_le_compat_l; [apply Rmult_le_pos; lra|auto]|].
  assert (k * P <= 1 + k * S) by nra. rewrite Rmult_comm. apply Rmult_le_compat_l; lra.
Qed.
Lemma two_dev k q P1 P2 V1 V2 g1 g2 s a : 0 < k -> 0 < q -> 0 < P1 -> 0 < P2 -> 0 <= V1 <= P1 -> 0 <= V2 <= P2 -> 0 < g1 -> 0 < g2 -> 0 <= a ->
  good_score s (q * g2 * a) -> good_score s (q * g1 * a) ->
  let E1 := lg (q * g2 * a) in let E2 := lg (q * g1 * a) in
  let P1' := / (/ P1 + q ^ 2 * (g2 ^ 2 * E1 * (1 - E1))) in let P2' := / (/ P2 + q ^ 2 * (g1 ^ 2 * E2 * (1 - E2))) in
  (a - (q * P1' * (g2 * (s - E1)) + q * P2' * (g1 * (s - E2)))) / sqrt (1 + k * (P1' + P2')) < a / sqrt (1 + k * (V1 + V2)).
Proof.
  intros Hk Hq HP1 HP2 HV1 HV2 Hg1 Hg2 Ha S1 S2 E1 E2 P1' P2'.
  destruct (dev_step k q P1 (P1 + P2) g2 s _ a Hk Hq ltac:(lra) Hg2 eq_refl S1) as (A1 & A2 & A3). destruct (dev_step k q P2 (P1 + P2) g1 s _ a Hk Hq ltac:(lra) Hg1 eq_refl S2) as (B1 & B2 & B3).
  fold E1 in A1, A2, A3. fold P1' in A1, A2, A3. fold E2 in B1, B2, B3. fold P2' in B1, B2, B3.
  apply Rlt_le_trans with (a / sqrt (1 + k * (P1 + P2))).
  - apply gap_core; [lra|lra|nra|nra|]. nra.
  - unfold Rdiv. apply Rmult_le_compat_l; [auto|]. apply Rinv_le_contravar; [apply sqrt_lt_R0; nra|apply sqrt_le_1_alt; nra].
Qed.

(** Glicko *)
Lemma gE_lg r rj h : gE r rj h = lg (gq * gg h * (rj - r)).
Proof. unfold gE, lg, Rpower, gq. do 3 f_equal. field. Qed.
Definition kq : R := 3 * gq ^ 2 / PI ^ 2.
Lemma kq_pos : 0 < kq.
Proof. unfold kq. pose proof gq_pos. pose proof PI_RGT_0. pos. Qed.
Lemma gg_sqrt A : 0 <= A -> gg (sqrt A) = / sqrt (1 + kq * A).
Proof. intros H. unfold gg, kq. rewrite pow2_sqrt by auto. do 3 f_equal. field. apply PI_neq0. Qed.
Lemma glicko_one r RD r2 RD2 s : 0 < RD -> let E := gE r r2 RD2 in let P' := / (/ RD ^ 2 + gq ^ 2 * (gg RD2 ^ 2 * E * (1 - E))) in
  0 < P' <= RD ^ 2 /\ glicko_r r RD [(r2, RD2, s)] = r + gq * P' * (gg RD2 * (s - E)) /\ glicko_rd r RD [(r2, RD2, s)] ^ 2 = P'.
Proof.
  intros H E P'. assert (D : gd2inv r [(r2, RD2, s)] = gq ^ 2 * (gg RD2 ^ 2 * E * (1 - E))) by (unfold gd2inv; cbn [map]; rewrite Rsum_cons, Rsum_nil, Rplus_0_r; reflexivity).
  pose proof (gd2inv_nonneg r [(r2, RD2, s)]) as N. rewrite D in N. assert (I := Rinv_0_lt_compat _ (pow_lt RD 2 H)). assert (P0 : 0 < P') by (apply Rinv_0_lt_compat; lra).
  split; [|split].
  - split; auto. unfold P'. rewrite <- (Rinv_inv (RD ^ 2)) at 2. apply Rinv_le_contravar; lra.
  - unfold glicko_r. rewrite D. unfold gM. cbn [map]. rewrite Rsum_cons, Rsum_nil, Rplus_0_r. reflexivity.
  - unfold glicko_rd. rewrite D. apply pow2_sqrt. lra.
Qed.
Lemma glicko_exp_lg a A b B h : h = A ^ 2 + B ^ 2 -> fst (glicko_expected_score (mkGlicko (Fin a) (Fin A)) (mkGlicko (Fin b) (Fin B))) = Fin (lg (gq * ((b - a) / sqrt (1 + kq * h)))).
Proof. intros ->. rewrite glicko_expected_eval. cbn [fst]. rewrite gE_lg, gg_sqrt by (pose proof (pow2_ge_0 A); pose proof (pow2_ge_0 B); lra). do 2 f_equal. unfold Rdiv. ring. Qed.
Lemma gpre_ge RD c : 0 < RD <= 350 -> 0 <= RD ^ 2 <= gpre RD c ^ 2.
Proof. intros H. rewrite gpre_sq. pose proof (pow2_ge_0 c). pose proof (pow2_ge_0 RD). split; [auto|]. apply Rmin_glb; [lra|]. apply pow_incr; lra. Qed.
Lemma C131_glicko_proof : forall r1 RD1 r2 RD2 c o, 0 < RD1 <= 350 -> 0 < RD2 <= 350 -> r1 <= r2 -> o = WIN \/ (o = DRAW /\ r1 < r2) ->
  let p1 := mkGlicko (Fin r1) (Fin RD1) in let p2 := mkGlicko (Fin r2) (Fin RD2) in
  let '(q1, q2) := glicko p1 p2 o (mkGlickoConfig (Fin c)) in
  exists e e', fst (glicko_expected_score p1 p2) = Fin e /\ fst (glicko_expected_score q1 q2) = Fin e' /\ e < e'.
Proof.
  intros r1 RD1 r2 RD2 c o H1 H2 Hr Ho p1 p2. unfold p1, p2. rewrite C26_proof by lra.
  destruct (glicko_one r1 (gpre RD1 c) r2 RD2 (points o) (gpre_pos RD1 c ltac:(lra))) as ([A0 _] & A1 & A2).
  destruct (glicko_one r2 (gpre RD2 c) r1 RD1 (points (invert o)) (gpre_pos RD2 c ltac:(lra))) as ([B0 _] & B1 & B2).
  rewrite (glicko_exp_lg r1 RD1 r2 RD2 _ eq_refl). erewrite (glicko_exp_lg (glicko_r r1 _ _)); [|rewrite A2, B2; reflexivity]. do 2 eexists. split; [reflexivity|]. split; [reflexivity|].
  apply lg_lt, Rmult_lt_compat_l; [auto|]. rewrite A1, B1. set (a := r2 - r1). pose proof gq_pos as Q. pose proof (gg_range RD1) as [G1 _]. pose proof (gg_range RD2) as [G2 _].
  pose proof (two_dev kq gq (gpre RD1 c ^ 2) (gpre RD2 c ^ 2) (RD1 ^ 2) (RD2 ^ 2) (gg RD1) (gg RD2) (points o) a kq_pos Q (pow_lt _ 2 (gpre_pos RD1 c ltac:(lra))) (pow_lt _ 2 (gpre_pos RD2 c ltac:(lra)))
    (gpre_ge RD1 c H1) (gpre_ge RD2 c H2) G1 G2 ltac:(unfold a; lra)) as T.
  assert (W : forall g, 0 < g -> good_score (points o) (gq * g * a)).
  { intros g Hg. apply good_points; [apply Rmult_le_pos; [apply Rmult_le_pos; lra|unfold a; lra]|]. destruct Ho as [->|[-> h]]; [left; auto|right; split; auto]. apply Rmult_lt_0_compat; [apply Rmult_lt_0_compat; lra|unfold a; lra]. }
  specialize (T (W _ G2) (W _ G1)). cbv zeta in T. assert (E1 : gE r1 r2 RD2 = lg (gq * gg RD2 * a)) by apply gE_lg.
  assert (E2 : gE r2 r1 RD1 = 1 - lg (gq * gg RD1 * a)). { rewrite gE_lg. unfold a. rewrite <- lg_neg. f_equal. ring. }
  assert (I : points (invert o) = 1 - points o) by (destruct o; cbn [invert points]; lra). rewrite E1, E2, I in *.
  set (x := lg (gq * gg RD2 * a)) in *. set (y := lg (gq * gg RD1 * a)) in *. replace (1 - (1 - y)) with y by ring. replace (gg RD1 ^ 2 * (1 - y) * y) with (gg RD1 ^ 2 * y * (1 - y)) by ring.
  eapply Rle_lt_trans; [|exact T]. right. f_equal. unfold a. ring.
Qed.
(** Without the growth of the deviations every win raises the expected score. *)
Lemma C131_glicko_win_proof : forall r1 RD1 r2 RD2, 0 < RD1 <= 350 -> 0 < RD2 <= 350 ->
  let p1 := mkGlicko (Fin r1) (Fin RD1) in let p2 := mkGlicko (Fin r2) (Fin RD2) in
  let '(q1, q2) := glicko p1 p2 WIN (mkGlickoConfig (Fin 0)) in
  exists e e', fst (glicko_expected_score p1 p2) = Fin e /\ fst (glicko_expected_score q1 q2) = Fin e' /\ e < e'.
Proof.
  intros r1 RD1 r2 RD2 H1 H2 p1 p2. destruct (Rle_lt_dec r1 r2) as [h|h]; [apply C131_glicko_proof; auto|]. unfold p1, p2. rewrite C26_proof by lra.
  destruct (glicko_one r1 (gpre RD1 0) r2 RD2 1 (gpre_pos RD1 0 ltac:(lra))) as ([A0 A3] & A1 & A2).
  destruct (glicko_one r2 (gpre RD2 0) r1 RD1 0 (gpre_pos RD2 0 ltac:(lra))) as ([B0 B3] & B1 & B2). cbn [points invert] in *.
  rewrite (glicko_exp_lg r1 RD1 r2 RD2 _ eq_refl). erewrite (glicko_exp_lg (glicko_r r1 _ _)); [|rewrite A2, B2; reflexivity]. do 2 eexists. split; [reflexivity|]. split; [reflexivity|].
  apply lg_lt, Rmult_lt_compat_l; [auto|]. rewrite A1, B1. pose proof gq_pos as Q. pose proof (gg_range RD1) as [G1 _]. pose proof (gg_range RD2) as [G2 _]. pose proof (gE_range r1 r2 RD2). pose proof (gE_range r2 r1 RD1).
  assert (V : forall R0, 0 < R0 <= 350 -> gpre R0 0 ^ 2 = R0 ^ 2) by (intros R0 HR; rewrite gpre_sq, pow_i, Rplus_0_r by lia; apply Rmin_left, pow_incr; lra).
  set (P1 := / (/ gpre RD1 0 ^ 2 + _)) in *. set (P2 := / (/ gpre RD2 0 ^ 2 + _)) in *. rewrite V in A3, B3 by lra. set (x := gE r1 r2 RD2) in *. set (y := gE r2 r1 RD1) in *. pose proof kq_pos as K.
  assert (X : 0 < gq * P1 * (gg RD2 * (1 - x))) by (apply Rmult_lt_0_compat; apply Rmult_lt_0_compat; lra). assert (Y : 0 < gq * P2 * (gg RD1 * y)) by (apply Rmult_lt_0_compat; apply Rmult_lt_0_compat; lra).
  assert (S0 : 0 < sqrt (1 + kq * (P1 + P2))) by (apply sqrt_lt_R0; nra). assert (S1 : sqrt (1 + kq * (P1 + P2)) <= sqrt (1 + kq * (RD1 ^ 2 + RD2 ^ 2))) by (apply sqrt_le_1_alt; nra).
  set (s := sqrt (1 + kq * (P1 + P2))) in *. set (t := sqrt (1 + kq * (RD1 ^ 2 + RD2 ^ 2))) in *. apply Rlt_le_trans with ((r2 - r1) / s).
  - unfold Rdiv. apply Rmult_lt_compat_r; [apply Rinv_0_lt_compat; auto|]. lra.
  - unfold Rdiv. apply Rmult_le_compat_neg_l; [lra|]. apply Rinv_le_contravar; auto.
Qed.
(** With it a win over a far weaker opponent lowers it. *)
Lemma lg_small u : 0 < u -> lg u < / u.
Proof. intros H. unfold lg. pose proof (exp_ineq1_le u). apply Rinv_lt_contravar; [apply Rmult_lt_0_compat; lra|lra]. Qed.
Lemma inv_shrink P y : 0 < P -> 0 <= y -> P - P ^ 2 * y <= / (/ P + y) <= P.
Proof.
  intros HP Hy. assert (I := Rinv_0_lt_compat P HP). split.
  - apply Rmult_le_reg_r with (/ P + y); [lra|]. rewrite Rinv_l by lra. replace ((P - P ^ 2 * y) * (/ P + y)) with (1 - (P * y) ^ 2) by (field; lra). pose proof (pow2_ge_0 (P * y)). lra.
  - rewrite <- (Rinv_inv P) at 2. apply Rinv_le_contravar; lra.
Qed.
Lemma unit_prod g v : 0 < g <= 1 -> 0 <= v <= 1 -> 0 <= g * v <= 1.
Proof. intros. split; [apply Rmult_le_pos; lra|]. rewrite <- (Rmult_1_r 1). apply Rmult_le_compat; lra. Qed.
Lemma info_small q g z E : 0 < q -> 0 < g <= 1 -> 0 < E < 1 -> E <= z -> 0 <= q ^ 2 * (g ^ 2 * E * (1 - E)) <= q ^ 2 * z.
Proof.
  intros Hq Hg HE Hz. assert (0 < q ^ 2) by (apply pow_lt; auto). assert (0 < g ^ 2 <= 1) by (split; [apply pow_lt; lra|]; rewrite <- (pow1 2); apply pow_incr; lra).
  replace (g ^ 2 * E * (1 - E)) with (g ^ 2 * (1 - E) * E) by ring. pose proof (unit_prod (g ^ 2) (1 - E) H0 ltac:(lra)) as U. split; [apply Rmult_le_pos; [lra|apply Rmult_le_pos; lra]|]. apply Rmult_le_compat_l; [lra|].
  apply Rle_trans with (1 * E); [apply Rmult_le_compat_r; lra|lra].
Qed.
Lemma far_win k q g1 g2 S d B : 0 < k -> 0 < q -> 0 < g1 <= 1 -> 0 < g2 <= 1 -> 0 <= S -> 0 < d -> 0 < B -> exists a, 0 < a /\
  forall P1 P2, 0 < P1 <= B -> 0 < P2 <= B -> S + d <= P1 + P2 ->
  let E1 := lg (q * g2 * a) in let E2 := lg (q * g1 * a) in
  let P1' := / (/ P1 + q ^ 2 * (g2 ^ 2 * E1 * (1 - E1))) in let P2' := / (/ P2 + q ^ 2 * (g1 ^ 2 * E2 * (1 - E2))) in
  - a / sqrt (1 + k * S) < - (a + q * P1' * (g2 * E1) + q * P2' * (g1 * E2)) / sqrt (1 + k * (P1' + P2')).
Proof.
  intros K Q G1 G2 HS Hd HB. set (M := q * (B + B)). assert (HM : 0 < M) by (unfold M; apply Rmult_lt_0_compat; lra).
  set (s0 := sqrt (1 + k * S)). set (s1 := sqrt (1 + k * (S + d / 2))). assert (KS : 0 <= k * S) by (apply Rmult_le_pos; lra). assert (KD : 0 < k * (d / 2)) by (apply Rmult_lt_0_compat; lra).
  assert (S0 : 0 < s0) by (apply sqrt_lt_R0; lra). assert (S01 : s0 < s1) by (apply sqrt_lt_1_alt; lra).
  set (T := 2 * B ^ 2). assert (HT : 0 < T) by (unfold T; pose proof (pow_lt B 2 HB); lra).
  set (w := q * Rmin g1 g2). assert (Hm : 0 < Rmin g1 g2) by (apply Rmin_glb_lt; lra). assert (Hw : 0 < w) by (apply Rmult_lt_0_compat; auto).
  set (a := M * s0 / (s1 - s0) + 1 + q ^ 2 * T * 2 / (w * d)). assert (A1 : 0 < M * s0 / (s1 - s0)) by (apply Rdiv_lt_0_compat; [apply Rmult_lt_0_compat; auto|lra]).
  assert (Q2 : 0 < q ^ 2) by (apply pow_lt; auto). assert (WD : 0 < w * d) by (apply Rmult_lt_0_compat; auto).
  assert (A2 : 0 < q ^ 2 * T * 2 / (w * d)) by (apply Rdiv_lt_0_compat; [|auto]; apply Rmult_lt_0_compat; [apply Rmult_lt_0_compat; auto|lra]). assert (Ha : 0 < a) by (unfold a; lra).
  assert (MA : M * s0 < a * (s1 - s0)). { unfold a. assert (M * s0 / (s1 - s0) * (s1 - s0) = M * s0) by (field; lra). assert (0 < (1 + q ^ 2 * T * 2 / (w * d)) * (s1 - s0)) by (apply Rmult_lt_0_compat; lra). lra. }
  exists a. split; [auto|]. intros P1 P2 HP1 HP2 HPS E1 E2 P1' P2'.
  assert (WA : 0 < w * a) by (apply Rmult_lt_0_compat; auto). set (z := / (w * a)).
  assert (X : E1 <= z). { unfold E1. eapply Rle_trans; [left; apply lg_small, Rmult_lt_0_compat; [apply Rmult_lt_0_compat; lra|auto]|]. apply Rinv_le_contravar; [auto|]. apply Rmult_le_compat_r; [lra|]. unfold w. apply Rmult_le_compat_l; [lra|apply Rmin_r]. }
  assert (Y : E2 <= z). { unfold E2. eapply Rle_trans; [left; apply lg_small, Rmult_lt_0_compat; [apply Rmult_lt_0_compat; lra|auto]|]. apply Rinv_le_contravar; [auto|]. apply Rmult_le_compat_r; [lra|]. unfold w. apply Rmult_le_compat_l; [lra|apply Rmin_l]. }
  assert (Zd : q ^ 2 * z * T <= d / 2).
  { unfold z. apply Rmult_le_reg_r with (w * a); [auto|]. replace (q ^ 2 * / (w * a) * T * (w * a)) with (q ^ 2 * T) by (field; lra).
    assert (H : w * d * (q ^ 2 * T * 2 / (w * d)) <= w * d * a) by (apply Rmult_le_compat_l; [lra|unfold a; lra]). replace (w * d * (q ^ 2 * T * 2 / (w * d))) with (q ^ 2 * T * 2) in H by (field; lra). lra. }
  pose proof (lg_range (q * g2 * a)) as R1. pose proof (lg_range (q * g1 * a)) as R2. fold E1 in R1. fold E2 in R2.
  pose proof (info_small q g2 z E1 Q G2 R1 X) as Y1. pose proof (info_small q g1 z E2 Q G1 R2 Y) as Y2.
  destruct (inv_shrink P1 _ ltac:(lra) (proj1 Y1)) as [I1 I1']. destruct (inv_shrink P2 _ ltac:(lra) (proj1 Y2)) as [I2 I2']. fold P1' in I1, I1'. fold P2' in I2, I2'.
  set (y1 := q ^ 2 * (g2 ^ 2 * E1 * (1 - E1))) in *. set (y2 := q ^ 2 * (g1 ^ 2 * E2 * (1 - E2))) in *. assert (J1 : 0 < P1') by (apply Rinv_0_lt_compat; pose proof (Rinv_0_lt_compat P1 ltac:(lra)); lra). assert (J2 : 0 < P2') by (apply Rinv_0_lt_compat; pose proof (Rinv_0_lt_compat P2 ltac:(lra)); lra).
  assert (W1 : P1 ^ 2 * y1 <= B ^ 2 * (q ^ 2 * z)) by (apply Rmult_le_compat; [apply pow2_ge_0|lra|apply pow_incr; lra|lra]). assert (W2 : P2 ^ 2 * y2 <= B ^ 2 * (q ^ 2 * z)) by (apply Rmult_le_compat; [apply pow2_ge_0|lra|apply pow_incr; lra|lra]).
  assert (SS : S + d / 2 <= P1' + P2'). { unfold T in Zd. lra. }
  set (s := sqrt (1 + k * (P1' + P2'))). assert (S1 : s1 <= s) by (apply sqrt_le_1_alt, Rplus_le_compat_l, Rmult_le_compat_l; lra).
  assert (DD : q * P1' * (g2 * E1) <= q * B). { rewrite Rmult_assoc. apply Rmult_le_compat_l; [lra|]. rewrite <- (Rmult_1_r B). pose proof (unit_prod g2 E1 G2 ltac:(lra)). apply Rmult_le_compat; lra. }
  assert (DE : q * P2' * (g1 * E2) <= q * B). { rewrite Rmult_assoc. apply Rmult_le_compat_l; [lra|]. rewrite <- (Rmult_1_r B). pose proof (unit_prod g1 E2 G1 ltac:(lra)). apply Rmult_le_compat; lra. }
  apply Rlt_le_trans with (- (a + M) / s1).
  - apply Rmult_lt_reg_r with (s0 * s1); [apply Rmult_lt_0_compat; lra|]. replace (- a / s0 * (s0 * s1)) with (- a * s1) by (field; lra). replace (- (a + M) / s1 * (s0 * s1)) with (- (a + M) * s0) by (field; lra). lra.
  - apply Rle_trans with (- (a + M) / s); unfold Rdiv.
    + apply Rmult_le_compat_neg_l; [lra|]. apply Rinv_le_contravar; lra.
    + apply Rmult_le_compat_r; [left; apply Rinv_0_lt_compat; lra|]. unfold M. lra.
Qed.
Lemma C131_glicko_refuted_proof : forall r1 RD1 RD2 c, 0 < RD1 < 350 -> 0 < RD2 <= 350 -> c <> 0 -> exists r2, r2 < r1 /\
  let p1 := mkGlicko (Fin r1) (Fin RD1) in let p2 := mkGlicko (Fin r2) (Fin RD2) in
  let '(q1, q2) := glicko p1 p2 WIN (mkGlickoConfig (Fin c)) in
  exists e e', fst (glicko_expected_score p1 p2) = Fin e /\ fst (glicko_expected_score q1 q2) = Fin e' /\ e' < e.
Proof.
  intros r1 RD1 RD2 c H1 H2 Hc. set (P1 := gpre RD1 c ^ 2). set (P2 := gpre RD2 c ^ 2). pose proof gq_pos as Q. pose proof kq_pos as K.
  pose proof (gg_range RD1) as G1. pose proof (gg_range RD2) as G2.
  assert (C2 : 0 < c ^ 2) by (rewrite <- Rsqr_pow2; apply Rsqr_pos_lt; auto).
  assert (L1 : RD1 ^ 2 < P1). { unfold P1. rewrite gpre_sq. apply Rmin_glb_lt; [lra|]. assert (RD1 * RD1 < 350 * 350) by nra. lra. }
  assert (L2 : RD2 ^ 2 <= P2) by apply (gpre_ge RD2 c H2). assert (Z1 : 0 < RD1 ^ 2) by (apply pow_lt; lra). assert (Z2 : 0 < RD2 ^ 2) by (apply pow_lt; lra).
  destruct (far_win kq gq (gg RD1) (gg RD2) (RD1 ^ 2 + RD2 ^ 2) (P1 - RD1 ^ 2) (P1 + P2) K Q G1 G2 ltac:(lra) ltac:(lra) ltac:(lra)) as (a & Ha & F). specialize (F P1 P2 ltac:(lra) ltac:(lra) ltac:(lra)). cbv zeta in F.
  exists (r1 - a). split; [lra|]. set (r2 := r1 - a). cbv zeta. rewrite C26_proof by lra.
  destruct (glicko_one r1 (gpre RD1 c) r2 RD2 1 (gpre_pos RD1 c ltac:(lra))) as ([B0 B3] & B1 & B2).
  destruct (glicko_one r2 (gpre RD2 c) r1 RD1 0 (gpre_pos RD2 c ltac:(lra))) as ([D0 D3] & D1 & D2). cbn [points invert] in *.
  rewrite (glicko_exp_lg r1 RD1 r2 RD2 _ eq_refl). erewrite (glicko_exp_lg (glicko_r r1 _ _)); [|rewrite B2, D2; reflexivity]. do 2 eexists. split; [reflexivity|]. split; [reflexivity|].
  apply lg_lt, Rmult_lt_compat_l; [auto|]. rewrite B1, D1. fold P1 P2.
  assert (E1 : gE r1 r2 RD2 = 1 - lg (gq * gg RD2 * a)). { rewrite gE_lg, <- lg_neg. f_equal. unfold r2. ring. }
  assert (E2 : gE r2 r1 RD1 = lg (gq * gg RD1 * a)). { rewrite gE_lg. f_equal. unfold r2. ring. }
  rewrite E1, E2. set (x := lg (gq * gg RD2 * a)) in *. set (y := lg (gq * gg RD1 * a)) in *. replace (1 - (1 - x)) with x by ring. replace (gg RD2 ^ 2 * (1 - x) * x) with (gg RD2 ^ 2 * x * (1 - x)) by ring.
  replace (r2 - r1) with (- a) by (unfold r2; ring). eapply Rlt_le_trans; [exact F|]. right. f_equal. unfold r2. ring.
Qed.

(** Glicko-2 *)
Definition k2 : R := 3 / PI ^ 2.
Lemma k2_pos : 0 < k2.
Proof. unfold k2. pose proof PI_RGT_0. pos. Qed.
Lemma g2E_lg mu muj h : g2E mu muj h = lg (1 * g2g h * (muj - mu)).
Proof. unfold g2E, lg. do 3 f_equal. ring. Qed.
Lemma g2g_sqrt A : 0 <= A -> g2g (sqrt A) = / sqrt (1 + k2 * A).
Proof. intros H. unfold g2g, k2. rewrite pow2_sqrt by auto. do 3 f_equal. field. apply PI_neq0. Qed.
Lemma g2mu_r x : g2mu (g2s * x + 1500) = x.
Proof. unfold g2mu. field. pose proof g2s_pos. lra. Qed.
Lemma g2phi_r x : g2phi (g2s * x) = x.
Proof. unfold g2phi. field. pose proof g2s_pos. lra. Qed.
Lemma g2_one r RD s' mu2 phi2 s : 0 < s' -> let E := g2E (g2mu r) mu2 phi2 in let P := g2phi RD ^ 2 + s' ^ 2 in let P' := / (/ P + 1 ^ 2 * (g2g phi2 ^ 2 * E * (1 - E))) in
  g2mu (g2_new_r r RD s' [(mu2, phi2, s)]) = g2mu r + 1 * P' * (g2g phi2 * (s - E)) /\ g2phi (g2_new_rd r RD s' [(mu2, phi2, s)]) ^ 2 = P'.
Proof.
  intros Hs E P P'. pose proof (g2g_range phi2) as [G _]. pose proof (g2E_range (g2mu r) mu2 phi2) as HE. fold E in HE. pose proof (pow2_ge_0 (g2phi RD)) as Z. pose proof (pow_lt s' 2 Hs) as Z2.
  assert (HP : 0 < P) by (unfold P; lra). assert (I := Rinv_0_lt_compat P HP). assert (Y : 0 < g2g phi2 ^ 2 * E * (1 - E)) by (repeat apply Rmult_lt_0_compat; try apply pow_lt; lra).
  assert (Q : g2_phi' (g2phi RD) s' (g2v (g2mu r) [(mu2, phi2, s)]) ^ 2 = P').
  { unfold g2_phi'. rewrite g2v_single, Rinv_inv. fold E. rewrite pow_inv, pow2_sqrt by (fold P; lra). unfold P'. fold P. f_equal. ring. }
  unfold g2_new_r, g2_new_rd. cbv zeta. rewrite g2mu_r, g2phi_r, Q. split; [|auto]. unfold g2M. cbn [map]. rewrite Rsum_cons, Rsum_nil, Rplus_0_r. fold E. ring.
Qed.
Lemma g2_exp_lg a A s b B s' h : h = g2phi A ^ 2 + g2phi B ^ 2 -> fst (glicko2_expected_score (mkGlicko2 (Fin a) (Fin A) (Fin s)) (mkGlicko2 (Fin b) (Fin B) (Fin s'))) = Fin (lg ((g2mu b - g2mu a) / sqrt (1 + k2 * h))).
Proof. intros ->. rewrite g2_expected_eval. cbv zeta. cbn [fst]. rewrite g2E_lg, g2g_sqrt by (pose proof (pow2_ge_0 (g2phi A)); pose proof (pow2_ge_0 (g2phi B)); lra). do 2 f_equal. unfold Rdiv. ring. Qed.
Lemma g2mu_diff a b : g2mu b - g2mu a = (b - a) / g2s.
Proof. unfold g2mu. field. pose proof g2s_pos. lra. Qed.
Lemma C131_glicko2_proof : forall fuel r1 RD1 s1 r2 RD2 s2 o t tol q1 q2, 0 < s1 -> 0 < s2 -> 0 < t -> 0 <= tol -> r1 <= r2 -> o = WIN \/ (o = DRAW /\ r1 < r2) ->
  let p1 := mkGlicko2 (Fin r1) (Fin RD1) (Fin s1) in let p2 := mkGlicko2 (Fin r2) (Fin RD2) (Fin s2) in
  glicko2 fuel p1 p2 o (mkGlicko2Config (Fin t) (Fin tol)) = Some (q1, q2) ->
  exists e e', fst (glicko2_expected_score p1 p2) = Fin e /\ fst (glicko2_expected_score q1 q2) = Fin e' /\ e < e'.
Proof.
  intros fuel r1 RD1 s1 r2 RD2 s2 o t tol q1 q2 H1 H2 Ht Htol Hr Ho p1 p2 E. destruct (C39_proof _ _ _ _ _ _ _ _ _ _ _ _ H1 H2 Ht Htol E) as (u1 & u2 & -> & -> & [U1 _] & [U2 _] & _). unfold p1, p2.
  destruct (g2_one r1 RD1 u1 (g2mu r2) (g2phi RD2) (points o) U1) as (A1 & A2). destruct (g2_one r2 RD2 u2 (g2mu r1) (g2phi RD1) (points (invert o)) U2) as (B1 & B2).
  rewrite (g2_exp_lg r1 RD1 s1 r2 RD2 s2 _ eq_refl). erewrite (g2_exp_lg (g2_new_r r1 _ _ _)); [|rewrite A2, B2; reflexivity]. do 2 eexists. split; [reflexivity|]. split; [reflexivity|].
  apply lg_lt. rewrite A1, B1. set (a := g2mu r2 - g2mu r1). pose proof g2s_pos as Gs. assert (Ha : 0 <= a) by (unfold a; rewrite g2mu_diff; unfold Rdiv; apply Rmult_le_pos; [lra|left; apply Rinv_0_lt_compat; auto]).
  pose proof (g2g_range (g2phi RD1)) as [G1 _]. pose proof (g2g_range (g2phi RD2)) as [G2 _]. pose proof (pow2_ge_0 (g2phi RD1)) as Z1. pose proof (pow2_ge_0 (g2phi RD2)) as Z2. pose proof (pow_lt u1 2 U1) as Z3. pose proof (pow_lt u2 2 U2) as Z4.
  pose proof (two_dev k2 1 (g2phi RD1 ^ 2 + u1 ^ 2) (g2phi RD2 ^ 2 + u2 ^ 2) (g2phi RD1 ^ 2) (g2phi RD2 ^ 2) (g2g (g2phi RD1)) (g2g (g2phi RD2)) (points o) a k2_pos Rlt_0_1 ltac:(lra) ltac:(lra) ltac:(lra) ltac:(lra) G1 G2 Ha) as T.
  assert (W : forall g, 0 < g -> good_score (points o) (1 * g * a)).
  { intros g Hg. apply good_points; [apply Rmult_le_pos; lra|]. destruct Ho as [->|[-> h]]; [left; auto|right; split; auto]. apply Rmult_lt_0_compat; [lra|]. unfold a. rewrite g2mu_diff. apply Rdiv_lt_0_compat; lra. }
  specialize (T (W _ G2) (W _ G1)). cbv zeta in T. assert (E1 : g2E (g2mu r1) (g2mu r2) (g2phi RD2) = lg (1 * g2g (g2phi RD2) * a)) by apply g2E_lg.
  assert (E2 : g2E (g2mu r2) (g2mu r1) (g2phi RD1) = 1 - lg (1 * g2g (g2phi RD1) * a)). { rewrite g2E_lg, <- lg_neg. f_equal. unfold a. ring. }
  assert (J : points (invert o) = 1 - points o) by (destruct o; cbn [invert points]; lra). rewrite E1, E2, J in *.
  set (x := lg (1 * g2g (g2phi RD2) * a)) in *. set (y := lg (1 * g2g (g2phi RD1) * a)) in *. replace (1 - (1 - y)) with y by ring. replace (g2g (g2phi RD1) ^ 2 * (1 - y) * y) with (g2g (g2phi RD1) ^ 2 * y * (1 - y)) by ring.
  eapply Rle_lt_trans; [|exact T]. right. f_equal. unfold a. ring.
Qed.
Lemma C131_glicko2_refuted_proof : forall r1 RD1 s1 RD2 s2 t tol, 0 < s1 -> 0 < s2 -> 0 < t -> 0 < tol -> t ^ 2 * s1 ^ 2 <= 1 / 10 -> t ^ 2 * s2 ^ 2 <= 1 / 10 -> exists r2, r2 < r1 /\
  let p1 := mkGlicko2 (Fin r1) (Fin RD1) (Fin s1) in let p2 := mkGlicko2 (Fin r2) (Fin RD2) (Fin s2) in
  exists fuel q1 q2 e e', glicko2 fuel p1 p2 WIN (mkGlicko2Config (Fin t) (Fin tol)) = Some (q1, q2) /\
  fst (glicko2_expected_score p1 p2) = Fin e /\ fst (glicko2_expected_score q1 q2) = Fin e' /\ e' < e.
Proof.
  intros r1 RD1 s1 RD2 s2 t tol H1 H2 Ht Htol T1 T2. assert (Htol' : 0 <= tol) by lra. set (X1 := s1 ^ 2 * exp (- (t ^ 2 * s1 ^ 2 / 8 + tol))). set (Y1 := s1 ^ 2 * exp (3 / 2 * t ^ 2 * s1 ^ 2 + tol)). set (Y2 := s2 ^ 2 * exp (3 / 2 * t ^ 2 * s2 ^ 2 + tol)).
  assert (HX : 0 < X1) by (apply Rmult_lt_0_compat; [apply pow_lt; auto|apply exp_pos]). assert (HY1 : 0 < Y1) by (apply Rmult_lt_0_compat; [apply pow_lt; auto|apply exp_pos]). assert (HY2 : 0 < Y2) by (apply Rmult_lt_0_compat; [apply pow_lt; auto|apply exp_pos]).
  pose proof (g2g_range (g2phi RD1)) as G1. pose proof (g2g_range (g2phi RD2)) as G2. pose proof (pow2_ge_0 (g2phi RD1)) as Z1. pose proof (pow2_ge_0 (g2phi RD2)) as Z2. pose proof g2s_pos as Gs.
  destruct (far_win k2 1 (g2g (g2phi RD1)) (g2g (g2phi RD2)) (g2phi RD1 ^ 2 + g2phi RD2 ^ 2) X1 (g2phi RD1 ^ 2 + g2phi RD2 ^ 2 + Y1 + Y2) k2_pos Rlt_0_1 G1 G2 ltac:(lra) HX ltac:(lra)) as (a & Ha & F).
  assert (GA : 0 < g2s * a) by (apply Rmult_lt_0_compat; auto). exists (r1 - g2s * a). split; [lra|]. set (r2 := r1 - g2s * a). intros p1 p2.
  destruct (C128_game_term_proof r1 RD1 s1 r2 RD2 s2 WIN t tol H1 H2 Ht Htol T1 T2) as (n & N). destruct (N n (le_n n)) as (q1 & q2 & E). clear N. exists n, q1, q2.
  destruct (C128_game_proof _ _ _ _ _ _ _ _ _ _ _ _ H1 H2 Ht Htol' T1 T2 E) as (x1 & v1 & x2 & v2 & V1 & V2 & _ & EV1 & _ & EV2 & B1 & B2 & _).
  pose proof E as E'. destruct (C39_proof _ _ _ _ _ _ _ _ _ _ _ _ H1 H2 Ht Htol' E) as (u1 & u2 & -> & -> & [U1 _] & [U2 _] & _). cbn [g2_volatility] in EV1, EV2. injection EV1 as ->. injection EV2 as ->.
  fold X1 Y1 in B1. fold Y2 in B2. pose proof (pow_lt v2 2 V2) as V2'. specialize (F (g2phi RD1 ^ 2 + v1 ^ 2) (g2phi RD2 ^ 2 + v2 ^ 2) ltac:(lra) ltac:(lra) ltac:(lra)). cbv zeta in F.
  destruct (g2_one r1 RD1 v1 (g2mu r2) (g2phi RD2) 1 U1) as (A1 & A2). destruct (g2_one r2 RD2 v2 (g2mu r1) (g2phi RD1) 0 U2) as (D1 & D2). cbn [points invert] in *. unfold p1, p2.
  rewrite (g2_exp_lg r1 RD1 s1 r2 RD2 s2 _ eq_refl). erewrite (g2_exp_lg (g2_new_r r1 _ _ _)); [|rewrite A2, D2; reflexivity]. do 2 eexists. split; [exact E'|]. split; [reflexivity|]. split; [reflexivity|].
  apply lg_lt. rewrite A1, D1. assert (M : g2mu r2 - g2mu r1 = - a) by (rewrite g2mu_diff; unfold r2; field; lra).
  assert (E1 : g2E (g2mu r1) (g2mu r2) (g2phi RD2) = 1 - lg (1 * g2g (g2phi RD2) * a)). { rewrite g2E_lg, <- lg_neg, M. f_equal. ring. }
  assert (E2 : g2E (g2mu r2) (g2mu r1) (g2phi RD1) = lg (1 * g2g (g2phi RD1) * a)). { rewrite g2E_lg. f_equal. replace (g2mu r1 - g2mu r2) with (- (g2mu r2 - g2mu r1)) by ring. rewrite M. ring. }
  rewrite E1, E2. set (x := lg (1 * g2g (g2phi RD2) * a)) in *. set (y := lg (1 * g2g (g2phi RD1) * a)) in *. replace (1 - (1 - x)) with x by ring. replace (g2g (g2phi RD2) ^ 2 * (1 - x) * x) with (g2g (g2phi RD2) ^ 2 * x * (1 - x)) by ring.
  rewrite M. eapply Rlt_le_trans; [exact F|]. right. f_equal. replace (g2mu r2) with (g2mu r1 - a) by lra. ring.
Qed.

(** Weng-Lin *)
Lemma wlp_lg a b c : wlp a b c = lg ((b - a) / c).
Proof. reflexivity. Qed.
Lemma wl_shrink s c p kappa : 0 < s <= c -> 0 < p <= 1 -> 0 < kappa <= 1 -> s ^ 2 - s ^ 2 * p <= (s * sqrt (Rmax (1 - (s / c) ^ 3 * p) kappa)) ^ 2 <= s ^ 2.
Proof.
  intros Hs Hp Hk. assert (X : 0 < s / c <= 1). { split; [apply Rdiv_lt_0_compat; lra|]. apply Rmult_le_reg_r with c; [lra|]. unfold Rdiv. rewrite Rmult_assoc, Rinv_l by lra. lra. }
  assert (X3 : 0 < (s / c) ^ 3 <= 1) by (split; [apply pow_lt; lra|]; rewrite <- (pow1 3); apply pow_incr; lra). pose proof (unit_prod ((s / c) ^ 3) p X3 ltac:(lra)) as U. assert (P2 : 0 < s ^ 2) by (apply pow_lt; lra).
  assert (XP : (s / c) ^ 3 * p <= 1 * p) by (apply Rmult_le_compat_r; lra). pose proof (Rmax_l (1 - (s / c) ^ 3 * p) kappa) as M1. assert (M2 : Rmax (1 - (s / c) ^ 3 * p) kappa <= 1) by (apply Rmax_lub; lra). pose proof (Rmax_r (1 - (s / c) ^ 3 * p) kappa) as M3.
  set (m := Rmax (1 - (s / c) ^ 3 * p) kappa) in *. rewrite Rpow_mult_distr, pow2_sqrt by lra. split.
  - replace (s ^ 2 - s ^ 2 * p) with (s ^ 2 * (1 - p)) by ring. apply Rmult_le_compat_l; lra.
  - rewrite <- (Rmult_1_r (s ^ 2)) at 2. apply Rmult_le_compat_l; lra.
Qed.
Lemma C131_wl_proof : forall m1 s1 m2 s2 o beta kappa, 0 < s1 -> 0 < s2 -> 0 < beta -> 0 < kappa <= 1 -> m1 <= m2 -> o = WIN \/ (o = DRAW /\ m1 < m2) ->
  let cfg := mkWLConfig (Fin beta) (Fin kappa) in let p1 := mkWL (Fin m1) (Fin s1) in let p2 := mkWL (Fin m2) (Fin s2) in
  let '(q1, q2) := weng_lin p1 p2 o cfg in
  exists e e', fst (wl_expected_score p1 p2 cfg) = Fin e /\ fst (wl_expected_score q1 q2 cfg) = Fin e' /\ e < e' /\ (o = DRAW -> e' < 1 / 2).
Proof.
  intros m1 s1 m2 s2 o beta kappa H1 H2 Hb Hk Hm Ho cfg p1 p2. unfold p1, p2, cfg. destruct (C42_proof m1 s1 m2 s2 o beta kappa H1 H2 Hk) as (n1 & t1 & n2 & t2 & -> & E1 & E2 & S1 & S2 & T1 & T2 & _).
  rewrite !wl_exp_eval by auto. do 2 eexists. split; [reflexivity|]. split; [reflexivity|]. rewrite !wlp_lg. set (c := sqrt (s1 ^ 2 + s2 ^ 2 + 2 * beta ^ 2)) in *.
  assert (P1 : 0 < s1 ^ 2) by (apply pow_lt; auto). assert (P2 : 0 < s2 ^ 2) by (apply pow_lt; auto). assert (Pb : 0 < beta ^ 2) by (apply pow_lt; auto).
  assert (C0 : 0 < c) by (apply sqrt_lt_R0; lra). assert (C2 : c ^ 2 = s1 ^ 2 + s2 ^ 2 + 2 * beta ^ 2) by (apply pow2_sqrt; lra).
  assert (K1 : s1 <= c) by (rewrite <- (sqrt_pow2 s1) by lra; apply sqrt_le_1_alt; lra). assert (K2 : s2 <= c) by (rewrite <- (sqrt_pow2 s2) by lra; apply sqrt_le_1_alt; lra).
  set (a := m2 - m1) in *. assert (Ha : 0 <= a / c) by (unfold a, Rdiv; apply Rmult_le_pos; [lra|left; apply Rinv_0_lt_compat; auto]). assert (A0 : 0 <= a) by (unfold a; lra).
  change (/ (1 + exp (a / c))) with (lg (a / c)) in *. change (/ (1 + exp ((m1 - m2) / c))) with (lg ((m1 - m2) / c)) in *.
  assert (N : lg ((m1 - m2) / c) = 1 - lg (a / c)) by (rewrite <- lg_neg; f_equal; unfold a, Rdiv; ring). rewrite N in *. assert (J : points (invert o) = 1 - points o) by (destruct o; cbn [invert points]; lra). rewrite J in *.
  assert (W : good_score (points o) (a / c)) by (apply good_points; [auto|]; destruct Ho as [->|[-> h]]; [left; auto|right; split; auto; apply Rdiv_lt_0_compat; unfold a; lra]). destruct W as [W1 W2].
  pose proof (lg_range (a / c)) as L. set (x := lg (a / c)) in *. assert (X01 : 0 < x * (1 - x) <= 1) by (split; [apply Rmult_lt_0_compat; lra|apply (unit_prod x (1 - x)); lra]).
  pose proof (wl_shrink s1 c (x * (1 - x)) kappa ltac:(lra) X01 Hk) as Q1. pose proof (wl_shrink s2 c (x * (1 - x)) kappa ltac:(lra) X01 Hk) as Q2.
  replace ((s1 / c) ^ 3 * x * (1 - x)) with ((s1 / c) ^ 3 * (x * (1 - x))) in S1 by ring. replace ((s2 / c) ^ 3 * (1 - x) * x) with ((s2 / c) ^ 3 * (x * (1 - x))) in S2 by ring. rewrite <- S1 in Q1. rewrite <- S2 in Q2.
  set (D := s1 ^ 2 / c * (points o - x) + s2 ^ 2 / c * (points o - x)). assert (HD : 0 < D) by (unfold D; apply Rplus_lt_0_compat; apply Rmult_lt_0_compat; try lra; apply Rdiv_lt_0_compat; lra).
  assert (GP : n2 - n1 = a - D) by (rewrite E1, E2; unfold D, a; ring). rewrite GP. set (A := s1 ^ 2 + s2 ^ 2 + 2 * beta ^ 2) in *. set (B := t1 ^ 2 + t2 ^ 2 + 2 * beta ^ 2).
  assert (HB : 0 < B) by (unfold B; pose proof (pow2_ge_0 t1); pose proof (pow2_ge_0 t2); lra). assert (HA : 0 < A) by (unfold A; lra).
  assert (AB : a * (A - B) <= D * A).
  { assert (AB1 : A - B <= (s1 ^ 2 + s2 ^ 2) * (x * (1 - x))) by (unfold A, B; lra). apply Rle_trans with (a * ((s1 ^ 2 + s2 ^ 2) * (x * (1 - x)))); [apply Rmult_le_compat_l; auto|].
    replace (a * ((s1 ^ 2 + s2 ^ 2) * (x * (1 - x)))) with ((s1 ^ 2 + s2 ^ 2) * c * (a / c * (x * (1 - x)))) by (field; lra). replace (D * A) with ((s1 ^ 2 + s2 ^ 2) * c * (points o - x)) by (unfold D; rewrite <- C2; field; lra).
    apply Rmult_le_compat_l; [apply Rmult_le_pos; lra|auto]. }
  split; [apply lg_lt, gap_core; auto|]. intros ->. cbn [points] in *. destruct Ho as [?|[_ Hlt]]; [congruence|]. rewrite <- lg_0. apply lg_lt. apply Rdiv_lt_0_compat; [|apply sqrt_lt_R0; auto].
  (* the gap is not turned *)
  assert (Dc : D = (s1 ^ 2 + s2 ^ 2) / c * (1 / 2 - x)) by (unfold D; field; lra). pose proof (lg_half (a / c) Ha) as X4. fold x in X4.
  assert (Sc : (s1 ^ 2 + s2 ^ 2) / c <= c). { apply Rmult_le_reg_r with c; [auto|]. unfold Rdiv. rewrite Rmult_assoc, Rinv_l by lra. replace (c * c) with (c ^ 2) by ring. rewrite C2. unfold A. lra. }
  assert (D <= c * (a / c / 2)) by (rewrite Dc; apply Rmult_le_compat; try lra; left; apply Rdiv_lt_0_compat; lra). replace (c * (a / c / 2)) with (a / 2) in H by (field; lra). unfold a in *. lra.
Qed.
Lemma C131_wl_win_proof : forall m1 s1 m2 s2 beta kappa, 0 < s1 -> 0 < s2 -> 0 < beta -> 0 < kappa <= 1 ->
  let cfg := mkWLConfig (Fin beta) (Fin kappa) in let p1 := mkWL (Fin m1) (Fin s1) in let p2 := mkWL (Fin m2) (Fin s2) in
  let '(q1, q2) := weng_lin p1 p2 WIN cfg in
  exists e e', fst (wl_expected_score p1 p2 cfg) = Fin e /\ fst (wl_expected_score q1 q2 cfg) = Fin e' /\ e < e'.
Proof.
  intros m1 s1 m2 s2 beta kappa H1 H2 Hb Hk cfg p1 p2. destruct (Rle_lt_dec m1 m2) as [h|h].
  { pose proof (C131_wl_proof m1 s1 m2 s2 WIN beta kappa H1 H2 Hb Hk h (or_introl eq_refl)) as Z. cbv zeta in Z. fold cfg p1 p2 in Z. destruct (weng_lin p1 p2 WIN cfg) as [q1 q2]. destruct Z as (e & e' & A & B & C & _). exists e, e'. auto. }
  unfold p1, p2, cfg. destruct (C42_proof m1 s1 m2 s2 WIN beta kappa H1 H2 Hk) as (n1 & t1 & n2 & t2 & -> & E1 & E2 & _ & _ & T1 & T2 & _ & _ & _ & HW & _). specialize (HW eq_refl).
  rewrite !wl_exp_eval by auto. do 2 eexists. split; [reflexivity|]. split; [reflexivity|]. rewrite !wlp_lg. apply lg_lt.
  assert (Pb : 0 < beta ^ 2) by (apply pow_lt; auto). assert (U1 : t1 ^ 2 <= s1 ^ 2) by (apply pow_incr; lra). assert (U2 : t2 ^ 2 <= s2 ^ 2) by (apply pow_incr; lra). pose proof (pow2_ge_0 t1). pose proof (pow2_ge_0 t2).
  assert (S0 : 0 < sqrt (t1 ^ 2 + t2 ^ 2 + 2 * beta ^ 2)) by (apply sqrt_lt_R0; lra). assert (S1 : sqrt (t1 ^ 2 + t2 ^ 2 + 2 * beta ^ 2) <= sqrt (s1 ^ 2 + s2 ^ 2 + 2 * beta ^ 2)) by (apply sqrt_le_1_alt; lra).
  apply Rlt_le_trans with ((m2 - m1) / sqrt (t1 ^ 2 + t2 ^ 2 + 2 * beta ^ 2)); unfold Rdiv.
  - apply Rmult_lt_compat_r; [apply Rinv_0_lt_compat; auto|]. lra.
  - apply Rmult_le_compat_neg_l; [lra|]. apply Rinv_le_contravar; auto.
Qed.
