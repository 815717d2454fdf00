(** Proofs of C95, Sticko. *)
From Coq Require Import ZArith NArith List Bool Reals Lra Lia.
From Coquelicot Require Import Coquelicot.
From Verif Require Import Arith XR Tac ModelLib ModelGlicko ModelSticko ModelBoost Spec ProofGlicko ProofSticko ProofBoost MathIval ProofOrder ProofBoost2 ProofOrder2 ProofElo ProofMaxMove ProofRematch.
Import Spec ListNotations.
Local Open Scope R_scope.

Lemma order_poly10 E : 0 <= E <= 1 -> 0 < 5446 / 100000 + 1968 / 10000 * (E * (1 - E)) - 1 / 10 * (E * (1 - E)) * (E * (1 - E)) - E * (1 - E) * (1 - E) * (1 - 2 * E).
Proof. intros H. ival_pos E 12%nat 0%Z 1%Z 1%Z 1%Z. lra. Qed.
Lemma order_slope10 rho E s : 246 / 1000 <= rho -> 0 < E < 1 -> 0 <= s <= 1 -> 0 < rho * (rho + E * (1 - E)) - E * (1 - E) * (s - E) * (1 - 2 * E) - (rho + E * (1 - E)) ^ 2 / 10.
Proof.
  intros Hr HE Hs. pose proof (order_poly10 E ltac:(lra)) as P1. pose proof (order_poly10 (1 - E) ltac:(lra)) as P2. assert (X : 0 < E * (1 - E)) by (apply Rmult_lt_0_compat; lra).
  replace ((1 - E) * (1 - (1 - E))) with (E * (1 - E)) in P2 by ring. set (x := E * (1 - E)) in *.
  assert (L : 5446 / 100000 + 1968 / 10000 * x - 1 / 10 * x * x <= rho * (rho + x) - (rho + x) ^ 2 / 10) by nra. set (y := rho * (rho + x) - (rho + x) ^ 2 / 10) in *.
  assert (A1 : 0 < y - x * (1 - E) * (1 - 2 * E)) by lra. assert (A0 : 0 < y - x * (0 - E) * (1 - 2 * E)). { replace (x * (0 - E) * (1 - 2 * E)) with (x * (1 - (1 - E)) * (1 - 2 * (1 - E))) by ring. lra. }
  replace (rho * (rho + x) - x * (s - E) * (1 - 2 * E) - (rho + x) ^ 2 / 10) with (s * (y - x * (1 - E) * (1 - 2 * E)) + (1 - s) * (y - x * (0 - E) * (1 - 2 * E))) by (unfold y; ring).
  destruct (Rle_dec s (1 / 2)); nra.
Qed.
Lemma glicko_r_slope r r' RD rj RDj s : 0 < RD <= 350 -> 0 <= s <= 1 -> r' < r -> glicko_r r' RD [(rj, RDj, s)] - r' / 10 < glicko_r r RD [(rj, RDj, s)] - r / 10.
Proof.
  intros HR Hs H. pose proof (gg_range RDj) as G. pose proof gq_close as Q. set (k := gq * gg RDj). assert (K : 0 < k) by (unfold k; apply Rmult_lt_0_compat; lra).
  set (a := / RD ^ 2). assert (A : 0 < a) by (apply Rinv_0_lt_compat, pow_lt; lra).
  set (F := fun r => r + k * (s - sg ((r - rj) * k)) / (a + k ^ 2 * (sg ((r - rj) * k) * (1 - sg ((r - rj) * k))))).
  assert (FE : forall r, glicko_r r RD [(rj, RDj, s)] = F r).
  { intros z. unfold glicko_r, F. rewrite gM_single, gd2inv_single, !gE_sg. fold k a. set (E := sg ((z - rj) * k)). pose proof (sg_range ((z - rj) * k)) as E0. fold E in E0.
    assert (0 < k ^ 2 * (E * (1 - E))) by (apply Rmult_lt_0_compat; [apply pow_lt; auto|apply Rmult_lt_0_compat; lra]).
    replace (gq ^ 2 * (gg RDj ^ 2 * E * (1 - E))) with (k ^ 2 * (E * (1 - E))) by (unfold k; ring). unfold k at 2. field. lra. }
  rewrite !FE. set (dF := fun r => let E := sg ((r - rj) * k) in let x := E * (1 - E) in 9 / 10 - k ^ 2 * x * (a + k ^ 2 * x + (s - E) * k ^ 2 * (1 - 2 * E)) / (a + k ^ 2 * x) ^ 2).
  apply (mvt_pos (fun r => F r - r / 10) dF r' r H).
  - intros c _. unfold F, dF. cbv zeta. pose proof (sg_range ((c - rj) * k)) as E0.
    assert (D : is_derive (fun r => sg ((r - rj) * k)) c (k * (sg ((c - rj) * k) * (1 - sg ((c - rj) * k))))).
    { apply (is_derive_comp sg (fun r => (r - rj) * k)); [apply sg_deriv|]. auto_derive; [auto|ring]. }
    set (f := fun r => sg ((r - rj) * k)) in *. change (sg ((c - rj) * k)) with (f c) in *. 
    assert (X : 0 < k ^ 2 * (f c * (1 - f c))) by (apply Rmult_lt_0_compat; [apply pow_lt; auto|apply Rmult_lt_0_compat; lra]).
    assert (U : Derive f c = k * (f c * (1 - f c))) by (apply is_derive_unique; exact D).
    apply (is_derive_ext (fun r => r + k * (s - f r) / (a + k ^ 2 * (f r * (1 - f r))) - r / 10)); [reflexivity|].
    auto_derive; [repeat split; auto; try lra; eexists; exact D|]. change (fun x : R => f x) with f. rewrite U. field. lra.
  - intros c _. unfold dF. cbv zeta. pose proof (sg_range ((c - rj) * k)) as E0. set (E := sg ((c - rj) * k)) in *. assert (K2 : 0 < k ^ 2) by (apply pow_lt; auto).
    assert (X : 0 < E * (1 - E)) by (apply Rmult_lt_0_compat; lra).
    assert (R1 : 246 / 1000 <= a / k ^ 2).
    { apply Rmult_le_reg_r with (k ^ 2); auto. unfold Rdiv at 2. rewrite Rmult_assoc, Rinv_l, Rmult_1_r by lra. unfold a.
      assert (/ 350 ^ 2 <= / RD ^ 2) by (apply Rinv_le_contravar; [apply pow_lt; lra|apply pow_incr; lra]). assert (k ^ 2 <= 0.0000331490) by (unfold k; assert (0 < gq * gg RDj <= 0.00575751) by (split; nra); nra). lra. }
    pose proof (order_slope10 (a / k ^ 2) E s R1 E0 Hs) as S. set (rho := a / k ^ 2) in *. assert (AR : a = k ^ 2 * rho) by (unfold rho; field; lra). rewrite AR.
    replace (9 / 10 - _) with ((rho * (rho + E * (1 - E)) - E * (1 - E) * (s - E) * (1 - 2 * E) - (rho + E * (1 - E)) ^ 2 / 10) / (rho + E * (1 - E)) ^ 2) by (field; split; nra).
    apply Rdiv_lt_0_compat; auto. apply pow_lt. nra.
Qed.
Lemma sticko_r_one r RD gamma lambda rj RDj o w : sticko_r r RD 0 gamma lambda [(rj, RDj, o, w)] = glicko_r r RD [(rj - (if w then gamma else - gamma), RDj, points o)] + lambda / 100 * (rj - r).
Proof. unfold sticko_r, mean. cbn [map st_game length INR]. rewrite Rsum_cons, Rsum_nil, Rplus_0_r, Rplus_0_r. f_equal. field. Qed.
Lemma C95_sticko_proof : forall r r' RD r2 RD2 o h lambda gamma c, 0 < RD -> 0 < RD2 -> 0 <= h -> 0 <= lambda <= 10 -> r' < r -> exists a b,
  let cfg := mkStickoConfig (Fin h) (Fin 0) (Fin lambda) (Fin gamma) (Fin c) in
  st_rating (fst (sticko (mkSticko (Fin r') (Fin RD)) (mkSticko (Fin r2) (Fin RD2)) o cfg)) = Fin a /\
  st_rating (fst (sticko (mkSticko (Fin r) (Fin RD)) (mkSticko (Fin r2) (Fin RD2)) o cfg)) = Fin b /\ a < b.
Proof.
  intros r r' RD r2 RD2 o h lambda gamma c H1 H2 Hh HL H. cbv zeta. rewrite !C33_game_proof by auto. cbn [fst st_rating]. do 2 eexists. split; [reflexivity|split; [reflexivity|]]. rewrite !sticko_r_one.
  pose proof (glicko_r_slope r r' (gpre RD c) (r2 - gamma) RD2 (points o) ltac:(apply gpre_range; left; lra) (points_range o) H) as S. nra.
Qed.
(** With lambda above 100 the pull towards the opponent reverses the order of players far apart. *)
Lemma C95_sticko_refuted_proof : forall RD r2 RD2 o h lambda gamma c, 0 < RD -> 0 < RD2 -> 0 <= h -> 100 < lambda -> exists r r' a b,
  let cfg := mkStickoConfig (Fin h) (Fin 0) (Fin lambda) (Fin gamma) (Fin c) in r' < r /\
  st_rating (fst (sticko (mkSticko (Fin r') (Fin RD)) (mkSticko (Fin r2) (Fin RD2)) o cfg)) = Fin a /\
  st_rating (fst (sticko (mkSticko (Fin r) (Fin RD)) (mkSticko (Fin r2) (Fin RD2)) o cfg)) = Fin b /\ b < a.
Proof.
  intros RD r2 RD2 o h lambda gamma c H1 H2 Hh HL. pose proof (gpre_pos RD c H1) as HP. set (P := gpre RD c) in *. set (K := gq * P ^ 2). assert (HK : 0 < K) by (apply Rmult_lt_0_compat; [apply gq_pos|now apply pow_lt]).
  set (d := 2 * K / (lambda / 100 - 1)). assert (L : 0 < lambda / 100 - 1) by lra. assert (HD : 0 < d) by (apply Rdiv_lt_0_compat; lra). assert (ED : d * (lambda / 100 - 1) = 2 * K) by (unfold d; field; lra).
  exists d, 0. do 2 eexists. cbv zeta. rewrite !C33_game_proof by auto. cbn [fst st_rating]. split; [exact HD|]. split; [reflexivity|split; [reflexivity|]]. fold P. rewrite !sticko_r_one.
  assert (B : forall z, Rabs (glicko_r z P [(r2 - gamma, RD2, points o)] - z) < K). { intros z. pose proof (glicko_r_bound z P [(r2 - gamma, RD2, points o)] 0 HP (Rle_refl 0) ltac:(discriminate)) as G. specialize (G ltac:(constructor; [pose proof (points_range o); lra|constructor])). cbn [length INR] in G. fold K in G. lra. }
  pose proof (B d) as B1. pose proof (B 0) as B2. apply Rabs_def2 in B1. apply Rabs_def2 in B2. lra.
Qed.
(** ** Glicko-Boost: the boost is a jump *)
Lemma glicko_rd_le r D g r' D' g' : 0 < D <= D' -> 0 <= gd2inv r' g' <= gd2inv r g -> glicko_rd r D g <= glicko_rd r' D' g'.
Proof.
  intros HD HG. unfold glicko_rd. apply sqrt_le_1_alt. assert (P : 0 < D ^ 2) by (apply pow_lt; lra). assert (P' : D ^ 2 <= D' ^ 2) by (apply pow_incr; lra). assert (I : / D' ^ 2 <= / D ^ 2) by (now apply Rinv_le_contravar). assert (0 < / D' ^ 2) by (apply Rinv_0_lt_compat; lra). apply Rinv_le_contravar; lra.
Qed.
Lemma boost_Z_one r rj RDj : let E := gE r rj RDj in 0 < boost_Z r [(rj, RDj, 1)] /\ boost_Z r [(rj, RDj, 1)] ^ 2 = (1 - E) / E.
Proof.
  intros E. pose proof (gE_range r rj RDj) as HE. fold E in HE. pose proof (gg_range RDj) as [G _]. pose proof gq_pos as Q. unfold boost_Z. rewrite gd2inv_single, gM_single. fold E.
  assert (X : gq ^ 2 * (gg RDj ^ 2 * E * (1 - E)) / gq ^ 2 = gg RDj ^ 2 * E * (1 - E)) by (field; lra). rewrite X. assert (P : 0 < gg RDj ^ 2 * E * (1 - E)) by (pose proof (pow_lt _ 2 G); do 2 (apply Rmult_lt_0_compat; [|lra]); lra). pose proof (sqrt_lt_R0 _ P) as S.
  split; [apply Rdiv_lt_0_compat; [apply Rmult_lt_0_compat; lra|auto]|]. unfold Rdiv. rewrite Rpow_mult_distr, pow_inv, pow2_sqrt by lra. field. repeat split; lra.
Qed.
Lemma C95_boost_refuted_proof : forall RD r2 RD2 c, 0 < RD <= 350 -> 0 < RD2 -> 1 <= bc_k c -> 0 <= bc_b0 c -> 0 <= bc_b1 c -> RD < / sqrt (/ RD ^ 2 + gq ^ 2 / 4) + bc_b1 c -> exists r r' a b,
  let cfg := mkBoostConfig (Fin (bc_eta c)) (Fin (bc_k c)) (Fin (bc_b0 c)) (Fin (bc_b1 c)) (Fin (bc_a0 c)) (Fin (bc_a1 c)) (Fin (bc_a2 c)) (Fin (bc_a3 c)) (Fin (bc_a4 c)) in r' < r /\
  gb_rating (fst (glicko_boost (mkBoost (Fin r') (Fin RD)) (mkBoost (Fin r2) (Fin RD2)) WIN cfg)) = Fin a /\
  gb_rating (fst (glicko_boost (mkBoost (Fin r) (Fin RD)) (mkBoost (Fin r2) (Fin RD2)) WIN cfg)) = Fin b /\ b < a.
Proof.
  intros RD r2 RD2 c HR H2 Hk H0 H1 HC. set (rj := r2 - bc_eta c). set (g := [(rj, RD2, 1)]). pose proof (gg_range RD2) as G. pose proof gq_pos as Q. set (K := gq * gg RD2). assert (HK : 0 < K) by (apply Rmult_lt_0_compat; lra). set (k := bc_k c) in *.
  set (rt := rj - 2 * ln k / K). set (E := gE rt rj RD2). assert (EE : E = / (1 + k ^ 2)). { unfold E. rewrite gE_lg. unfold lg. fold K. replace (K * (rj - rt)) with (ln k + ln k) by (unfold rt; field; lra). rewrite exp_plus, exp_ln by lra. unfold Rdiv. rewrite ?Rmult_1_l. f_equal. ring. }
  assert (K2 : 1 <= k ^ 2) by nra. pose proof (gE_range rt rj RD2) as RE. fold E in RE. assert (EH : E <= 1 / 2) by (rewrite EE; replace (1 / 2) with (/ 2) by field; apply Rinv_le_contravar; lra).
  assert (ZT : boost_Z rt g = k). { destruct (boost_Z_one rt rj RD2) as [Z0 Z2]. fold g in Z0, Z2. fold E in Z2. assert (X : (1 - E) / E = k ^ 2) by (rewrite EE; field; lra). rewrite X in Z2. nra. }
  set (rd := glicko_rd rt RD g). set (D0 := rd + bc_b1 c). assert (GD : gd2inv rt g <= gq ^ 2 / 4). { unfold g. rewrite gd2inv_single. fold E. pose proof (pow_lt _ 2 Q). assert (gg RD2 ^ 2 <= 1) by nra. assert (0 < E * (1 - E) <= 1 / 4) by nra. assert (gg RD2 ^ 2 * (E * (1 - E)) <= 1 / 4) by nra. nra. }
  assert (GP : 0 < gd2inv rt g) by (apply gd2inv_pos; discriminate). assert (IR : 0 < / RD ^ 2) by (apply Rinv_0_lt_compat, pow_lt; lra).
  assert (RL : / sqrt (/ RD ^ 2 + gq ^ 2 / 4) <= rd). { unfold rd, glicko_rd. rewrite sqrt_inv. apply Rinv_le_contravar; [apply sqrt_lt_R0; lra|apply sqrt_le_1_alt; lra]. }
  assert (DR : RD < D0) by (unfold D0; lra). assert (rd0 : 0 < rd) by (unfold rd, glicko_rd; apply sqrt_lt_R0, Rinv_0_lt_compat; lra).
  assert (RR : rd < RD). { unfold rd, glicko_rd. apply Rlt_le_trans with (sqrt (RD ^ 2)); [|rewrite sqrt_pow2; lra]. apply sqrt_lt_1_alt. split; [left; apply Rinv_0_lt_compat; lra|]. apply Rlt_le_trans with (/ (/ RD ^ 2)); [apply Rinv_lt_contravar; [apply Rmult_lt_0_compat; lra|lra]|rewrite Rinv_inv; lra]. }
  set (rd1 := Rmin (glicko_rd rt D0 g) 350). assert (R1 : rd < rd1). { unfold rd1. apply Rmin_glb_lt; [|lra]. unfold rd, glicko_rd. assert (ID : / D0 ^ 2 < / RD ^ 2) by (apply Rinv_lt_contravar; [apply Rmult_lt_0_compat; apply pow_lt; lra|]; nra). assert (0 < / D0 ^ 2) by (apply Rinv_0_lt_compat, pow_lt; lra). apply sqrt_lt_1_alt. split; [left; apply Rinv_0_lt_compat; lra|]. apply Rinv_lt_contravar; [apply Rmult_lt_0_compat; lra|lra]. }
  set (J := K * (1 - E) * (rd1 ^ 2 - rd ^ 2)). assert (HJ : 0 < J) by (unfold J; apply Rmult_lt_0_compat; [apply Rmult_lt_0_compat; lra|nra]). set (r' := rt - J / 2). assert (Lr : r' < rt) by (unfold r'; lra).
  exists rt, r'. do 2 eexists. cbv zeta. rewrite !C35_game_proof by (auto; lra). cbn [fst gb_rating]. split; [exact Lr|]. split; [reflexivity|split; [reflexivity|]]. cbn [points]. fold rj. fold g.
  set (E' := gE r' rj RD2). assert (LE : 0 < E' < E). { split; [apply gE_range|]. apply gE_lt; exact Lr. }
  assert (ZR : k < boost_Z r' g). { destruct (boost_Z_one r' rj RD2) as [Z0 Z2]. fold g in Z0, Z2. fold E' in Z2. assert (X : (1 - E) / E = k ^ 2) by (rewrite EE; field; lra). assert (Y : (1 - E) / E < (1 - E') / E'). { apply Rmult_lt_reg_r with (E * E'); [apply Rmult_lt_0_compat; lra|]. replace ((1 - E) / E * (E * E')) with ((1 - E) * E') by (field; lra). replace ((1 - E') / E' * (E * E')) with ((1 - E') * E) by (field; lra). nra. } rewrite X, <- Z2 in Y. nra. }
  assert (GG : 0 <= gd2inv r' g <= gd2inv rt g). { split; [left; apply gd2inv_pos; discriminate|]. unfold g. rewrite !gd2inv_single. fold E E'. pose proof (pow_lt _ 2 Q). pose proof (pow_lt _ 2 (proj1 G)). assert (E' * (1 - E') <= E * (1 - E)) by nra. apply Rmult_le_compat_l; [lra|]. rewrite !Rmult_assoc. apply Rmult_le_compat_l; lra. }
  assert (BT : boost_rd c rt RD g = rd). { unfold boost_rd. rewrite ZT. fold k. destruct (Rlt_dec k k); [lra|]. fold rd. apply Rmin_left. lra. }
  assert (BR : rd1 <= boost_rd c r' RD g). { unfold boost_rd. fold k. destruct (Rlt_dec k (boost_Z r' g)); [|contradiction]. destruct (Req_EM_T k 0); [lra|]. unfold rd1. apply Rle_min_compat_r. apply glicko_rd_le; [|exact GG]. split; [lra|].
    pose proof (glicko_rd_le rt RD g r' RD g ltac:(lra) GG) as M. fold rd in M. set (m := glicko_rd r' RD g) in *. assert (0 <= (boost_Z r' g - k) * bc_b0 c) by (apply Rmult_le_pos; lra). unfold D0. nra. }
  unfold boost_r. rewrite BT. unfold g at 1 3. rewrite !gM_single. fold E E'. set (b := boost_rd c r' RD g) in *. assert (B2 : rd1 ^ 2 <= b ^ 2) by (apply pow_incr; lra).
  assert (X : gq * rd ^ 2 * (gg RD2 * (1 - E)) = K * (1 - E) * rd ^ 2) by (unfold K; ring). assert (Y : gq * b ^ 2 * (gg RD2 * (1 - E')) = K * (1 - E') * b ^ 2) by (unfold K; ring). rewrite X, Y.
  assert (W : K * (1 - E) * rd1 ^ 2 <= K * (1 - E') * b ^ 2). { apply Rmult_le_compat; [apply Rmult_le_pos; lra|apply pow2_ge_0|apply Rmult_le_compat_l; lra|exact B2]. } unfold r'. unfold J in *. lra.
Qed.
(** Without a boost Glicko-Boost is Glicko. *)
Lemma boost_r_plain c r RD g : 0 < RD <= 350 -> g <> [] -> bc_k c = 0 \/ boost_Z r g <= bc_k c -> boost_r c r RD g = glicko_r r RD g.
Proof.
  intros HR Hg H. assert (P : 0 < gd2inv r g) by (now apply gd2inv_pos). assert (IR : 0 < / RD ^ 2) by (apply Rinv_0_lt_compat, pow_lt; lra).
  assert (L : glicko_rd r RD g <= 350). { unfold glicko_rd. apply Rle_trans with (sqrt (RD ^ 2)); [|rewrite sqrt_pow2; lra]. apply sqrt_le_1_alt. apply Rle_trans with (/ (/ RD ^ 2)); [apply Rinv_le_contravar; lra|rewrite Rinv_inv; lra]. }
  assert (B : boost_rd c r RD g = glicko_rd r RD g). { unfold boost_rd. destruct (Rlt_dec (bc_k c) (boost_Z r g)) as [A|A]; [destruct (Req_EM_T (bc_k c) 0); [|lra]|]; now apply Rmin_left. }
  unfold boost_r, glicko_r. rewrite B. unfold glicko_rd. rewrite pow2_sqrt by (left; apply Rinv_0_lt_compat; lra). unfold Rdiv. ring.
Qed.
Lemma boost_Z_low r rj RDj s k : 0 <= k -> s <= gE r rj RDj -> boost_Z r [(rj, RDj, s)] <= k.
Proof.
  intros Hk H. apply Rle_trans with 0; auto. pose proof (gE_range r rj RDj) as HE. pose proof (gg_range RDj) as [G _]. pose proof gq_pos as Q. unfold boost_Z. rewrite gM_single. assert (P : 0 < gd2inv r [(rj, RDj, s)]) by (apply gd2inv_pos; discriminate).
  assert (S : 0 < sqrt (gd2inv r [(rj, RDj, s)] / gq ^ 2)) by (apply sqrt_lt_R0, Rdiv_lt_0_compat; [auto|apply pow_lt; auto]). assert (I := Rinv_0_lt_compat _ S). unfold Rdiv. assert (gg RDj * (s - gE r rj RDj) <= 0) by nra. unfold Rdiv in I. nra.
Qed.
(** A result expected with probability 1/(1 + k^2) or more is no reason for a boost. *)
Lemma boost_Z_high r rj RDj s k : 0 <= k -> s <= 1 -> / (1 + k ^ 2) <= gE r rj RDj -> boost_Z r [(rj, RDj, s)] <= k.
Proof.
  intros Hk Hs H. apply Rle_trans with (boost_Z r [(rj, RDj, 1)]).
  - unfold boost_Z. rewrite !gM_single, !gd2inv_single. pose proof (gE_range r rj RDj) as HE. pose proof (gg_range RDj) as [G _]. pose proof gq_pos as Q. set (E := gE r rj RDj) in *. assert (P : 0 < gq ^ 2 * (gg RDj ^ 2 * E * (1 - E)) / gq ^ 2).
    { apply Rdiv_lt_0_compat; [|apply pow_lt; auto]. pose proof (pow_lt _ 2 G). pose proof (pow_lt _ 2 Q). apply Rmult_lt_0_compat; [auto|]. apply Rmult_lt_0_compat; [apply Rmult_lt_0_compat|]; lra. }
    apply Rmult_le_compat_r; [left; apply Rinv_0_lt_compat, sqrt_lt_R0; auto|]. apply Rmult_le_compat_l; lra.
  - destruct (boost_Z_one r rj RDj) as [Z0 Z2]. pose proof (gE_range r rj RDj) as HE. set (E := gE r rj RDj) in *. assert (X : (1 - E) / E <= k ^ 2).
    { apply Rmult_le_reg_r with E; [lra|]. replace ((1 - E) / E * E) with (1 - E) by (field; lra). assert (K1 : 0 < 1 + k ^ 2) by (pose proof (pow2_ge_0 k); lra). assert (1 <= E * (1 + k ^ 2)) by (apply Rmult_le_reg_r with (/ (1 + k ^ 2)); [now apply Rinv_0_lt_compat|rewrite Rmult_assoc, Rinv_r by lra; lra]). lra. }
    rewrite <- Z2 in X. nra.
Qed.
Lemma C95_boost_proof : forall r r' RD r2 RD2 o c, 0 < RD <= 350 -> 0 < RD2 -> 0 <= bc_k c -> 0 <= bc_b0 c -> 0 <= bc_b1 c -> r' < r ->
  bc_k c = 0 \/ points o <= gE r' (r2 - bc_eta c) RD2 \/ / (1 + bc_k c ^ 2) <= gE r' (r2 - bc_eta c) RD2 -> exists a b,
  let cfg := mkBoostConfig (Fin (bc_eta c)) (Fin (bc_k c)) (Fin (bc_b0 c)) (Fin (bc_b1 c)) (Fin (bc_a0 c)) (Fin (bc_a1 c)) (Fin (bc_a2 c)) (Fin (bc_a3 c)) (Fin (bc_a4 c)) in
  gb_rating (fst (glicko_boost (mkBoost (Fin r') (Fin RD)) (mkBoost (Fin r2) (Fin RD2)) o cfg)) = Fin a /\
  gb_rating (fst (glicko_boost (mkBoost (Fin r) (Fin RD)) (mkBoost (Fin r2) (Fin RD2)) o cfg)) = Fin b /\ a < b.
Proof.
  intros r r' RD r2 RD2 o c HR H2 Hk H0 H1 Lr H. set (rj := r2 - bc_eta c) in *. do 2 eexists. cbv zeta. rewrite !C35_game_proof by (auto; lra). cbn [fst gb_rating]. split; [reflexivity|split; [reflexivity|]]. fold rj.
  assert (Z : forall x, r' <= x -> bc_k c = 0 \/ boost_Z x [(rj, RD2, points o)] <= bc_k c).
  { intros x Hx. assert (M : gE r' rj RD2 <= gE x rj RD2) by (destruct Hx as [Hx| <-]; [left; now apply gE_lt|lra]). destruct H as [H|[H|H]]; [now left|right; apply boost_Z_low; lra|right; apply boost_Z_high; [auto|apply points_range|lra]]. }
  rewrite !boost_r_plain by (auto; try discriminate; apply Z; lra). pose proof (glicko_r_slope r r' RD rj RD2 (points o) HR (points_range o) Lr). nra.
Qed.
