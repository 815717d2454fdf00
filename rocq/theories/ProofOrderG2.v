(** Proofs of C95 for Glicko-2. *)
From Coq Require Import ZArith NArith List Bool Reals Lra Lia.
From Coquelicot Require Import Coquelicot.
From Verif Require Import Arith XR Tac ModelLib ModelGlicko2 Spec ProofGlicko2 ProofG2Vol MathIval ProofOrder2 ProofRematch.
Import Spec ListNotations.
Local Open Scope R_scope.

Lemma g2E_sg mu mu2 phi2 : g2E mu mu2 phi2 = sg ((mu - mu2) * g2g phi2).
Proof. unfold g2E, sg. do 3 f_equal. ring. Qed.
Lemma order_poly2 E : 0 <= E <= 1 -> 0 < (246 / 1000 + E * (1 - E)) * (4674 / 1000 - E * (1 - E)) / 20 - E * (1 - E) * (1 - E) * (1 - 2 * E).
Proof. intros H. ival_pos E 12%nat 0%Z 1%Z 1%Z 1%Z. lra. Qed.
Lemma order_slope2 rho E s : 246 / 1000 <= rho -> 0 < E < 1 -> 0 <= s <= 1 -> (rho + E * (1 - E)) ^ 2 / 20 < rho * (rho + E * (1 - E)) - E * (1 - E) * (s - E) * (1 - 2 * E).
Proof.
  intros Hr HE Hs. pose proof (order_poly2 E ltac:(lra)) as P1. pose proof (order_poly2 (1 - E) ltac:(lra)) as P2. replace ((1 - E) * (1 - (1 - E))) with (E * (1 - E)) in P2 by ring. assert (X : 0 < E * (1 - E)) by (apply Rmult_lt_0_compat; lra).
  set (x := E * (1 - E)) in *. set (y := rho * (rho + x) - (rho + x) ^ 2 / 20).
  assert (L : (246 / 1000 + x) * (4674 / 1000 - x) / 20 <= y). { replace y with ((rho + x) * (19 * rho - x) / 20) by (unfold y; field). assert (X4 : x <= 1 / 4) by (unfold x; pose proof (pow2_ge_0 (E - 1 / 2)); nra). assert (0 <= (rho - 246 / 1000) * (19 * rho - x)) by (apply Rmult_le_pos; lra). assert (0 <= (246 / 1000 + x) * (19 * (rho - 246 / 1000))) by (apply Rmult_le_pos; lra). lra. }
  assert (A1 : 0 < y - x * (1 - E) * (1 - 2 * E)) by lra. assert (A0 : 0 < y - x * (0 - E) * (1 - 2 * E)) by lra.
  assert (0 < y - x * (s - E) * (1 - 2 * E)); [|unfold y in *; lra].
  replace (y - x * (s - E) * (1 - 2 * E)) with (s * (y - x * (1 - E) * (1 - 2 * E)) + (1 - s) * (y - x * (0 - E) * (1 - 2 * E))) by ring.
  destruct (Rle_dec s (1 / 2)); nra.
Qed.
(** The update with a given pre-game variance P: slope at least 1/20. *)
Lemma g2_slope P g mu2 s x y : 0 < P <= 4.065 -> 0 < g <= 1 -> 0 <= s <= 1 -> x < y ->
  let F := fun mu => mu + g * (s - sg ((mu - mu2) * g)) / (/ P + g ^ 2 * (sg ((mu - mu2) * g) * (1 - sg ((mu - mu2) * g)))) in (y - x) / 20 < F y - F x.
Proof.
  intros HP Hg Hs H F. set (a := / P). assert (A : 0 < a) by (apply Rinv_0_lt_compat; lra). set (G := fun mu => F mu - mu / 20). assert (HG : G x < G y); [|unfold G in HG; lra].
  set (dG := fun r => let E := sg ((r - mu2) * g) in let x := E * (1 - E) in 1 - g ^ 2 * x * (a + g ^ 2 * x + (s - E) * g ^ 2 * (1 - 2 * E)) / (a + g ^ 2 * x) ^ 2 - / 20).
  apply (mvt_pos G dG x y H).
  - intros c _. unfold G, F, dG. fold a. cbv zeta. pose proof (sg_range ((c - mu2) * g)) as E0.
    assert (D : is_derive (fun r => sg ((r - mu2) * g)) c (g * (sg ((c - mu2) * g) * (1 - sg ((c - mu2) * g))))).
    { apply (is_derive_comp sg (fun r => (r - mu2) * g)); [apply sg_deriv|]. auto_derive; [auto|ring]. }
    set (f := fun r => sg ((r - mu2) * g)) in *. change (sg ((c - mu2) * g)) with (f c) in *.
    assert (X : 0 < g ^ 2 * (f c * (1 - f c))) by (apply Rmult_lt_0_compat; [apply pow_lt; lra|apply Rmult_lt_0_compat; lra]).
    assert (U : Derive f c = g * (f c * (1 - f c))) by (apply is_derive_unique; exact D).
    apply (is_derive_ext (fun r => r + g * (s - f r) / (a + g ^ 2 * (f r * (1 - f r))) - r / 20)); [reflexivity|].
    auto_derive; [repeat split; auto; try lra; eexists; exact D|]. change (fun x : R => f x) with f. rewrite U. field. lra.
  - intros c _. unfold dG. cbv zeta. pose proof (sg_range ((c - mu2) * g)) as E0. set (E := sg ((c - mu2) * g)) in *. assert (K2 : 0 < g ^ 2) by (apply pow_lt; lra). assert (K3 : g ^ 2 <= 1) by (replace 1 with (1 ^ 2) by ring; apply pow_incr; lra).
    assert (X : 0 < E * (1 - E)) by (apply Rmult_lt_0_compat; lra).
    assert (R1 : 246 / 1000 <= a / g ^ 2).
    { apply Rmult_le_reg_r with (g ^ 2); auto. unfold Rdiv at 2. rewrite Rmult_assoc, Rinv_l, Rmult_1_r by lra. unfold a. assert (/ 4.065 <= / P) by (apply Rinv_le_contravar; lra). lra. }
    pose proof (order_slope2 (a / g ^ 2) E s R1 E0 Hs) as S. set (rho := a / g ^ 2) in *. assert (AR : a = g ^ 2 * rho) by (unfold rho; field; lra). rewrite AR. set (z := E * (1 - E)) in *.
    replace (1 - _ - _) with ((rho * (rho + z) - z * (s - E) * (1 - 2 * E) - (rho + z) ^ 2 / 20) / (rho + z) ^ 2) by (field; split; nra).
    apply Rdiv_lt_0_compat; [lra|apply pow_lt; lra].
Qed.
Lemma inv_diff P Q Y : 0 < P -> 0 < Q -> 0 <= Y -> Rabs (/ (/ P + Y) - / (/ Q + Y)) <= Rabs (P - Q).
Proof.
  intros HP HQ HY. assert (I1 := Rinv_0_lt_compat P HP). assert (I2 := Rinv_0_lt_compat Q HQ).
  assert (0 <= P * Y) by (apply Rmult_le_pos; lra). assert (0 <= Q * Y) by (apply Rmult_le_pos; lra).
  assert (J : 1 <= (1 + P * Y) * (1 + Q * Y)) by nra. replace (/ (/ P + Y) - / (/ Q + Y)) with ((P - Q) * / ((1 + P * Y) * (1 + Q * Y))) by (field; repeat split; nra).
  rewrite Rabs_mult, (Rabs_pos_eq (/ _)) by (left; apply Rinv_0_lt_compat; lra). pose proof (Rabs_pos (P - Q)). assert (/ ((1 + P * Y) * (1 + Q * Y)) <= 1) by (rewrite <- Rinv_1; apply Rinv_le_contravar; lra). nra.
Qed.
Lemma C95_glicko2_proof : forall fuel r r' RD s r2 RD2 s2 o t tol p q p' q', 0 < RD -> 0 < s -> 0 < s2 -> 0 < t -> 0 <= tol ->
  t ^ 2 * s ^ 2 <= 1 / 10 -> t ^ 2 * s2 ^ 2 <= 1 / 10 ->
  let up := s ^ 2 * exp (3 / 2 * t ^ 2 * s ^ 2 + tol) in let down := s ^ 2 * exp (- (t ^ 2 * s ^ 2 / 8 + tol)) in
  (RD / (1737178 / 10000)) ^ 2 + up <= 4.065 ->
  20 * (1737178 / 10000) * (up - down) <= r - r' ->
  glicko2 fuel (mkGlicko2 (Fin r) (Fin RD) (Fin s)) (mkGlicko2 (Fin r2) (Fin RD2) (Fin s2)) o (mkGlicko2Config (Fin t) (Fin tol)) = Some (p, q) ->
  glicko2 fuel (mkGlicko2 (Fin r') (Fin RD) (Fin s)) (mkGlicko2 (Fin r2) (Fin RD2) (Fin s2)) o (mkGlicko2Config (Fin t) (Fin tol)) = Some (p', q') ->
  exists n n', g2_rating p = Fin n /\ g2_rating p' = Fin n' /\ n' < n.
Proof.
  intros fuel r r' RD s r2 RD2 s2 o t tol p q p' q' HR H1 H2 Ht Htol T1 T2 up down HB HD E E'. fold g2s in HB, HD. change (RD / g2s) with (g2phi RD) in HB.
  destruct (C39_proof _ _ _ _ _ _ _ _ _ _ _ _ H1 H2 Ht Htol E) as (u & _ & Ep & _ & [U _] & _).
  destruct (C39_proof _ _ _ _ _ _ _ _ _ _ _ _ H1 H2 Ht Htol E') as (u' & _ & Ep' & _ & [U' _] & _).
  destruct (C128_game_proof _ _ _ _ _ _ _ _ _ _ _ _ H1 H2 Ht Htol T1 T2 E) as (_ & v & _ & _ & _ & _ & _ & Ev & _ & _ & B & _).
  destruct (C128_game_proof _ _ _ _ _ _ _ _ _ _ _ _ H1 H2 Ht Htol T1 T2 E') as (_ & v' & _ & _ & _ & _ & _ & Ev' & _ & _ & B' & _).
  rewrite Ep in Ev. rewrite Ep' in Ev'. cbn [g2_volatility] in Ev, Ev'. injection Ev as <-. injection Ev' as <-. fold up down in B, B'.
  rewrite Ep, Ep'. cbn [g2_rating]. do 2 eexists. do 2 (split; [reflexivity|]).
  destruct (g2_one r RD u (g2mu r2) (g2phi RD2) (points o) U) as [N _]. destruct (g2_one r' RD u' (g2mu r2) (g2phi RD2) (points o) U') as [N' _].
  set (n := g2_new_r r RD u _) in *. set (n' := g2_new_r r' RD u' _) in *. cut (g2mu n' < g2mu n). { pose proof g2s_pos as G. intros L. unfold g2mu, Rdiv in L. apply Rmult_lt_reg_r in L; [lra|apply Rinv_0_lt_compat; auto]. }
  rewrite g2E_sg in N, N'. pose proof (g2g_range (g2phi RD2)) as Gr. set (g := g2g (g2phi RD2)) in *. pose proof g2s_pos as Gs.
  assert (Pu : 0 < u ^ 2) by (apply pow_lt; auto). assert (Pu' : 0 < u' ^ 2) by (apply pow_lt; auto). assert (PR : 0 < g2phi RD ^ 2) by (apply pow_lt, Rdiv_lt_0_compat; auto).
  assert (Hlt : r' < r). { assert (D : 0 < up - down). { assert (0 < s ^ 2) by (apply pow_lt; auto). unfold up, down. assert (exp (- (t ^ 2 * s ^ 2 / 8 + tol)) < exp (3 / 2 * t ^ 2 * s ^ 2 + tol)) by (apply exp_increasing; assert (0 < t ^ 2 * s ^ 2) by (apply Rmult_lt_0_compat; apply pow_lt; auto); lra). nra. } assert (0 < 20 * g2s * (up - down)) by (apply Rmult_lt_0_compat; lra). lra. }
  assert (Hmu : g2mu r' < g2mu r) by (unfold g2mu, Rdiv; apply Rmult_lt_compat_r; [apply Rinv_0_lt_compat; auto|lra]).
  pose proof (g2_slope (g2phi RD ^ 2 + u ^ 2) g (g2mu r2) (points o) (g2mu r') (g2mu r) ltac:(lra) Gr ltac:(destruct o; cbn [points]; lra) Hmu) as S. cbv beta zeta in S.
  set (E0 := sg ((g2mu r' - g2mu r2) * g)) in *. set (E1 := sg ((g2mu r - g2mu r2) * g)) in *. pose proof (sg_range ((g2mu r' - g2mu r2) * g)) as R0. fold E0 in R0.
  assert (G2 : 0 < g ^ 2) by (apply pow_lt; lra). assert (Y : 0 < g ^ 2 * (E0 * (1 - E0))) by (apply Rmult_lt_0_compat; [auto|apply Rmult_lt_0_compat; lra]).
  pose proof (inv_diff (g2phi RD ^ 2 + u' ^ 2) (g2phi RD ^ 2 + u ^ 2) (g ^ 2 * (E0 * (1 - E0))) ltac:(lra) ltac:(lra) ltac:(lra)) as ID.
  replace (1 ^ 2 * (g ^ 2 * E0 * (1 - E0))) with (g ^ 2 * (E0 * (1 - E0))) in N' by ring. replace (1 ^ 2 * (g ^ 2 * E1 * (1 - E1))) with (g ^ 2 * (E1 * (1 - E1))) in N by ring.
  assert (DU : Rabs (g2phi RD ^ 2 + u' ^ 2 - (g2phi RD ^ 2 + u ^ 2)) <= up - down) by (apply Rabs_le; lra).
  assert (HD' : up - down <= (g2mu r - g2mu r') / 20). { rewrite g2mu_diff. apply Rmult_le_reg_r with (20 * g2s); [lra|]. replace ((r - r') / g2s / 20 * (20 * g2s)) with (r - r') by (field; lra). lra. }
  assert (GA : Rabs (g * (points o - E0)) <= 1). { rewrite Rabs_mult, (Rabs_pos_eq g) by lra. assert (Rabs (points o - E0) <= 1) by (apply Rabs_le; destruct o; cbn [points]; lra). pose proof (Rabs_pos (points o - E0)). nra. }
  set (z' := / (/ (g2phi RD ^ 2 + u' ^ 2) + g ^ 2 * (E0 * (1 - E0)))) in *. set (z := / (/ (g2phi RD ^ 2 + u ^ 2) + g ^ 2 * (E0 * (1 - E0)))) in *.
  assert (K : Rabs ((z' - z) * (g * (points o - E0))) <= up - down). { rewrite Rabs_mult. pose proof (Rabs_pos (z' - z)). pose proof (Rabs_pos (g * (points o - E0))). apply Rle_trans with (Rabs (z' - z) * 1); [apply Rmult_le_compat_l; auto|lra]. }
  apply Rabs_le_between in K. unfold Rdiv at 2 3 in S. fold z in S. rewrite N, N'. lra.
Qed.
