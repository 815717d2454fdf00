(** Proofs for C127: Glicko-2 orders the results. *)
From Coq Require Import ZArith List Bool Reals Lra Lia.
From Verif Require Import Arith XR ModelLib ModelElo ModelGlicko ModelGlicko2 Spec MathGlicko2 ProofGlicko2.
Import Spec ListNotations.
Local Open Scope R_scope.

Section Core.
  Variables phi v s t tol : R.
  Hypothesis Hv : 0 < v.
  Hypothesis Hs : 0 < s.
  Hypothesis Ht : 0 < t.

  (** A more surprising result never lowers the zero of Glickman's function. *)
  Lemma zero_le d1 d2 z1 z2 : d1 ^ 2 <= d2 ^ 2 -> d2 ^ 2 < (phi ^ 2 + v) * (1 + 27 / (2 * t ^ 2)) ->
    g2f d1 phi v s t z1 = 0 -> g2f d2 phi v s t z2 = 0 -> z1 <= z2.
  Proof using Hv Hs Ht.
    intros Hd Hc E1 E2. rewrite g2f_hf in E1, E2.
    assert (HD : 0 < phi ^ 2 + v) by (pose proof (pow2_ge_0 phi); lra).
    assert (HT : 0 < t ^ 2) by (apply pow_lt; lra).
    set (D := phi ^ 2 + v) in *. set (T := t ^ 2) in *.
    set (S1 := d1 ^ 2 - phi ^ 2 - v) in *. set (S2 := d2 ^ 2 - phi ^ 2 - v) in *.
    assert (HS : S1 <= S2) by (unfold S1, S2; lra).
    assert (HS2 : - D <= S2) by (pose proof (pow2_ge_0 d2); unfold S2, D; lra).
    assert (Hm : 0 < hm S2 D T).
    { unfold hm, Rmax. destruct (Rle_dec S2 0) as [h|h]; [rewrite Rmult_0_r; unfold Rdiv; rewrite Rmult_0_l, Rminus_0_r; now apply Rinv_0_lt_compat|].
      enough (2 * S2 / (27 * D) < / T) by lra. apply Rmult_lt_reg_r with (27 * D * T); [nra|].
      replace (2 * S2 / (27 * D) * (27 * D * T)) with (2 * S2 * T) by (field; lra).
      replace (/ T * (27 * D * T)) with (27 * D) by (field; lra).
      assert (X : D * (1 + 27 / (2 * T)) * T = D * T + 27 * D / 2) by (field; lra).
      assert (Y : d2 ^ 2 * T < D * (1 + 27 / (2 * T)) * T) by (apply Rmult_lt_compat_r; auto). rewrite X in Y.
      replace (d2 ^ 2) with (S2 + D) in Y by (unfold S2, D; ring). lra. }
    assert (G : 0 <= hf S2 D (ln (s ^ 2)) T z1).
    { rewrite <- E1. unfold hf. enough (exp z1 * (S1 - exp z1) / (2 * (D + exp z1) ^ 2) <= exp z1 * (S2 - exp z1) / (2 * (D + exp z1) ^ 2)) by lra.
      pose proof (exp_pos z1) as He. assert (0 < (D + exp z1) ^ 2) by (apply pow_lt; lra).
      apply Rmult_le_compat_r; [apply Rlt_le, Rinv_0_lt_compat; lra|]. apply Rmult_le_compat_l; lra. }
    destruct (Rle_dec z1 z2) as [|h]; auto. exfalso.
    pose proof (hf_slope S2 D (ln (s ^ 2)) T HD HT ltac:(lra) z2 z1 ltac:(lra)) as [Hsl _].
    assert (0 < hm S2 D T * (z1 - z2)) by (apply Rmult_lt_0_compat; lra). lra.
  Qed.

  Lemma vol_le d1 d2 s1' s2' : d1 ^ 2 <= d2 ^ 2 -> d2 ^ 2 < (phi ^ 2 + v) * (1 + 27 / (2 * t ^ 2)) ->
    g2_solves d1 phi v s t tol s1' -> g2_solves d2 phi v s t tol s2' -> s1' ^ 2 <= exp (2 * tol) * s2' ^ 2.
  Proof using Hv Hs Ht.
    intros Hd Hc (P1 & z1 & E1 & B1) (P2 & z2 & E2 & B2). pose proof (zero_le _ _ _ _ Hd Hc E1 E2) as Hz.
    assert (0 < s1' ^ 2 /\ 0 < s2' ^ 2) as [Q1 Q2] by (split; apply pow_lt; auto).
    assert (C1 : ln (s1' ^ 2) - z1 <= tol) by (eapply Rle_trans; [apply Rle_abs|exact B1]).
    assert (C2 : z2 - ln (s2' ^ 2) <= tol) by (eapply Rle_trans; [apply Rle_abs|rewrite Rabs_minus_sym; exact B2]).
    rewrite <- (exp_ln (s1' ^ 2)) by auto. rewrite <- (exp_ln (s2' ^ 2)) by auto. rewrite <- exp_plus.
    destruct (Req_dec (ln (s1' ^ 2)) (2 * tol + ln (s2' ^ 2))) as [->|n]; [lra|]. apply Rlt_le, exp_increasing. lra.
  Qed.
  Lemma phi2_eq x : 0 < x -> g2_phi' phi x v ^ 2 = / (/ (phi ^ 2 + x ^ 2) + / v).
  Proof using Hv.
    intros Hx. unfold g2_phi'. assert (0 < phi ^ 2 + x ^ 2) by (pose proof (pow2_ge_0 phi); pose proof (pow_lt x 2 Hx); lra).
    assert (0 < / (phi ^ 2 + x ^ 2) + / v) by (apply Rplus_lt_0_compat; now apply Rinv_0_lt_compat).
    assert (0 < sqrt (/ (phi ^ 2 + x ^ 2) + / v)) by now apply sqrt_lt_R0.
    rewrite pow_inv. rewrite pow2_sqrt by lra. reflexivity.
  Qed.
  Lemma phi_le K x y : 1 <= K -> 0 < x -> 0 < y -> x ^ 2 <= K * y ^ 2 -> g2_phi' phi x v ^ 2 <= K * g2_phi' phi y v ^ 2.
  Proof using Hv.
    intros HK Hx Hy H. rewrite !phi2_eq by auto. pose proof (pow2_ge_0 phi) as P0. pose proof (pow_lt x 2 Hx) as X. pose proof (pow_lt y 2 Hy) as Y.
    set (p := phi ^ 2) in *. set (a := x ^ 2) in *. set (b := y ^ 2) in *.
    assert (I : forall q, 0 < q -> / (/ (p + q) + / v) = v - v * v / (p + q + v)) by (intros; field; lra). rewrite !I by auto.
    assert (Kb : p + a <= K * (p + b)) by nra.
    apply Rle_trans with (v - v * v / (K * (p + b) + v)).
    - enough (v * v / (K * (p + b) + v) <= v * v / (p + a + v)) by lra.
      apply Rmult_le_compat_l; [nra|]. apply Rinv_le_contravar; lra.
    - set (c := p + b) in *. assert (Hc : 0 < c) by (unfold c; lra). assert (HKc : 0 < K * c) by (apply Rmult_lt_0_compat; lra).
      replace (v - v * v / (K * c + v)) with (K * (v * c) * / (K * c + v)) by (field; lra).
      replace (K * (v - v * v / (c + v))) with (K * (v * c) * / (c + v)) by (field; lra).
      apply Rmult_le_compat_l; [apply Rmult_le_pos; [lra|apply Rmult_le_pos; lra]|]. apply Rinv_le_contravar; [lra|]. nra.
  Qed.
End Core.

(** Two outcomes of the same games. *)
Lemma g2_new_r_eq r RD s' gs : g2_new_r r RD s' gs = r + g2s * (g2_phi' (g2phi RD) s' (g2v (g2mu r) gs) ^ 2 * g2M (g2mu r) gs).
Proof. unfold g2_new_r. cbv zeta. unfold g2mu at 1. pose proof g2s_pos. field. lra. Qed.
Definition g2_mild (r RD t : R) (gs : list (R * R * R)) : Prop :=
  (g2v (g2mu r) gs * g2M (g2mu r) gs) ^ 2 < (g2phi RD ^ 2 + g2v (g2mu r) gs) * (1 + 27 / (2 * t ^ 2)).

Lemma two_abs r RD s t tol ga gb sa sb : 0 < s -> 0 < t -> 0 <= tol -> 0 < g2v (g2mu r) ga ->
  g2v (g2mu r) ga = g2v (g2mu r) gb -> g2M (g2mu r) ga ^ 2 <= g2M (g2mu r) gb ^ 2 -> g2_mild r RD t gb ->
  g2_solves (g2v (g2mu r) ga * g2M (g2mu r) ga) (g2phi RD) (g2v (g2mu r) ga) s t tol sa ->
  g2_solves (g2v (g2mu r) gb * g2M (g2mu r) gb) (g2phi RD) (g2v (g2mu r) gb) s t tol sb ->
  g2_phi' (g2phi RD) sa (g2v (g2mu r) ga) ^ 2 <= exp (2 * tol) * g2_phi' (g2phi RD) sb (g2v (g2mu r) gb) ^ 2.
Proof.
  intros Hs Ht Htol Hv Ev HM Hm Sa Sb. unfold g2_mild in Hm. rewrite <- Ev in *.
  set (v := g2v (g2mu r) ga) in *. set (Ma := g2M (g2mu r) ga) in *. set (Mb := g2M (g2mu r) gb) in *.
  assert (Q : sa ^ 2 <= exp (2 * tol) * sb ^ 2).
  { apply (vol_le (g2phi RD) v s t tol Hv Hs Ht (v * Ma) (v * Mb)); auto.
    rewrite !Rpow_mult_distr. apply Rmult_le_compat_l; auto. apply pow2_ge_0. }
  assert (HK : 1 <= exp (2 * tol)) by (pose proof (exp_ineq1_le (2 * tol)); lra).
  exact (phi_le (g2phi RD) v Hv _ sa sb HK (proj1 Sa) (proj1 Sb) Q).
Qed.

(** Results at least as good never leave the player lower, up to the solver's tolerance. *)
Lemma two_order r RD s t tol ga gb sa sb : 0 < s -> 0 < t -> 0 <= tol -> 0 < g2v (g2mu r) ga ->
  g2v (g2mu r) ga = g2v (g2mu r) gb -> g2M (g2mu r) ga <= g2M (g2mu r) gb -> g2_mild r RD t ga -> g2_mild r RD t gb ->
  g2_solves (g2v (g2mu r) ga * g2M (g2mu r) ga) (g2phi RD) (g2v (g2mu r) ga) s t tol sa ->
  g2_solves (g2v (g2mu r) gb * g2M (g2mu r) gb) (g2phi RD) (g2v (g2mu r) gb) s t tol sb ->
  let ca := g2_new_r r RD sa ga - r in let cb := g2_new_r r RD sb gb - r in
  (0 <= ca -> ca <= exp (2 * tol) * cb) /\ (cb <= 0 -> exp (2 * tol) * ca <= cb) /\
  (0 < g2M (g2mu r) gb - exp (2 * tol) * g2M (g2mu r) ga -> 0 < exp (2 * tol) * g2M (g2mu r) gb - g2M (g2mu r) ga -> ca < cb).
Proof.
  intros Hs Ht Htol Hv Ev HM Ma0 Mb0 Sa Sb. cbv zeta. rewrite !g2_new_r_eq.
  pose proof (two_abs r RD s t tol ga gb sa sb Hs Ht Htol Hv Ev) as Up.
  pose proof (two_abs r RD s t tol gb ga sb sa Hs Ht Htol ltac:(lra) (eq_sym Ev)) as Dn.
  pose proof (g2_phi'_pos (g2phi RD) sa _ (proj1 Sa) Hv) as Pa.
  pose proof (g2_phi'_pos (g2phi RD) sb (g2v (g2mu r) gb) (proj1 Sb) ltac:(lra)) as Pb.
  apply (fun H => pow_lt _ 2 H) in Pa. apply (fun H => pow_lt _ 2 H) in Pb.
  set (A := g2_phi' (g2phi RD) sa (g2v (g2mu r) ga) ^ 2) in *. set (B := g2_phi' (g2phi RD) sb (g2v (g2mu r) gb) ^ 2) in *.
  set (x := g2M (g2mu r) ga) in *. set (y := g2M (g2mu r) gb) in *. pose proof g2s_pos as G.
  assert (HK : 1 <= exp (2 * tol)) by (pose proof (exp_ineq1_le (2 * tol)); lra). set (K := exp (2 * tol)) in *.
  replace (r + g2s * (A * x) - r) with (g2s * (A * x)) by ring. replace (r + g2s * (B * y) - r) with (g2s * (B * y)) by ring.
  clearbody A B x y K. clear Ev.
  assert (U : 0 <= x -> A * x <= K * (B * y)).
  { intros Hx. specialize (Up ltac:(nra) Mb0 Sa Sb). apply Rle_trans with (K * B * x); [apply Rmult_le_compat_r; auto|].
    rewrite Rmult_assoc. apply Rmult_le_compat_l; [lra|]. apply Rmult_le_compat_l; lra. }
  assert (V : y <= 0 -> K * (A * x) <= B * y).
  { intros Hy. specialize (Dn ltac:(nra) Ma0 Sb Sa). enough (B * - y <= K * A * - x) by lra. apply Rle_trans with (K * A * - y); [apply Rmult_le_compat_r; lra|].
    apply Rmult_le_compat_l; [|lra]. apply Rmult_le_pos; lra. }
  repeat split.
  - intros H. assert (0 <= x). { destruct (Rle_dec 0 x) as [|n]; auto. exfalso. assert (0 < A * - x) by (apply Rmult_lt_0_compat; lra). assert (0 < g2s * (A * - x)) by (apply Rmult_lt_0_compat; lra). lra. }
    replace (K * (g2s * (B * y))) with (g2s * (K * (B * y))) by ring. apply Rmult_le_compat_l; [lra|]. auto.
  - intros H. assert (y <= 0). { destruct (Rle_dec y 0) as [|n]; auto. exfalso. assert (0 < B * y) by (apply Rmult_lt_0_compat; lra). assert (0 < g2s * (B * y)) by (apply Rmult_lt_0_compat; lra). lra. }
    replace (K * (g2s * (A * x))) with (g2s * (K * (A * x))) by ring. apply Rmult_le_compat_l; [lra|]. auto.
  - intros H1 H2. apply Rmult_lt_compat_l; auto.
    destruct (Rle_dec 0 x) as [Hx|Hx].
    + specialize (Up ltac:(nra) Mb0 Sa Sb). apply Rle_lt_trans with (K * B * x); [apply Rmult_le_compat_r; auto|].
      replace (K * B * x) with (B * (K * x)) by ring. apply Rmult_lt_compat_l; lra.
    + destruct (Rle_dec y 0) as [Hy|Hy].
      * specialize (Dn ltac:(nra) Ma0 Sb Sa). enough (B * - y < A * - x) by lra. apply Rle_lt_trans with (K * A * - y); [apply Rmult_le_compat_r; lra|].
        replace (K * A * - y) with (A * (K * - y)) by ring. apply Rmult_lt_compat_l; lra.
      * assert (0 < A * - x) by (apply Rmult_lt_0_compat; lra). assert (0 < B * y) by (apply Rmult_lt_0_compat; lra). lra.
Qed.

(** ** One game *)
Lemma mild_game r RD muj phij s t : let e := g2E (g2mu r) muj phij in
  (s - e) ^ 2 / (e * (1 - e)) < 1 + 27 / (2 * t ^ 2) -> 0 < t -> g2_mild r RD t [(muj, phij, s)].
Proof.
  intros e H Ht. unfold g2_mild. rewrite g2v_single, g2M_single. pose proof (g2E_range (g2mu r) muj phij) as He. fold e in He |- *.
  pose proof (g2g_range phij) as [Hg _]. set (g := g2g phij) in *.
  assert (0 < e * (1 - e)) by nra. assert (0 < g ^ 2) by (apply pow_lt; auto).
  assert (HT : 0 < 27 / (2 * t ^ 2)) by (pose proof (pow_lt t 2 Ht); apply Rdiv_lt_0_compat; lra).
  set (T := 27 / (2 * t ^ 2)) in *. set (v := / (g ^ 2 * e * (1 - e))).
  assert (Hv : 0 < v) by (apply Rinv_0_lt_compat; rewrite Rmult_assoc; apply Rmult_lt_0_compat; lra).
  replace ((v * (g * (s - e))) ^ 2) with (v * ((s - e) ^ 2 / (e * (1 - e)))) by (unfold v; field; repeat split; try lra; nra).
  apply Rlt_le_trans with (v * (1 + T)); [apply Rmult_lt_compat_l; auto|]. apply Rmult_le_compat_r; [lra|]. pose proof (pow2_ge_0 (g2phi RD)). lra.
Qed.

Lemma exp06 tol : tol <= 3 / 10 -> exp (2 * tol) < 2.
Proof.
  intros H. apply Rle_lt_trans with (exp (6 / 10)). { destruct (Req_dec (2 * tol) (6 / 10)) as [->|n]; [lra|]. apply Rlt_le, exp_increasing. lra. }
  pose proof (exp_ineq1_le (- (15 / 100))) as E. pose proof (exp_pos (15 / 100)) as P.
  assert (Q : exp (15 / 100) * exp (- (15 / 100)) = 1) by (rewrite <- exp_plus, Rplus_opp_r; apply exp_0).
  set (x := exp (15 / 100)) in *. assert (X : x <= 118 / 100) by nra.
  replace (exp (6 / 10)) with ((x * x) * (x * x)) by (unfold x; rewrite <- !exp_plus; f_equal; lra).
  assert (x * x <= 14 / 10) by nra. assert (0 < x * x) by nra. nra.
Qed.

Definition balanced (t e : R) : Prop := e / (1 - e) < 1 + 27 / (2 * t ^ 2) /\ (1 - e) / e < 1 + 27 / (2 * t ^ 2).

Lemma mild_all r RD muj phij o t : 0 < t -> balanced t (g2E (g2mu r) muj phij) -> g2_mild r RD t [(muj, phij, points o)].
Proof.
  intros Ht [H1 H2]. apply mild_game; auto. cbv zeta. pose proof (g2E_range (g2mu r) muj phij) as He. set (e := g2E _ _ _) in *.
  destruct o; cbn [points].
  - replace ((1 - e) ^ 2 / (e * (1 - e))) with ((1 - e) / e) by (field; lra). auto.
  - replace ((0 - e) ^ 2 / (e * (1 - e))) with (e / (1 - e)) by (field; lra). auto.
  - apply Rle_lt_trans with (Rmax (e / (1 - e)) ((1 - e) / e)); [|apply Rmax_lub_lt; auto].
    assert (0 < e * (1 - e)) by nra.
    destruct (Rle_dec (1 / 2) e); [eapply Rle_trans; [|apply Rmax_l]; replace (e / (1 - e)) with (e ^ 2 / (e * (1 - e))) by (field; lra)
      |eapply Rle_trans; [|apply Rmax_r]; replace ((1 - e) / e) with ((1 - e) ^ 2 / (e * (1 - e))) by (field; lra)];
    (apply Rmult_le_compat_r; [apply Rlt_le, Rinv_0_lt_compat; auto|nra]).
Qed.

Lemma single_order r RD s t tol muj phij oa ob sa sb : 0 < s -> 0 < t -> 0 <= tol <= 3 / 10 ->
  points oa < points ob -> balanced t (g2E (g2mu r) muj phij) ->
  let ga := [(muj, phij, points oa)] in let gb := [(muj, phij, points ob)] in
  g2_solves (g2v (g2mu r) ga * g2M (g2mu r) ga) (g2phi RD) (g2v (g2mu r) ga) s t tol sa ->
  g2_solves (g2v (g2mu r) gb * g2M (g2mu r) gb) (g2phi RD) (g2v (g2mu r) gb) s t tol sb ->
  g2_new_r r RD sa ga < g2_new_r r RD sb gb.
Proof.
  intros Hs Ht Htol Hp Hb ga gb Sa Sb.
  assert (Ev : g2v (g2mu r) ga = g2v (g2mu r) gb) by (unfold ga, gb; now rewrite !g2v_single).
  pose proof (g2v_pos (g2mu r) ga ltac:(discriminate)) as Hv. pose proof (g2g_range phij) as [Hg _]. pose proof (g2E_range (g2mu r) muj phij) as He.
  pose proof (mild_all r RD muj phij oa t Ht Hb) as Ma. pose proof (mild_all r RD muj phij ob t Ht Hb) as Mb. fold ga in Ma. fold gb in Mb.
  assert (EA : g2M (g2mu r) ga = g2g phij * (points oa - g2E (g2mu r) muj phij)) by (unfold ga; now rewrite g2M_single).
  assert (EB : g2M (g2mu r) gb = g2g phij * (points ob - g2E (g2mu r) muj phij)) by (unfold gb; now rewrite g2M_single).
  pose proof (exp06 tol ltac:(lra)) as K2. assert (HK : 1 <= exp (2 * tol)) by (pose proof (exp_ineq1_le (2 * tol)); lra).
  destruct (two_order r RD s t tol ga gb sa sb Hs Ht ltac:(lra) Hv Ev) as (_ & _ & L); auto.
  { rewrite EA, EB. apply Rmult_le_compat_l; lra. }
  enough (g2_new_r r RD sa ga - r < g2_new_r r RD sb gb - r) by lra. set (e := g2E _ _ _) in *.
  apply L; rewrite EA, EB.
  - replace (g2g phij * (points ob - e) - exp (2 * tol) * (g2g phij * (points oa - e))) with (g2g phij * ((points ob - e) - exp (2 * tol) * (points oa - e))) by ring.
    apply Rmult_lt_0_compat; auto. destruct oa, ob; cbn [points] in *; try lra; nra.
  - replace (exp (2 * tol) * (g2g phij * (points ob - e)) - g2g phij * (points oa - e)) with (g2g phij * (exp (2 * tol) * (points ob - e) - (points oa - e))) by ring.
    apply Rmult_lt_0_compat; auto. destruct oa, ob; cbn [points] in *; try lra; nra.
Qed.

Lemma C127_game_proof : forall fuel r1 RD1 s1 r2 RD2 s2 t tol p q o p' q' o',
  0 < s1 -> 0 < s2 -> 0 < t -> 0 <= tol <= 3 / 10 ->
  let e1 := g2E (g2mu r1) (g2mu r2) (g2phi RD2) in
  let e2 := g2E (g2mu r2) (g2mu r1) (g2phi RD1) in
  let limit := 1 + 27 / (2 * t ^ 2) in
  e1 / (1 - e1) < limit -> (1 - e1) / e1 < limit -> e2 / (1 - e2) < limit -> (1 - e2) / e2 < limit ->
  let game o := glicko2 fuel (mkGlicko2 (Fin r1) (Fin RD1) (Fin s1)) (mkGlicko2 (Fin r2) (Fin RD2) (Fin s2)) o
    (mkGlicko2Config (Fin t) (Fin tol)) in
  game o = Some (p, q) -> game o' = Some (p', q') -> points o < points o' ->
  exists x y x' y', g2_rating p = Fin x /\ g2_rating q = Fin y /\ g2_rating p' = Fin x' /\ g2_rating q' = Fin y' /\ x < x' /\ y' < y.
Proof.
  intros fuel r1 RD1 s1 r2 RD2 s2 t tol p q o p' q' o' H1 H2 Ht Htol e1 e2 limit B1 B2 B3 B4 game Ea Eb Hp.
  assert (T0 : 0 <= tol) by lra. apply (C39_proof fuel r1 RD1 s1 r2 RD2 s2 o t tol p q H1 H2 Ht T0) in Ea. apply (C39_proof fuel r1 RD1 s1 r2 RD2 s2 o' t tol p' q' H1 H2 Ht T0) in Eb. cbv zeta in Ea, Eb.
  destruct Ea as (a1 & a2 & -> & -> & Sa1 & Sa2 & _). destruct Eb as (b1 & b2 & -> & -> & Sb1 & Sb2 & _).
  do 4 eexists. cbn [g2_rating]. repeat (split; [reflexivity|]). split.
  - apply (single_order r1 RD1 s1 t tol (g2mu r2) (g2phi RD2) o o' a1 b1); auto. split; auto.
  - apply (single_order r2 RD2 s2 t tol (g2mu r1) (g2phi RD1) (invert o') (invert o) b2 a2); auto; [destruct o, o'; cbn [points invert] in *; lra|split; auto].
Qed.

(** ** A rating period *)
Lemma C127_period_proof : forall fuel r RD s t tol (rs : list (R * R * R * Outcomes * Outcomes)) p p',
  0 < s -> 0 < t -> 0 <= tol -> rs <> [] -> List.Forall (fun '(_, _, _, o, o') => points o <= points o') rs ->
  let worse := map (fun '(rj, RDj, sj, o, _) => (rj, RDj, sj, o)) rs in
  let better := map (fun '(rj, RDj, sj, _, o') => (rj, RDj, sj, o')) rs in
  let games l := map (fun '(rj, RDj, _, o) => (g2mu rj, g2phi RDj, points o)) l in
  let mild l := (g2v (g2mu r) (games l) * g2M (g2mu r) (games l)) ^ 2 < (g2phi RD ^ 2 + g2v (g2mu r) (games l)) * (1 + 27 / (2 * t ^ 2)) in
  mild worse -> mild better ->
  let period l := glicko2_rating_period fuel (mkGlicko2 (Fin r) (Fin RD) (Fin s))
    (map (fun '(rj, RDj, sj, o) => (mkGlicko2 (Fin rj) (Fin RDj) (Fin sj), o)) l) (mkGlicko2Config (Fin t) (Fin tol)) in
  period worse = Some p -> period better = Some p' ->
  exists x x', g2_rating p = Fin x /\ g2_rating p' = Fin x' /\
    (r <= x -> r <= x' /\ x - r <= exp (2 * tol) * (x' - r)) /\
    (x' <= r -> x <= r /\ exp (2 * tol) * (r - x) >= r - x').
Proof.
  intros fuel r RD s t tol rs p p' Hs Ht Htol Hne HF worse better games mild Mw Mb period Ew Eb.
  assert (Nw : worse <> []) by (unfold worse; destruct rs; [contradiction|discriminate]).
  assert (Nb : better <> []) by (unfold better; destruct rs; [contradiction|discriminate]).
  apply C39_period_proof in Ew; auto. apply C39_period_proof in Eb; auto. cbv zeta in Ew, Eb.
  destruct Ew as (sa & -> & Sa & _). destruct Eb as (sb & -> & Sb & _). fold (games worse) in *. fold (games better) in *.
  assert (Nw' : games worse <> []) by (unfold games; destruct worse; [contradiction|discriminate]).
  pose proof (g2v_pos (g2mu r) (games worse) Nw') as Hv.
  assert (Ev : g2v (g2mu r) (games worse) = g2v (g2mu r) (games better)).
  { unfold g2v, games, worse, better. rewrite !map_map. do 2 f_equal. apply map_ext. intros ((((a, b), c), o), o'). reflexivity. }
  assert (HM : g2M (g2mu r) (games worse) <= g2M (g2mu r) (games better)).
  { clear - HF. unfold g2M, games, worse, better. rewrite !map_map. induction HF as [|((((a, b), c), o), o') l Ho HF IH]; [apply Rle_refl|].
    cbn [map]. rewrite !Rsum_cons. apply Rplus_le_compat; [|exact IH]. pose proof (g2g_range (g2phi b)) as [Hg _]. apply Rmult_le_compat_l; lra. }
  destruct (two_order r RD s t tol (games worse) (games better) sa sb Hs Ht Htol Hv Ev HM Mw Mb Sa Sb) as (U & V & _).
  do 2 eexists. cbn [g2_rating]. split; [reflexivity|]. split; [reflexivity|].
  pose proof (exp_pos (2 * tol)) as HK. set (K := exp (2 * tol)) in *. set (x := g2_new_r r RD sa (games worse)) in *. set (x' := g2_new_r r RD sb (games better)) in *.
  clearbody K x x'. split; intros H; [specialize (U ltac:(lra))|specialize (V ltac:(lra))]; (split; [nra|lra]).
Qed.

(** ** Drift *)
Lemma g2E_odds mu muj phij : (1 - g2E mu muj phij) / g2E mu muj phij = exp (g2g phij * (muj - mu)).
Proof.
  unfold g2E. replace (- g2g phij * (mu - muj)) with (g2g phij * (muj - mu)) by ring. pose proof (exp_pos (g2g phij * (muj - mu))). field. lra.
Qed.

Lemma C108_glicko2_proof : forall fuel r1 RD1 s1 r2 RD2 s2 t tol e1 e2 pw qw pl ql,
  0 < s1 -> 0 < s2 -> 0 < t -> 0 <= tol ->
  let E := g2E (g2mu r1) (g2mu r2) (g2phi RD2) in
  let limit := 1 + 27 / (2 * t ^ 2) in
  E / (1 - E) < limit -> (1 - E) / E < limit ->
  2 * tol < (g2g (g2phi RD2) - g2g (sqrt (g2phi RD1 ^ 2 + g2phi RD2 ^ 2))) * Rabs (g2mu r2 - g2mu r1) ->
  let one := mkGlicko2 (Fin r1) (Fin RD1) (Fin s1) in let two := mkGlicko2 (Fin r2) (Fin RD2) (Fin s2) in
  let game o := glicko2 fuel one two o (mkGlicko2Config (Fin t) (Fin tol)) in
  glicko2_expected_score one two = (Fin e1, Fin e2) ->
  game WIN = Some (pw, qw) -> game LOSS = Some (pl, ql) ->
  exists w l, g2_rating pw = Fin w /\ g2_rating pl = Fin l /\
    (r1 < r2 -> r1 < e1 * w + (1 - e1) * l) /\ (r2 < r1 -> e1 * w + (1 - e1) * l < r1).
Proof.
  intros fuel r1 RD1 s1 r2 RD2 s2 t tol e1 e2 pw qw pl ql H1 H2 Ht Htol E limit B1 B2 Hd one two game Ee Ew El.
  unfold one, two in Ee. rewrite g2_expected_eval in Ee. cbv zeta in Ee. injection Ee as Ee _. change (g2E (g2mu r1) (g2mu r2) (sqrt (g2phi RD1 ^ 2 + g2phi RD2 ^ 2)) = e1) in Ee.
  apply (C39_proof fuel r1 RD1 s1 r2 RD2 s2 WIN t tol pw qw H1 H2 Ht Htol) in Ew. apply (C39_proof fuel r1 RD1 s1 r2 RD2 s2 LOSS t tol pl ql H1 H2 Ht Htol) in El. cbv zeta in Ew, El.
  destruct Ew as (a1 & a2 & -> & -> & Sw & _). destruct El as (b1 & b2 & -> & -> & Sl & _).
  cbn [points] in *. set (gw := [(g2mu r2, g2phi RD2, 1)]) in *. set (gl := [(g2mu r2, g2phi RD2, 0)]) in *.
  do 2 eexists. cbn [g2_rating]. split; [reflexivity|]. split; [reflexivity|].
  rewrite !g2_new_r_eq.
  assert (Ev : g2v (g2mu r1) gw = g2v (g2mu r1) gl) by (unfold gw, gl; now rewrite !g2v_single).
  pose proof (g2v_pos (g2mu r1) gw ltac:(discriminate)) as Hv.
  assert (EW : g2M (g2mu r1) gw = g2g (g2phi RD2) * (1 - E)) by (unfold gw; now rewrite g2M_single).
  assert (EL : g2M (g2mu r1) gl = g2g (g2phi RD2) * (0 - E)) by (unfold gl; now rewrite g2M_single).
  pose proof (mild_all r1 RD1 (g2mu r2) (g2phi RD2) WIN t Ht (conj B1 B2)) as Mw. pose proof (mild_all r1 RD1 (g2mu r2) (g2phi RD2) LOSS t Ht (conj B1 B2)) as Ml.
  change (g2_mild r1 RD1 t gw) in Mw. change (g2_mild r1 RD1 t gl) in Ml.
  pose proof (two_abs r1 RD1 s1 t tol gl gw b1 a1 H1 Ht Htol ltac:(lra) (eq_sym Ev)) as Up.
  pose proof (two_abs r1 RD1 s1 t tol gw gl a1 b1 H1 Ht Htol Hv Ev) as Dn.
  pose proof (g2_phi'_pos (g2phi RD1) a1 _ (proj1 Sw) Hv) as Pw. pose proof (g2_phi'_pos (g2phi RD1) b1 (g2v (g2mu r1) gl) (proj1 Sl) ltac:(lra)) as Pl.
  apply (fun H => pow_lt _ 2 H) in Pw. apply (fun H => pow_lt _ 2 H) in Pl.
  set (W := g2_phi' (g2phi RD1) a1 (g2v (g2mu r1) gw) ^ 2) in *. set (L := g2_phi' (g2phi RD1) b1 (g2v (g2mu r1) gl) ^ 2) in *.
  pose proof (g2E_range (g2mu r1) (g2mu r2) (g2phi RD2)) as HE. fold E in HE.
  pose proof (g2E_odds (g2mu r1) (g2mu r2) (g2phi RD2)) as OE. fold E in OE.
  pose proof (g2E_odds (g2mu r1) (g2mu r2) (sqrt (g2phi RD1 ^ 2 + g2phi RD2 ^ 2))) as Op.
  pose proof (g2E_range (g2mu r1) (g2mu r2) (sqrt (g2phi RD1 ^ 2 + g2phi RD2 ^ 2))) as Hp. rewrite Ee in Op, Hp.
  pose proof (g2g_range (g2phi RD2)) as [Hg _]. set (g := g2g (g2phi RD2)) in *. set (g' := g2g (sqrt _)) in *.
  set (d := g2mu r2 - g2mu r1) in *. pose proof g2s_pos as G.
  assert (Id : r1 = r2 \/ d * (r2 - r1) > 0).
  { destruct (Req_dec r1 r2) as [|n]; auto. right. unfold d, g2mu. replace ((r2 - 1500) / g2s - (r1 - 1500) / g2s) with ((r2 - r1) * / g2s) by (field; lra).
    assert (0 < / g2s) by now apply Rinv_0_lt_compat. assert (0 < (r2 - r1) * (r2 - r1)) by (apply Rsqr_pos_lt; lra). nra. }
  rewrite EW, EL in *.
  replace (e1 * (r1 + g2s * (W * (g * (1 - E)))) + (1 - e1) * (r1 + g2s * (L * (g * (0 - E))))) with (r1 + g2s * g * (e1 * (1 - E) * W - (1 - e1) * E * L)) by ring.
  assert (P0 : 0 < g2s * g) by now apply Rmult_lt_0_compat.
  set (K := exp (2 * tol)) in *.
  split; intros H.
  - assert (D : 0 < d) by (destruct Id as [|Id]; [lra|nra]). rewrite Rabs_pos_eq in Hd by lra.
    assert (OH : 1 <= (1 - E) / E). { rewrite OE, <- exp_0. apply Rlt_le, exp_increasing, Rmult_lt_0_compat; auto. }
    assert (HE2 : E <= 1 / 2). { apply Rmult_le_compat_r with (r := E) in OH; [|lra]. replace ((1 - E) / E * E) with (1 - E) in OH by (field; lra). lra. }
    assert (LW : L <= K * W) by (apply Up; auto; rewrite !Rpow_mult_distr; apply Rmult_le_compat_l; [apply pow2_ge_0|nra]).
    assert (OK : K * ((1 - e1) / e1) < (1 - E) / E). { rewrite Op, OE. unfold K. rewrite <- exp_plus. apply exp_increasing. lra. }
    assert (Q : K * ((1 - e1) * E) < e1 * (1 - E)).
    { apply Rmult_lt_reg_r with (/ (e1 * E)); [apply Rinv_0_lt_compat; nra|].
      replace (K * ((1 - e1) * E) * / (e1 * E)) with (K * ((1 - e1) / e1)) by (field; lra). replace (e1 * (1 - E) * / (e1 * E)) with ((1 - E) / E) by (field; lra). auto. }
    assert (0 < e1 * (1 - E) * W - (1 - e1) * E * L); [|assert (0 < g2s * g * (e1 * (1 - E) * W - (1 - e1) * E * L)) by (apply Rmult_lt_0_compat; auto); lra].
    assert (0 <= (1 - e1) * E) by nra.
    assert ((1 - e1) * E * L <= (1 - e1) * E * (K * W)) by (apply Rmult_le_compat_l; auto).
    assert (K * ((1 - e1) * E) * W < e1 * (1 - E) * W) by (apply Rmult_lt_compat_r; auto). lra.
  - assert (D : d < 0) by (destruct Id as [|Id]; [lra|nra]). rewrite Rabs_left in Hd by lra.
    assert (OH : (1 - E) / E <= 1). { rewrite OE, <- exp_0. apply Rlt_le, exp_increasing. nra. }
    assert (HE2 : 1 / 2 <= E). { apply Rmult_le_compat_r with (r := E) in OH; [|lra]. replace ((1 - E) / E * E) with (1 - E) in OH by (field; lra). lra. }
    assert (LW : W <= K * L) by (apply Dn; auto; rewrite !Rpow_mult_distr; apply Rmult_le_compat_l; [apply pow2_ge_0|nra]).
    assert (OK : K * ((1 - E) / E) < (1 - e1) / e1). { rewrite Op, OE. unfold K. rewrite <- exp_plus. apply exp_increasing. lra. }
    assert (Q : K * (e1 * (1 - E)) < (1 - e1) * E).
    { apply Rmult_lt_reg_r with (/ (e1 * E)); [apply Rinv_0_lt_compat; nra|].
      replace (K * (e1 * (1 - E)) * / (e1 * E)) with (K * ((1 - E) / E)) by (field; lra). replace ((1 - e1) * E * / (e1 * E)) with ((1 - e1) / e1) by (field; lra). auto. }
    assert (0 < (1 - e1) * E * L - e1 * (1 - E) * W); [|assert (0 < g2s * g * ((1 - e1) * E * L - e1 * (1 - E) * W)) by (apply Rmult_lt_0_compat; auto); lra].
    assert (0 <= e1 * (1 - E)) by nra.
    assert (e1 * (1 - E) * W <= e1 * (1 - E) * (K * L)) by (apply Rmult_le_compat_l; auto).
    assert (K * (e1 * (1 - E)) * L < (1 - e1) * E * L) by (apply Rmult_lt_compat_r; auto). lra.
Qed.
