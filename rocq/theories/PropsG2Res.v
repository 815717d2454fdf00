(** Glicko-2: the better the result, the better the rating. *)
From Coq Require Import ZArith NArith List Bool Reals Lra Lia.
From Verif Require Import Arith XR ModelLib ModelGlicko2 Spec ProofGlicko2 ProofG2Res ProofG2Str.
Import Spec ListNotations.
Local Open Scope R_scope.

(** C127: a win is better than a draw and a draw better than a loss for the
    player, and the other way round for the opponent, although the new
    volatility, and with it the weight of the game, also depends on the result. *)
Theorem C127_glicko2_results : forall fuel r1 RD1 s1 r2 RD2 s2 t tol p q o p' q' o',
  0 < s1 -> 0 < s2 -> 0 < t -> 0 <= tol <= 3 / 10 ->
  let e1 := g2E (g2mu r1) (g2mu r2) (g2phi RD2) in
  let e2 := g2E (g2mu r2) (g2mu r1) (g2phi RD1) in
  let limit := 1 + 27 / (2 * t ^ 2) in
  e1 / (1 - e1) < limit -> (1 - e1) / e1 < limit -> e2 / (1 - e2) < limit -> (1 - e2) / e2 < limit ->
  let game o := glicko2 fuel (mkGlicko2 (Fin r1) (Fin RD1) (Fin s1)) (mkGlicko2 (Fin r2) (Fin RD2) (Fin s2)) o
    (mkGlicko2Config (Fin t) (Fin tol)) in
  game o = Some (p, q) -> game o' = Some (p', q') -> points o < points o' ->
  exists x y x' y', g2_rating p = Fin x /\ g2_rating q = Fin y /\ g2_rating p' = Fin x' /\ g2_rating q' = Fin y' /\ x < x' /\ y' < y.
Proof. exact C127_game_proof. Qed.
Print Assumptions C127_glicko2_results.
(** In a rating period results that are at least as good never turn a gain into
    a loss, and never make a gain smaller (or a loss larger) by more than the
    tolerance of the volatility iteration. *)
Theorem C127_glicko2_results_period : forall fuel r RD s t tol (rs : list (R * R * R * Outcomes * Outcomes)) p p',
  0 < s -> 0 < t -> 0 <= tol -> rs <> [] -> List.Forall (fun '(_, _, _, o, o') => points o <= points o') rs ->
  let worse := map (fun '(rj, RDj, sj, o, _) => (rj, RDj, sj, o)) rs in
  let better := map (fun '(rj, RDj, sj, _, o') => (rj, RDj, sj, o')) rs in
  let games l := map (fun '(rj, RDj, _, o) => (g2mu rj, g2phi RDj, points o)) l in
  let mild l := (g2v (g2mu r) (games l) * g2M (g2mu r) (games l)) ^ 2 < (g2phi RD ^ 2 + g2v (g2mu r) (games l)) * (1 + 27 / (2 * t ^ 2)) in
  mild worse -> mild better ->
  let period l := glicko2_rating_period fuel (mkGlicko2 (Fin r) (Fin RD) (Fin s))
    (map (fun '(rj, RDj, sj, o) => (mkGlicko2 (Fin rj) (Fin RDj) (Fin sj), o)) l) (mkGlicko2Config (Fin t) (Fin tol)) in
  period worse = Some p -> period better = Some p' ->
  exists x x', g2_rating p = Fin x /\ g2_rating p' = Fin x' /\
    (r <= x -> r <= x' /\ x - r <= exp (2 * tol) * (x' - r)) /\
    (x' <= r -> x <= r /\ exp (2 * tol) * (r - x) >= r - x').
Proof. exact C127_period_proof. Qed.
Print Assumptions C127_glicko2_results_period.

(* A player of 1500 against a well-known one of 1700. *)
Example C127_case : let e := g2E (g2mu 1500) (g2mu 1700) (g2phi 30) in let limit := 1 + 27 / (2 * (5/10) ^ 2) in
  e / (1 - e) < limit /\ (1 - e) / e < limit.
Proof.
  intros e limit. pose proof (g2E_range (g2mu 1500) (g2mu 1700) (g2phi 30)) as He. fold e in He.
  pose proof (g2g_range (g2phi 30)) as [G0 G1]. set (g := g2g (g2phi 30)) in *.
  assert (D : g2mu 1500 - g2mu 1700 = - (200 / g2s)) by (unfold g2mu; field; pose proof g2s_pos; lra).
  assert (S : 0 < 200 / g2s <= 2) by (unfold g2s; lra).
  assert (X : exp (g * (200 / g2s)) <= 9).
  { apply Rle_trans with (exp 2). { destruct (Req_dec (g * (200 / g2s)) 2) as [->|n]; [lra|]. apply Rlt_le, exp_increasing. nra. }
    replace 2 with (1 + 1) by lra. rewrite exp_plus. pose proof exp_le_3. pose proof (exp_pos 1). nra. }
  assert (E : e = / (1 + exp (g * (200 / g2s)))) by (unfold e, g2E; fold g; rewrite D; do 3 f_equal; ring).
  assert (e >= 1 / 10). { rewrite E. pose proof (exp_pos (g * (200 / g2s))). apply Rle_ge. unfold Rdiv. rewrite Rmult_1_l. apply Rinv_le_contravar; lra. }
  assert (e <= 1 / 2). { rewrite E. assert (1 <= exp (g * (200 / g2s))). { rewrite <- exp_0. apply Rlt_le, exp_increasing. nra. } unfold Rdiv. rewrite Rmult_1_l. apply Rinv_le_contravar; lra. }
  unfold limit. split.
  - apply Rmult_lt_reg_r with (1 - e); [lra|]. replace (e / (1 - e) * (1 - e)) with e by (field; lra). lra.
  - apply Rmult_lt_reg_r with e; [lra|]. replace ((1 - e) / e * e) with (1 - e) by (field; lra). lra.
Qed.

(** C108 for Glicko-2: the stronger player drifts down and the weaker one up when
    wins and losses follow expected_score. *)
Theorem C108_drift_glicko2 : forall fuel r1 RD1 s1 r2 RD2 s2 t tol e1 e2 pw qw pl ql,
  0 < s1 -> 0 < s2 -> 0 < t -> 0 <= tol ->
  let E := g2E (g2mu r1) (g2mu r2) (g2phi RD2) in
  let limit := 1 + 27 / (2 * t ^ 2) in
  E / (1 - E) < limit -> (1 - E) / E < limit ->
  2 * tol < (g2g (g2phi RD2) - g2g (sqrt (g2phi RD1 ^ 2 + g2phi RD2 ^ 2))) * Rabs (g2mu r2 - g2mu r1) ->
  let one := mkGlicko2 (Fin r1) (Fin RD1) (Fin s1) in let two := mkGlicko2 (Fin r2) (Fin RD2) (Fin s2) in
  let game o := glicko2 fuel one two o (mkGlicko2Config (Fin t) (Fin tol)) in
  glicko2_expected_score one two = (Fin e1, Fin e2) ->
  game WIN = Some (pw, qw) -> game LOSS = Some (pl, ql) ->
  exists w l, g2_rating pw = Fin w /\ g2_rating pl = Fin l /\
    (r1 < r2 -> r1 < e1 * w + (1 - e1) * l) /\ (r2 < r1 -> e1 * w + (1 - e1) * l < r1).
Proof. exact C108_glicko2_proof. Qed.
Print Assumptions C108_drift_glicko2.

Example C108_drift_glicko2_case :
  2 * (1 / 1000000) < (g2g (g2phi 30) - g2g (sqrt (g2phi 200 ^ 2 + g2phi 30 ^ 2))) * Rabs (g2mu 1700 - g2mu 1500).
Proof.
  assert (P1 : 2 < PI) by (pose proof PI2_1; lra). assert (P2 : PI <= 4) by apply PI_4.
  assert (A : 98 / 100 <= g2g (g2phi 30)).
  { unfold g2g. assert (L : 3 * g2phi 30 ^ 2 / PI ^ 2 <= 3 / 100).
    { apply Rmult_le_reg_r with (PI ^ 2); [nra|]. replace (3 * g2phi 30 ^ 2 / PI ^ 2 * PI ^ 2) with (3 * g2phi 30 ^ 2) by (field; lra). unfold g2phi, g2s. nra. }
    assert (0 <= 3 * g2phi 30 ^ 2 / PI ^ 2) by (apply Rmult_le_pos; [pose proof (pow2_ge_0 (g2phi 30)); lra|apply Rlt_le, Rinv_0_lt_compat; nra]).
    assert (S : 1 <= sqrt (1 + 3 * g2phi 30 ^ 2 / PI ^ 2) <= 102 / 100).
    { split; [apply Rle_trans with (sqrt 1); [rewrite sqrt_1; lra|apply sqrt_le_1_alt; lra]|]. rewrite <- (sqrt_pow2 (102 / 100)) by lra. apply sqrt_le_1_alt. lra. }
    apply Rle_trans with (/ (102 / 100)); [lra|]. apply Rinv_le_contravar; lra. }
  assert (B : g2g (sqrt (g2phi 200 ^ 2 + g2phi 30 ^ 2)) <= 95 / 100).
  { unfold g2g. rewrite pow2_sqrt by (pose proof (pow2_ge_0 (g2phi 200)); pose proof (pow2_ge_0 (g2phi 30)); lra).
    assert (L : 2 / 10 <= 3 * (g2phi 200 ^ 2 + g2phi 30 ^ 2) / PI ^ 2).
    { apply Rmult_le_reg_r with (PI ^ 2); [nra|]. replace (3 * (g2phi 200 ^ 2 + g2phi 30 ^ 2) / PI ^ 2 * PI ^ 2) with (3 * (g2phi 200 ^ 2 + g2phi 30 ^ 2)) by (field; lra). unfold g2phi, g2s. nra. }
    assert (S : 108 / 100 <= sqrt (1 + 3 * (g2phi 200 ^ 2 + g2phi 30 ^ 2) / PI ^ 2)).
    { rewrite <- (sqrt_pow2 (108 / 100)) by lra. apply sqrt_le_1_alt. lra. }
    apply Rle_trans with (/ (108 / 100)); [|lra]. apply Rinv_le_contravar; lra. }
  assert (D : g2mu 1700 - g2mu 1500 = 200 / g2s) by (unfold g2mu; field; pose proof g2s_pos; lra).
  assert (S : 1 <= 200 / g2s) by (unfold g2s; lra). rewrite D, Rabs_pos_eq by lra. nra.
Qed.

(** C94 for Glicko-2: the same result against a stronger opponent is worth at
    least as much up to the tolerance of the volatility iteration, and strictly
    more when the tolerance is small against the difference of the opponents. *)
Theorem C94_stronger_glicko2 : forall fuel r RD s r2 r2' RD2 s2 s2' o t tol p q p' q',
  0 < s -> 0 < s2 -> 0 < s2' -> 0 < t -> t ^ 2 <= 2 -> 0 <= tol -> r2 <= r2' ->
  let e := g2E (g2mu r) (g2mu r2) (g2phi RD2) in
  let e' := g2E (g2mu r) (g2mu r2') (g2phi RD2) in
  (points o - e) ^ 2 / (e * (1 - e)) < 1 + 27 / (2 * t ^ 2) ->
  (points o - e') ^ 2 / (e' * (1 - e')) < 1 + 27 / (2 * t ^ 2) ->
  let game r2 s2 := glicko2 fuel (mkGlicko2 (Fin r) (Fin RD) (Fin s)) (mkGlicko2 (Fin r2) (Fin RD2) (Fin s2)) o
    (mkGlicko2Config (Fin t) (Fin tol)) in
  game r2 s2 = Some (p, q) -> game r2' s2' = Some (p', q') ->
  exists x x', g2_rating p = Fin x /\ g2_rating p' = Fin x' /\
    (r <= x -> r <= x' /\ x - r <= exp (2 * tol) * (x' - r)) /\
    (x' <= r -> x <= r /\ r - x' <= exp (2 * tol) * (r - x)) /\
    (exp (2 * tol) - 1 < (e - e') * Rmin 1 (g2g (g2phi RD2) ^ 2 * g2phi RD ^ 2 * e' * (1 - e)) -> x < x').
Proof. exact C94_glicko2_proof. Qed.
Print Assumptions C94_stronger_glicko2.
(* A win of a player of 1500 against players of 1500 and 1700. *)
Example C94_stronger_glicko2_case : let e := g2E (g2mu 1500) (g2mu 1700) (g2phi 30) in
  (5/10) ^ 2 <= 2 /\ 1500 <= 1700 /\ (points WIN - e) ^ 2 / (e * (1 - e)) < 1 + 27 / (2 * (5/10) ^ 2).
Proof.
  intros e. split; [lra|]. split; [lra|]. pose proof C127_case as [_ H]. fold e in H. cbn [points].
  pose proof (g2E_range (g2mu 1500) (g2mu 1700) (g2phi 30)) as He. fold e in He.
  replace ((1 - e) ^ 2 / (e * (1 - e))) with ((1 - e) / e) by (field; lra). exact H.
Qed.
