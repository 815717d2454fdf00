From Coq Require Import ZArith NArith List Bool Reals Lra Lia Permutation.
From Verif Require Import Arith XR Tac ModelLib ModelElo ModelIngo Spec ProofElo.
Import ListNotations.
Local Open Scope R_scope.

Lemma ingo_D_eval a : ingo_age_to_devcoefficent a = Fin (ingo_D a).
Proof. unfold ingo_age_to_devcoefficent, ingo_D. destruct (a <=? 20)%N, (a <=? 25)%N; reflexivity. Qed.
Lemma ingo_D_range a : 10 <= ingo_D a <= 20.
Proof. unfold ingo_D. destruct (a <=? 20)%N, (a <=? 25)%N; lra. Qed.

Lemma ingo_eval r1 a1 r2 a2 o :
  ingo (mkIngo (Fin r1) a1) (mkIngo (Fin r2) a2) o =
  (mkIngo (Fin (ingo_upd 1 r1 (ingo_D a1) r2 (points o))) a1,
   mkIngo (Fin (ingo_upd 1 r2 (ingo_D a2) r1 (points (invert o)))) a2).
Proof.
  unfold ingo, ingo_performance; cbn [ingo_rating ingo_age]; cbv zeta.
  rewrite !ingo_D_eval, points_eval.
  pose proof (ingo_D_range a1). pose proof (ingo_D_range a2). xr.
  unfold ingo_upd, ingo_perf. rewrite points_invert.
  f_equal; f_equal; f_equal; unfold Rdiv; f_equal; ring.
Qed.

Definition ingo_games (rs : list (R * N * Outcomes)) : list (IngoRating XR * Outcomes) :=
  map (fun g => let '(r, a, o) := g in (mkIngo (Fin r) a, o)) rs.
Definition avg (l : list R) : R := Rsum l / INR (length l).

Lemma ingo_period_eval r a rs : rs <> [] ->
  ingo_rating_period (mkIngo (Fin r) a) (ingo_games rs) =
  mkIngo (Fin (ingo_upd (INR (length rs)) r (ingo_D a)
                 (avg (map (fun g => fst (fst g)) rs)) (avg (map (fun g => points (snd g)) rs)))) a.
Proof.
  intros Hne. unfold ingo_rating_period, ingo_performance; cbn [ingo_rating ingo_age]; cbv zeta.
  unfold ingo_games. rewrite !map_map. unfold flen. rewrite !map_length.
  rewrite (xr_sum_map _ (fun g : R * N * Outcomes => fst (fst g))) by (intros [[? ?] ?] _; reflexivity).
  rewrite (xr_sum_map _ (fun g : R * N * Outcomes => points (snd g))) by
    (intros [[? ?] ?] _; apply points_eval).
  rewrite ingo_D_eval, !xr_ofZ, <- INR_IZR_INZ.
  assert (0 < INR (length rs)) by (apply lt_0_INR; destruct rs; [congruence|cbn; lia]).
  pose proof (ingo_D_range a). xr. unfold ingo_upd, ingo_perf, avg. rewrite !map_length.
  f_equal; f_equal; unfold Rdiv; f_equal; ring.
Qed.

Lemma ingo_upd_between n own D opp s : 0 < n -> 0 < D ->
  Rmin own (ingo_perf opp s) <= ingo_upd n own D opp s <= Rmax own (ingo_perf opp s).
Proof.
  intros Hn HD. unfold ingo_upd. set (p := ingo_perf opp s).
  assert (E : (n * p + own * D) / (n + D) = own + n * (p - own) / (n + D)) by (field; lra).
  assert (E' : (n * p + own * D) / (n + D) = p + D * (own - p) / (n + D)) by (field; lra).
  unfold Rmin, Rmax. destruct (Rle_dec own p).
  - split; [rewrite E|rewrite E'].
    + assert (0 <= n * (p - own) / (n + D)) by (apply Rmult_le_pos; [nra|pos]). lra.
    + assert (0 <= D * (p - own) / (n + D)) by (apply Rmult_le_pos; [nra|pos]).
      replace (D * (own - p) / (n + D)) with (- (D * (p - own) / (n + D))) by (field; lra). lra.
  - split; [rewrite E'|rewrite E].
    + assert (0 <= D * (own - p) / (n + D)) by (apply Rmult_le_pos; [nra|pos]). lra.
    + assert (0 <= n * (own - p) / (n + D)) by (apply Rmult_le_pos; [nra|pos]).
      replace (n * (p - own) / (n + D)) with (- (n * (own - p) / (n + D))) by (field; lra). lra.
Qed.

Lemma C23_proof : forall r1 a1 r2 a2 o,
  ingo (mkIngo (Fin r1) a1) (mkIngo (Fin r2) a2) o =
    (mkIngo (Fin (ingo_upd 1 r1 (ingo_D a1) r2 (points o))) a1,
     mkIngo (Fin (ingo_upd 1 r2 (ingo_D a2) r1 (points (invert o)))) a2) /\
  Rmin r1 (ingo_perf r2 (points o)) <= ingo_upd 1 r1 (ingo_D a1) r2 (points o)
    <= Rmax r1 (ingo_perf r2 (points o)).
Proof.
  intros. split; [apply ingo_eval|]. pose proof (ingo_D_range a1). apply ingo_upd_between; lra.
Qed.

Lemma C24_formula_proof : forall r a rs, rs <> [] ->
  ingo_rating_period (mkIngo (Fin r) a) (ingo_games rs) =
  mkIngo (Fin (ingo_upd (INR (length rs)) r (ingo_D a)
                 (avg (map (fun g => fst (fst g)) rs)) (avg (map (fun g => points (snd g)) rs)))) a.
Proof. exact ingo_period_eval. Qed.

Lemma C24_perm_proof : forall r a rs rs', Permutation rs rs' ->
  ingo_rating_period (mkIngo (Fin r) a) (ingo_games rs) = ingo_rating_period (mkIngo (Fin r) a) (ingo_games rs').
Proof.
  intros r a rs rs' P. destruct rs as [|g rs].
  - apply Permutation_nil in P; now subst.
  - assert (rs' <> []) by (intros ->; apply Permutation_sym, Permutation_nil in P; discriminate).
    rewrite !ingo_period_eval by congruence. unfold avg. rewrite !map_length, (Permutation_length P).
    do 3 f_equal; unfold Rdiv; f_equal; apply Rsum_perm, Permutation_map; auto.
Qed.

Lemma C24_single_proof : forall r a r2 a2 o,
  ingo_rating_period (mkIngo (Fin r) a) [(mkIngo (Fin r2) a2, o)] =
  fst (ingo (mkIngo (Fin r) a) (mkIngo (Fin r2) a2) o).
Proof.
  intros. rewrite ingo_eval. cbn [fst].
  change [(mkIngo (Fin r2) a2, o)] with (ingo_games [(r2, a2, o)]). rewrite ingo_period_eval by congruence.
  unfold avg; cbn [map length fst snd INR]. rewrite !Rsum_cons, Rsum_nil. do 2 f_equal.
  f_equal; field.
Qed.

Lemma C24_empty_refuted_proof : forall r a,
  ingo_rating_period (mkIngo (Fin r) a) [] = mkIngo NaN a.
Proof.
  intros. unfold ingo_rating_period, ingo_performance, fsum, flen; cbn [map length fold_left ingo_rating ingo_age]; cbv zeta.
  replace (fsum0 / #(Z.of_nat 0))%flt with (@NaN) by (cbn; now rewrite !Reqb_true by reflexivity).
  rewrite ingo_D_eval. reflexivity.
Qed.

Lemma C25_partial_proof : forall r1 a1 r2 a2,
  exists e1 e2,
    ingo_expected_score (mkIngo (Fin r1) a1) (mkIngo (Fin r2) a2) = (Fin e1, Fin e2) /\
    e1 + e2 = 1 /\
    ingo_expected_score (mkIngo (Fin r2) a2) (mkIngo (Fin r1) a1) = (Fin e2, Fin e1) /\
    e1 = 1 / 2 + (r2 - r1) / 100 /\
    (Rabs (r1 - r2) <= 50 <-> 0 <= e1 <= 1 /\ 0 <= e2 <= 1).
Proof.
  intros. exists (1 / 2 + (r2 - r1) / 100), (1 / 2 + (r1 - r2) / 100).
  unfold ingo_expected_score; cbn [ingo_rating]; cbv zeta. xr.
  split; [f_equal; f_equal; field|]. split; [field|]. split; [f_equal; f_equal; field|]. split; auto.
  unfold Rabs; destruct (Rcase_abs (r1 - r2)); split; lra.
Qed.

Lemma C25_refuted_proof : exists r1 a1 r2 a2 e1 e2,
  ingo_expected_score (mkIngo (Fin r1) a1) (mkIngo (Fin r2) a2) = (Fin e1, Fin e2) /\ 1 < e1 /\ e2 < 0.
Proof.
  exists 130, 26%N, 230, 26%N, (3 / 2), (- 1 / 2).
  unfold ingo_expected_score; cbn [ingo_rating]; cbv zeta. xr. split; [f_equal; f_equal; field|lra].
Qed.

Lemma C71_proof : forall r1 a1 r2 a2 r1' r2' a1' a2',
  ingo (mkIngo (Fin r1) a1) (mkIngo (Fin r2) a2) WIN = (mkIngo (Fin r1') a1', mkIngo (Fin r2') a2') ->
  (r1' < r1 <-> r2 < r1 + 50) /\ (r1 < r1' <-> r1 + 50 < r2) /\ (r2 < r2' <-> r2 < r1 + 50).
Proof.
  intros *. rewrite ingo_eval. intros [= <- _ <- _].
  pose proof (ingo_D_range a1). pose proof (ingo_D_range a2). unfold ingo_upd, ingo_perf; cbn [points invert].
  replace ((1 * (r2 - (100 * 1 - 50)) + r1 * ingo_D a1) / (1 + ingo_D a1))
    with (r1 + (r2 - r1 - 50) * / (1 + ingo_D a1)) by (field; lra).
  replace ((1 * (r1 - (100 * 0 - 50)) + r2 * ingo_D a2) / (1 + ingo_D a2))
    with (r2 + (r1 + 50 - r2) * / (1 + ingo_D a2)) by (field; lra).
  assert (0 < / (1 + ingo_D a1)) by pos. assert (0 < / (1 + ingo_D a2)) by pos.
  repeat split; intros; nra.
Qed.
