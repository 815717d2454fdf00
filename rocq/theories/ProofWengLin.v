From Coq Require Import ZArith NArith List Bool Reals Lra Lia Permutation.
From Verif Require Import Arith XR Tac ModelLib ModelWengLin Spec SpecIn ProofElo.
Import ListNotations.
Local Open Scope R_scope.

(** ** Real facts *)
Lemma sq2 x : x ^ 2 = x * x. Proof. ring. Qed.
Lemma wlc_pos beta u v : 0 < u -> 0 <= v -> 0 < wlc beta u v.
Proof. intros. unfold wlc. assert (0 <= beta ^ 2) by apply pow2_ge_0. pos. Qed.
Lemma wlc_pos_b beta u v : 0 < beta -> 0 <= u -> 0 <= v -> 0 < wlc beta u v.
Proof. intros. unfold wlc. assert (0 < beta ^ 2) by (apply pow_lt; auto). pos. Qed.
Lemma wlc_sym beta u v : wlc beta u v = wlc beta v u.
Proof. unfold wlc. f_equal. ring. Qed.
Lemma wlp_range a b c : 0 < wlp a b c < 1.
Proof. apply logistic_bounds, exp_pos. Qed.
Lemma wlp_compl a b c : wlp a b c + wlp b a c = 1.
Proof.
  unfold wlp. replace ((a - b) / c) with (- ((b - a) / c)) by (unfold Rdiv; ring). rewrite exp_Ropp.
  pose proof (exp_pos ((b - a) / c)). field. lra.
Qed.
Lemma wlp_self a c : wlp a a c = 1 / 2.
Proof. pose proof (wlp_compl a a c). lra. Qed.
Lemma wlp_lt a a' b c : 0 < c -> a < a' -> wlp a b c < wlp a' b c.
Proof.
  intros Hc H. unfold wlp. pose proof (exp_pos ((b - a') / c)). apply Rinv_lt_mono; [lra|]. apply Rplus_lt_compat_l, exp_increasing.
  unfold Rdiv. apply Rmult_lt_compat_r; [now apply Rinv_0_lt_compat|lra].
Qed.
Lemma wl_s2_nonneg t : 0 <= wl_s2 t.
Proof. apply Rsum_nonneg. intros x Hx. apply in_map_iff in Hx as (p & <- & _). apply pow2_ge_0. Qed.
Lemma wl_s2_pos t : wl_ok t -> 0 < wl_s2 t.
Proof.
  intros [Hn Hf]. apply Rsum_pos; [destruct t; [congruence|discriminate]|].
  intros x Hx. apply in_map_iff in Hx as (p & <- & Hp). apply pow_lt. rewrite Forall_forall in Hf. auto.
Qed.

(** ** Evaluation *)
Lemma wl_p_eval a b c : 0 < c -> wl_p_value (Fin a) (Fin b) (Fin c) = (Fin (wlp a b c), Fin (wlp b a c)).
Proof.
  intros Hc. unfold wl_p_value. cbv zeta. pose proof (exp_pos (a / c)). pose proof (exp_pos (b / c)). xr.
  assert (E : exp (a / c) / (exp (a / c) + exp (b / c)) = wlp a b c).
  { unfold wlp. replace ((b - a) / c) with (b / c - a / c) by (unfold Rdiv; ring). unfold Rminus. rewrite exp_plus, exp_Ropp. field. lra. }
  rewrite E. f_equal. f_equal. pose proof (wlp_compl a b c). lra.
Qed.
Lemma wl_c_teams_eval beta u v : 0 <= u -> 0 <= v -> wl_c_teams (Fin beta) (Fin u) (Fin v) = Fin (wlc beta u v).
Proof.
  intros. unfold wl_c_teams, wlc. assert (0 <= beta * beta) by apply Rle_0_sqr. xr. f_equal. f_equal. ring.
Qed.
Lemma wl_c_players_eval beta u v : wl_c_players (Fin beta) (Fin u) (Fin v) = Fin (wlc beta (u ^ 2) (v ^ 2)).
Proof.
  unfold wl_c_players, wlc. assert (0 <= beta * beta) by apply Rle_0_sqr. assert (0 <= u * u) by apply Rle_0_sqr.
  assert (0 <= v * v) by apply Rle_0_sqr. xr. f_equal. f_equal. ring.
Qed.
Lemma wl_theta_eval t : wl_team_rating (wlt_in t) = Fin (wl_theta t).
Proof. unfold wl_team_rating, wl_theta, wlt_in. rewrite map_map. apply xr_sum_map. reflexivity. Qed.
Lemma wl_s2_eval t : wl_team_uncertainty_sq (wlt_in t) = Fin (wl_s2 t).
Proof.
  unfold wl_team_uncertainty_sq, wl_s2, wlt_in. rewrite map_map. apply xr_sum_map.
  intros p _. cbn [wl_in wl_uncertainty]. rewrite xr_powi2, sq2. reflexivity.
Qed.
Lemma wl_delta_eval beta th1 u1 th2 u2 s : 0 < u1 -> 0 <= u2 ->
  wl_small_delta (Fin u1) (Fin (wlc beta u1 u2)) (Fin (wlp th1 th2 (wlc beta u1 u2))) (Fin s) = Fin (wls_delta beta th1 u1 th2 u2 s).
Proof.
  intros. unfold wl_small_delta, wls_delta. pose proof (wlc_pos beta u1 u2 ltac:(lra) ltac:(lra)). cbv zeta. xr. reflexivity.
Qed.
Lemma wl_eta_eval beta th1 u1 th2 u2 : 0 < u1 -> 0 <= u2 ->
  let c := wlc beta u1 u2 in
  wl_eta (Fin u1) (Fin c) (Fin (wlp th1 th2 c)) (wl_gamma (Fin u1) (Fin c)) = Fin (wls_eta beta th1 u1 th2 u2).
Proof.
  intros H1 H2 c. unfold wl_eta, wl_gamma, wls_eta. fold c. cbv zeta.
  pose proof (wlc_pos beta u1 u2 ltac:(lra) ltac:(lra)) as Hc. fold c in Hc.
  rewrite xr_powi2. xr. f_equal. replace (wlp th2 th1 c) with (1 - wlp th1 th2 c) by (pose proof (wlp_compl th1 th2 c); lra).
  rewrite <- (sqrt_sqrt u1) at 2 by lra. field. lra.
Qed.
Lemma wl_new_sigma_eval sig x kappa : 0 <= kappa -> 0 <= sig ->
  fsqrt (Fin (sig * sig) * fmax (Fin x) (Fin kappa))%flt = Fin (sig * sqrt (Rmax x kappa)).
Proof.
  intros Hk Hs. assert (0 <= Rmax x kappa) by (apply Rle_trans with kappa; [auto|apply Rmax_r]).
  rewrite xr_max, xr_mul, xr_sqrt by (assert (0 <= sig * sig) by apply Rle_0_sqr; nra).
  rewrite sqrt_mult by (auto; apply Rle_0_sqr). rewrite sqrt_square by auto. reflexivity.
Qed.
Lemma wl_update_eval beta kappa t Omega Delta : 0 <= kappa -> wl_ok t ->
  wl_update_team (mkWLConfig beta (Fin kappa)) (Fin (wl_s2 t)) (Fin Omega) (Fin Delta) (wlt_in t) =
  wlt_in (map (wl_player kappa (wl_s2 t) Omega Delta) t).
Proof.
  intros Hk Hok. pose proof (wl_s2_pos t Hok) as Hu. destruct Hok as [_ Hf]. unfold wl_update_team, wlt_in. rewrite !map_map.
  apply map_ext_in. intros p Hp. rewrite Forall_forall in Hf. specialize (Hf p Hp).
  unfold wl_in, wl_player. cbn [wl_rating wl_uncertainty fst snd wl_uncertainty_tolerance]. cbv zeta.
  unfold wl_new_rating_teams, wl_new_uncertainty_teams. cbv zeta. rewrite !sq2.
  set (u := wl_s2 t) in *. rewrite (xr_ofZ 1). rewrite !xr_powi2, !xr_div, xr_neg, !xr_fma, wl_new_sigma_eval by lra.
  f_equal; f_equal; [ring|]. f_equal. f_equal. f_equal. ring.
Qed.

(** ** 1v1 *)
Lemma wl_single_s2 p : wl_s2 [p] = snd p ^ 2.
Proof. unfold wl_s2. cbn [map]. rewrite Rsum_cons, Rsum_nil. ring. Qed.
Lemma wl_single_theta p : wl_theta [p] = fst p.
Proof. unfold wl_theta. cbn [map]. rewrite Rsum_cons, Rsum_nil. ring. Qed.

Lemma wl_1v1_eval m1 s1 m2 s2 o beta kappa : 0 < s1 -> 0 < s2 -> 0 <= kappa ->
  weng_lin (wl_in (m1, s1)) (wl_in (m2, s2)) o (mkWLConfig (Fin beta) (Fin kappa)) =
  let c := wlc beta (s1 ^ 2) (s2 ^ 2) in
  (wl_in (m1 + s1 ^ 2 / c * (points o - wlp m1 m2 c), s1 * sqrt (Rmax (1 - (s1 / c) ^ 3 * wlp m1 m2 c * wlp m2 m1 c) kappa)),
   wl_in (m2 + s2 ^ 2 / c * (points (invert o) - wlp m2 m1 c), s2 * sqrt (Rmax (1 - (s2 / c) ^ 3 * wlp m2 m1 c * wlp m1 m2 c) kappa))).
Proof.
  intros H1 H2 Hk. cbv zeta. unfold weng_lin. cbn [wl_in fst snd wl_rating wl_uncertainty wl_beta wl_uncertainty_tolerance].
  rewrite wl_c_players_eval. set (c := wlc beta (s1 ^ 2) (s2 ^ 2)).
  assert (Hc : 0 < c) by (apply wlc_pos; [apply pow_lt; auto|apply pow2_ge_0]).
  rewrite wl_p_eval by auto. rewrite points_eval.
  replace (#1 - Fin (points o))%flt with (Fin (points (invert o))) by (rewrite xr_ofZ, xr_sub; destruct o; cbn [points invert]; f_equal; lra).
  assert (K : forall m s p q out, 0 < s -> p + q = 1 ->
    mkWL (wl_new_rating (Fin m) (Fin s) (Fin c) (Fin p) (Fin out)) (wl_new_uncertainty (Fin s) (Fin c) (Fin p) (Fin kappa)) =
    wl_in (m + s ^ 2 / c * (out - p), s * sqrt (Rmax (1 - (s / c) ^ 3 * p * q) kappa))).
  { intros m s p q out Hs Hpq. unfold wl_new_rating, wl_new_uncertainty, wl_in. cbv zeta. cbn [fst snd].
    rewrite (xr_ofZ 1). rewrite !xr_powi2, !xr_div by lra. rewrite xr_powi3, !xr_sub, xr_fma, !xr_mul, xr_sub.
    rewrite wl_new_sigma_eval by lra. replace q with (1 - p) by lra. f_equal; f_equal; [field; lra|].
    f_equal. f_equal. f_equal. ring. }
  rewrite (K m1 s1 _ (wlp m2 m1 c)), (K m2 s2 _ (wlp m1 m2 c)); auto using wlp_compl.
Qed.

Lemma wl_player_range kappa x s : 0 < s -> 0 < kappa <= 1 -> 0 <= x ->
  s * sqrt kappa <= s * sqrt (Rmax (1 - x) kappa) <= s /\ 0 < s * sqrt (Rmax (1 - x) kappa).
Proof.
  intros Hs Hk Hx. assert (B : kappa <= Rmax (1 - x) kappa <= 1) by (split; [apply Rmax_r|apply Rmax_lub; lra]).
  assert (S1 : sqrt kappa <= sqrt (Rmax (1 - x) kappa)) by (apply sqrt_le_1_alt; lra).
  assert (S2 : sqrt (Rmax (1 - x) kappa) <= 1) by (rewrite <- sqrt_1 at 2; apply sqrt_le_1_alt; lra).
  assert (S3 : 0 < sqrt kappa) by (apply sqrt_lt_R0; lra).
  split; [split; nra|nra].
Qed.

Lemma C42_proof : forall m1 s1 m2 s2 o beta kappa, 0 < s1 -> 0 < s2 -> 0 < kappa <= 1 ->
  let c := sqrt (s1 ^ 2 + s2 ^ 2 + 2 * beta ^ 2) in
  let p1 := / (1 + exp ((m2 - m1) / c)) in
  let p2 := / (1 + exp ((m1 - m2) / c)) in
  exists m1' s1' m2' s2',
    weng_lin (mkWL (Fin m1) (Fin s1)) (mkWL (Fin m2) (Fin s2)) o (mkWLConfig (Fin beta) (Fin kappa)) =
      (mkWL (Fin m1') (Fin s1'), mkWL (Fin m2') (Fin s2')) /\
    m1' = m1 + s1 ^ 2 / c * (points o - p1) /\ m2' = m2 + s2 ^ 2 / c * (points (invert o) - p2) /\
    s1' = s1 * sqrt (Rmax (1 - (s1 / c) ^ 3 * p1 * p2) kappa) /\
    s2' = s2 * sqrt (Rmax (1 - (s2 / c) ^ 3 * p2 * p1) kappa) /\
    0 < s1' <= s1 /\ 0 < s2' <= s2 /\ s1 * sqrt kappa <= s1' /\ s2 * sqrt kappa <= s2' /\
    (m1' - m1) / s1 ^ 2 = - ((m2' - m2) / s2 ^ 2) /\
    (o = WIN -> m1 < m1' /\ m2' < m2) /\ (o = LOSS -> m1' < m1 /\ m2 < m2').
Proof.
  intros m1 s1 m2 s2 o beta kappa H1 H2 Hk c p1 p2.
  pose proof (wl_1v1_eval m1 s1 m2 s2 o beta kappa H1 H2 ltac:(lra)) as E. cbv zeta in E.
  fold (wlc beta (s1 ^ 2) (s2 ^ 2)) in c. fold c in E. fold (wlp m1 m2 c) in p1. fold (wlp m2 m1 c) in p2. fold p1 p2 in E.
  unfold wl_in in E. cbn [fst snd] in E. do 4 eexists. split; [exact E|].
  do 4 (split; [reflexivity|]).
  assert (Hc : 0 < c) by (apply wlc_pos; [apply pow_lt; auto|apply pow2_ge_0]).
  pose proof (wlp_range m1 m2 c) as P1. pose proof (wlp_range m2 m1 c) as P2. pose proof (wlp_compl m1 m2 c) as PC. fold p1 p2 in P1, P2, PC.
  assert (X : forall s p q, 0 < s -> 0 < p -> 0 < q -> 0 <= (s / c) ^ 3 * p * q).
  { intros. assert (0 < s / c) by (apply Rdiv_lt_0_compat; auto). apply Rlt_le. pos. }
  pose proof (wl_player_range kappa _ s1 H1 Hk (X s1 p1 p2 H1 ltac:(lra) ltac:(lra))) as [[a1 a2] a3].
  pose proof (wl_player_range kappa _ s2 H2 Hk (X s2 p2 p1 H2 ltac:(lra) ltac:(lra))) as [[b1 b2] b3].
  split; [lra|]. split; [lra|]. split; [lra|]. split; [lra|]. split.
  - replace (points (invert o)) with (1 - points o) by (destruct o; cbn [points invert]; lra). replace p2 with (1 - p1) by lra. field. lra.
  - assert (Q1 : 0 < s1 ^ 2 / c) by (apply Rdiv_lt_0_compat; [apply pow_lt|]; auto).
    assert (Q2 : 0 < s2 ^ 2 / c) by (apply Rdiv_lt_0_compat; [apply pow_lt|]; auto).
    split; intros ->; cbn [points invert]; split; nra.
Qed.

(** ** Two teams *)
Lemma is_empty_wlt t : is_empty (wlt_in t) = is_empty t.
Proof. destruct t; reflexivity. Qed.
Lemma is_empty_ok t : wl_ok t -> is_empty t = false.
Proof. intros [H _]. destruct t; [congruence|reflexivity]. Qed.
Definition rank_outcome (r1 r2 : N) : Outcomes := match N.compare r1 r2 with Lt => WIN | Eq => DRAW | Gt => LOSS end.

(* Opponent given as a team with a rank; [points o] replaces the rank score. *)
Definition wl_side (beta kappa : R) (t t' : list (R * R)) (s : R) : list (R * R) :=
  map (wl_player kappa (wl_s2 t) (wls_delta beta (wl_theta t) (wl_s2 t) (wl_theta t') (wl_s2 t') s)
         (wls_eta beta (wl_theta t) (wl_s2 t) (wl_theta t') (wl_s2 t'))) t.

Lemma wl_two_teams_eval t1 t2 o beta kappa : 0 <= kappa -> wl_ok t1 -> wl_ok t2 ->
  weng_lin_two_teams (wlt_in t1) (wlt_in t2) o (mkWLConfig (Fin beta) (Fin kappa)) =
  (wlt_in (wl_side beta kappa t1 t2 (points o)), wlt_in (wl_side beta kappa t2 t1 (points (invert o)))).
Proof.
  intros Hk O1 O2. unfold weng_lin_two_teams. rewrite !is_empty_wlt, !is_empty_ok by auto. cbn [orb]. cbv zeta.
  rewrite !wl_theta_eval, !wl_s2_eval. pose proof (wl_s2_pos t1 O1) as U1. pose proof (wl_s2_pos t2 O2) as U2.
  change (wl_beta (mkWLConfig (Fin beta) (Fin kappa))) with (Fin beta).
  rewrite wl_c_teams_eval by lra. rewrite wl_p_eval by (apply wlc_pos; lra). rewrite points_eval.
  replace (#1 - Fin (points o))%flt with (Fin (points (invert o))) by (rewrite xr_ofZ, xr_sub; destruct o; cbn [points invert]; f_equal; lra).
  rewrite wl_delta_eval, wl_eta_eval by lra. rewrite (wlc_sym beta (wl_s2 t1)). rewrite wl_delta_eval, wl_eta_eval by lra.
  rewrite !wl_update_eval by auto. reflexivity.
Qed.

(** ** Many teams *)
Definition wlx := (list (R * R) * N)%type.
Definition xdelta (beta : R) (x y : wlx) : R :=
  wls_delta beta (wl_theta (fst x)) (wl_s2 (fst x)) (wl_theta (fst y)) (wl_s2 (fst y)) (rank_score (snd x) (snd y)).
Definition xeta (beta : R) (x y : wlx) : R :=
  wls_eta beta (wl_theta (fst x)) (wl_s2 (fst x)) (wl_theta (fst y)) (wl_s2 (fst y)).
Fixpoint skip {X} (i k : nat) (l : list X) : list X :=
  match l with [] => [] | x :: l' => if Nat.eqb i k then skip i (S k) l' else x :: skip i (S k) l' end.
Lemma skip_lt {X} i k (l : list X) : (i < k)%nat -> skip i k l = l.
Proof.
  revert k. induction l as [|x l IH]; intros k H; auto. cbn [skip]. destruct (Nat.eqb_spec i k); [lia|]. rewrite IH by lia. reflexivity.
Qed.
Lemma skip_split {X} i k (pre : list X) x post : i = (k + length pre)%nat -> skip i k (pre ++ x :: post) = pre ++ post.
Proof.
  revert k. induction pre as [|y pre IH]; intros k H; cbn [app skip length] in *.
  - destruct (Nat.eqb_spec i k); [|lia]. apply skip_lt. lia.
  - destruct (Nat.eqb_spec i k); [lia|]. rewrite IH by lia. reflexivity.
Qed.

Definition xinfo (y : wlx) : XR * XR * MultiTeamOutcome := (Fin (wl_theta (fst y)), Fin (wl_s2 (fst y)), mkMTO (snd y)).
Lemma wl_info_eval y : wl_info (wlr_in y) = xinfo y.
Proof. unfold wl_info, wlr_in, xinfo. cbn [fst snd]. rewrite wl_theta_eval, wl_s2_eval. reflexivity. Qed.
Lemma rank_score_eval r r' : wl_rank_score (mkMTO r') (mkMTO r) = Fin (rank_score r r').
Proof.
  unfold wl_rank_score, rank_score, mto_cmp. cbn [mto_rank_field]. rewrite N.compare_antisym.
  destruct (N.compare r r'); cbn [CompOpp]; rewrite ?xr_ofZ, ?xr_lit; f_equal; lra.
Qed.
Lemma wl_inner_eval beta kappa i (x : wlx) (L : list wlx) : wl_ok (fst x) ->
  wl_inner (mkWLConfig (Fin beta) (Fin kappa)) i (Fin (wl_theta (fst x))) (Fin (wl_s2 (fst x))) (mkMTO (snd x))
    (enumerate (map xinfo L)) =
  (Fin (Rsum (map (xdelta beta x) (skip i 0 L))), Fin (Rsum (map (xeta beta x) (skip i 0 L)))).
Proof.
  intros Hx. unfold wl_inner, enumerate. rewrite map_length.
  match goal with |- fold_left ?G _ _ = _ => set (g := G) end.
  assert (K : forall L k a b, fold_left g (combine (seq k (length L)) (map xinfo L)) (Fin a, Fin b) =
     (Fin (a + Rsum (map (xdelta beta x) (skip i k L))), Fin (b + Rsum (map (xeta beta x) (skip i k L))))).
  { clear L. induction L as [|y L IH]; intros k a b; cbn [length seq map combine fold_left skip].
    - rewrite !Rsum_nil, !Rplus_0_r. reflexivity.
    - destruct (Nat.eqb_spec i k) as [e|e].
      + assert (G : g (Fin a, Fin b) (k, xinfo y) = (Fin a, Fin b)).
        { unfold g, xinfo. rewrite (proj2 (Nat.eqb_eq i k) e). reflexivity. }
        rewrite G. apply IH.
      + assert (G : g (Fin a, Fin b) (k, xinfo y) = (Fin (a + xdelta beta x y), Fin (b + xeta beta x y))).
        { pose proof (wl_s2_pos _ Hx) as U. pose proof (wl_s2_nonneg (fst y)) as V.
          unfold g, xinfo. rewrite (proj2 (Nat.eqb_neq i k) e).
          cbn [wl_beta]. rewrite wl_c_teams_eval by lra. rewrite wl_p_eval by (apply wlc_pos; lra).
          rewrite rank_score_eval, wl_delta_eval, wl_eta_eval, !xr_add by lra. reflexivity. }
        rewrite G.
        rewrite IH. cbn [map]. rewrite !Rsum_cons. fold (xdelta beta x y) (xeta beta x y).
        f_equal; f_equal; ring. }
  rewrite (xr_ofZ 0). rewrite K. f_equal; f_equal; ring.
Qed.

Definition wl_outx (beta kappa : R) (xs : list wlx) (x : wlx) : list (R * R) :=
  map (wl_player kappa (wl_s2 (fst x)) (Rsum (map (xdelta beta x) xs) - xdelta beta x x)
         (Rsum (map (xeta beta x) xs) - xeta beta x x)) (fst x).
Lemma existsb_empty (xs : list wlx) : Forall (fun x => wl_ok (fst x)) xs ->
  existsb (fun t => is_empty (fst t)) (map wlr_in xs) = false.
Proof.
  induction 1 as [|x xs Hx _ IH]; auto. cbn [map existsb]. rewrite IH. cbn [wlr_in fst]. rewrite is_empty_wlt, is_empty_ok by auto. reflexivity.
Qed.
Lemma wl_multi_eval beta kappa (xs : list wlx) : 0 <= kappa -> Forall (fun x => wl_ok (fst x)) xs ->
  weng_lin_multi_team (map wlr_in xs) (mkWLConfig (Fin beta) (Fin kappa)) =
  map (fun x => wlt_in (wl_outx beta kappa xs x)) xs.
Proof.
  intros Hk HF. unfold weng_lin_multi_team. destruct xs as [|x0 xs0]; [reflexivity|].
  replace (is_empty (map wlr_in (x0 :: xs0))) with false by reflexivity. set (xs := x0 :: xs0) in *. clearbody xs. clear x0 xs0.
  rewrite existsb_empty by auto. cbv zeta.
  rewrite map_map. rewrite (map_ext (fun x => wl_info (wlr_in x)) xinfo) by (intros; apply wl_info_eval).
  unfold enumerate at 2. rewrite map_length.
  assert (K : forall suf pre, xs = pre ++ suf ->
    map (fun x : nat * (list (WengLinRating XR) * MultiTeamOutcome) =>
        let '(i, (team_one, rank_one)) := x in
        let '(rating_i, usq_i, _) := wl_info (team_one, rank_one) in
        let '(omega, large_delta) := wl_inner (mkWLConfig (Fin beta) (Fin kappa)) i rating_i usq_i rank_one (enumerate (map xinfo xs)) in
        wl_update_team (mkWLConfig (Fin beta) (Fin kappa)) usq_i omega large_delta team_one) (combine (seq (length pre) (length suf)) (map wlr_in suf)) =
    map (fun x => wlt_in (wl_outx beta kappa xs x)) suf).
  { induction suf as [|x suf IH]; intros pre E; [reflexivity|]. cbn [length seq map combine].
    assert (Hx : wl_ok (fst x)). { rewrite Forall_forall in HF. apply HF. rewrite E. apply in_elt. }
    f_equal.
    - unfold wlr_in at 1. change (wlt_in (fst x), mkMTO (snd x)) with (wlr_in x). rewrite wl_info_eval. unfold xinfo at 1.
      rewrite wl_inner_eval by auto. rewrite wl_update_eval by auto. f_equal. unfold wl_outx.
      rewrite E at 1 2. rewrite !(skip_split (length pre) 0 pre x suf) by lia.
      rewrite E, !map_app, !Rsum_app. cbn [map]. rewrite !Rsum_cons. apply map_ext. intros p. f_equal; ring.
    - specialize (IH (pre ++ [x])). rewrite app_length in IH. cbn [length] in IH. rewrite Nat.add_1_r in IH. apply IH.
      rewrite <- app_assoc. exact E. }
  apply (K xs []). reflexivity.
Qed.

Lemma wl_outx_split beta kappa pre t r post :
  wl_outx beta kappa (pre ++ (t, r) :: post) (t, r) = wl_team' beta kappa t r (pre ++ post).
Proof.
  unfold wl_outx, wl_team'. cbv zeta. rewrite !map_app, !Rsum_app. cbn [map]. rewrite !Rsum_cons. cbn [fst].
  assert (E1 : forall l, map (fun '(t', r') => wls_delta beta (wl_theta t) (wl_s2 t) (wl_theta t') (wl_s2 t') (rank_score r r')) l = map (xdelta beta (t, r)) l)
    by (intros; apply map_ext; intros [t' r']; reflexivity).
  assert (E2 : forall l : list wlx, map (fun '(t', r') => wls_eta beta (wl_theta t) (wl_s2 t) (wl_theta t') (wl_s2 t')) l = map (xeta beta (t, r)) l)
    by (intros; apply map_ext; intros [t' r']; reflexivity).
  rewrite !E1, !E2. apply map_ext. intros p. unfold wlx in *. match goal with |- wl_player _ _ ?a ?b _ = wl_player _ _ ?c ?d _ => replace c with a by ring; replace d with b by ring; reflexivity end.
Qed.

Lemma C46_formula_proof : forall beta kappa pre t r post, 0 <= kappa ->
  Forall (fun x => wl_ok (fst x)) (pre ++ (t, r) :: post) ->
  nth_error (weng_lin_multi_team (map wlr_in (pre ++ (t, r) :: post)) (mkWLConfig (Fin beta) (Fin kappa))) (length pre) =
  Some (wlt_in (wl_team' beta kappa t r (pre ++ post))).
Proof.
  intros. rewrite wl_multi_eval by auto. rewrite nth_error_map, nth_error_app2, Nat.sub_diag by lia. cbn [nth_error option_map].
  rewrite wl_outx_split. reflexivity.
Qed.

Lemma combine_map_self {X Y} (f : X -> Y) l : combine l (map f l) = map (fun x => (x, f x)) l.
Proof. induction l as [|x l IH]; cbn; [reflexivity|]. now rewrite IH. Qed.
Lemma C44_perm_proof : forall beta kappa xs ys, 0 <= kappa -> Forall (fun x => wl_ok (fst x)) xs -> Permutation xs ys ->
  Permutation (combine xs (weng_lin_multi_team (map wlr_in xs) (mkWLConfig (Fin beta) (Fin kappa))))
              (combine ys (weng_lin_multi_team (map wlr_in ys) (mkWLConfig (Fin beta) (Fin kappa)))).
Proof.
  intros beta kappa xs ys Hk HF HP. assert (HF' : Forall (fun x => wl_ok (fst x)) ys).
  { rewrite Forall_forall in *. intros x Hx. apply HF. apply Permutation_sym in HP. eapply Permutation_in; eauto. }
  rewrite !wl_multi_eval by auto. rewrite !combine_map_self.
  rewrite (map_ext (fun x => (x, wlt_in (wl_outx beta kappa ys x))) (fun x => (x, wlt_in (wl_outx beta kappa xs x)))).
  - now apply Permutation_map.
  - intros x. unfold wl_outx. rewrite (Rsum_perm _ _ (Permutation_map (xdelta beta x) HP)), (Rsum_perm _ _ (Permutation_map (xeta beta x) HP)). reflexivity.
Qed.

Lemma combine_map_r {X Y Z} (f : Y -> Z) (l : list X) l' : combine l (map f l') = map (fun p => (fst p, f (snd p))) (combine l l').
Proof. revert l'. induction l as [|x l IH]; intros [|y l']; cbn; auto. now rewrite IH. Qed.
Lemma map_snd_enumerate {X} (l : list X) : map snd (enumerate l) = l.
Proof.
  unfold enumerate. generalize 0%nat. induction l as [|x l IH]; intros k; cbn; auto. now rewrite IH.
Qed.

Lemma C44_shape_proof : forall (F : Type) (A : Arith F) (ts : list (list (WengLinRating F) * MultiTeamOutcome)) c,
  map (@length _) (weng_lin_multi_team ts c) = map (fun t => length (fst t)) ts.
Proof.
  intros F A ts c. unfold weng_lin_multi_team. destruct ts as [|t0 ts0]; [reflexivity|]. set (ts := t0 :: ts0).
  change (is_empty ts) with false. cbv iota. destruct (existsb _ ts).
  - rewrite map_map. reflexivity.
  - cbv zeta. rewrite map_map.
    transitivity (map (fun x => length (fst (snd x))) (enumerate ts)).
    + apply map_ext. intros [i [t r]]. destruct (wl_info (t, r)) as [[a b] d]. destruct (wl_inner _ _ _ _ _ _).
      unfold wl_update_team. rewrite map_length. reflexivity.
    + rewrite <- (map_map snd (fun t => length (fst t))), map_snd_enumerate. reflexivity.
Qed.
Lemma C44_shape_two_proof : forall (F : Type) (A : Arith F) (t1 t2 : list (WengLinRating F)) o c,
  length (fst (weng_lin_two_teams t1 t2 o c)) = length t1 /\ length (snd (weng_lin_two_teams t1 t2 o c)) = length t2.
Proof.
  intros. unfold weng_lin_two_teams. destruct (_ || _); [split; reflexivity|]. cbv zeta. destruct (wl_p_value _ _ _).
  cbn [fst snd]. unfold wl_update_team. rewrite !map_length. auto.
Qed.
Lemma C44_empty_proof : forall (F : Type) (A : Arith F) (ts : list (list (WengLinRating F) * MultiTeamOutcome)) t1 t2 o c,
  (ts = [] \/ (exists r, In ([], r) ts) -> weng_lin_multi_team ts c = map fst ts) /\
  (t1 = [] \/ t2 = [] -> weng_lin_two_teams t1 t2 o c = (t1, t2)).
Proof.
  intros. split.
  - intros [-> | (r & H)]; [reflexivity|]. unfold weng_lin_multi_team. destruct ts as [|t0 ts0]; [destruct H|].
    set (ts := t0 :: ts0) in *. change (is_empty ts) with false. cbv iota.
    replace (existsb _ ts) with true; [reflexivity|]. symmetry. apply existsb_exists. exists ([], r). auto.
  - intros [-> | ->]; [reflexivity|]. unfold weng_lin_two_teams. destruct t1; reflexivity.
Qed.

Lemma enumerate_map {X Y} (f : X -> Y) l : enumerate (map f l) = map (fun p => (fst p, f (snd p))) (enumerate l).
Proof. unfold enumerate. rewrite map_length. apply combine_map_r. Qed.
Lemma fold_left_map {X Y Z} (f : Z -> Y -> Z) (g : X -> Y) l a : fold_left f (map g l) a = fold_left (fun z x => f z (g x)) l a.
Proof. revert a. induction l as [|x l IH]; intros a; cbn; auto. Qed.

(** Only the order of the ranks matters. *)
Lemma C44_ranks_proof : forall (F : Type) (A : Arith F) (g : N -> N) (ts : list (list (WengLinRating F) * N)) c,
  (forall a b, In a (map snd ts) -> In b (map snd ts) -> N.compare (g a) (g b) = N.compare a b) ->
  weng_lin_multi_team (map (fun t => (fst t, mkMTO (g (snd t)))) ts) c =
  weng_lin_multi_team (map (fun t => (fst t, mkMTO (snd t))) ts) c.
Proof.
  intros F A g ts c Hg. unfold weng_lin_multi_team. destruct ts as [|t0 ts0]; [reflexivity|]. set (ts := t0 :: ts0) in *.
  change (is_empty (map (fun t => (fst t, mkMTO (g (snd t)))) ts)) with false.
  change (is_empty (map (fun t => (fst t, mkMTO (snd t))) ts)) with false. cbv iota. clearbody ts. clear t0 ts0.
  assert (E1 : existsb (fun t => is_empty (fst t)) (map (fun t : list (WengLinRating F) * N => (fst t, mkMTO (g (snd t)))) ts) =
               existsb (fun t => is_empty (fst t)) (map (fun t : list (WengLinRating F) * N => (fst t, mkMTO (snd t))) ts)).
  { clear Hg. induction ts as [|t ts IH]; cbn; auto. now rewrite IH. }
  rewrite E1. clear E1. destruct (existsb _ (map (fun t : list (WengLinRating F) * N => (fst t, mkMTO (snd t))) ts)); [rewrite !map_map; reflexivity|]. cbv zeta.
  rewrite !map_map, !enumerate_map, !map_map. apply map_ext_in. intros [i [t r]] Hin.
  cbn [fst snd]. unfold wl_info at 1 3. cbn [fst snd].
  assert (Hr : In r (map snd ts)).
  { apply in_map_iff. exists (t, r). split; auto. unfold enumerate in Hin. eapply in_combine_r; eauto. }
  assert (E : forall L, (forall x, In x L -> In (snd (snd x)) (map snd ts)) ->
    wl_inner c i (wl_team_rating t) (wl_team_uncertainty_sq t) (mkMTO (g r))
      (map (fun p : nat * (list (WengLinRating F) * N) => (fst p, wl_info (fst (snd p), mkMTO (g (snd (snd p)))))) L) =
    wl_inner c i (wl_team_rating t) (wl_team_uncertainty_sq t) (mkMTO r)
      (map (fun p : nat * (list (WengLinRating F) * N) => (fst p, wl_info (fst (snd p), mkMTO (snd (snd p))))) L)).
  { intros L HL. unfold wl_inner. rewrite !fold_left_map. generalize (@fofZ F A 0, @fofZ F A 0).
    induction L as [|[q [t' r']] L IH]; intros [om de]; cbn [fold_left]; auto.
    unfold wl_info at 2 4. cbn [fst snd].
    assert (R : wl_rank_score (mkMTO (g r')) (mkMTO (g r)) = @wl_rank_score F A (mkMTO r') (mkMTO r)).
    { unfold wl_rank_score, mto_cmp. cbn [mto_rank_field]. rewrite Hg; auto. apply (HL (q, (t', r'))). now left. }
    rewrite R. apply IH. intros x Hx. apply HL. now right. }
  rewrite E; [reflexivity|]. intros [q [t' r']] Hx. cbn. apply in_map_iff. exists (t', r'). split; auto.
  unfold enumerate in Hx. eapply in_combine_r; eauto.
Qed.

(** ** Agreement of the functions *)
Lemma wl_ok_single m s : 0 < s -> wl_ok [(m, s)].
Proof. intros. split; [discriminate|]. constructor; auto. Qed.
Lemma wl_side_single beta kappa m1 s1 m2 s2 sc : 0 < s1 -> 0 < s2 ->
  let c := wlc beta (s1 ^ 2) (s2 ^ 2) in
  wl_side beta kappa [(m1, s1)] [(m2, s2)] sc =
  [(m1 + s1 ^ 2 / c * (sc - wlp m1 m2 c), s1 * sqrt (Rmax (1 - (s1 / c) ^ 3 * wlp m1 m2 c * wlp m2 m1 c) kappa))].
Proof.
  intros H1 H2 c. unfold wl_side. rewrite !wl_single_s2, !wl_single_theta. cbn [map fst snd]. unfold wl_player, wls_delta, wls_eta. cbn [fst snd].
  fold c. cbv zeta. assert (Hc : 0 < c) by (apply wlc_pos; [apply pow_lt; auto|apply pow2_ge_0]).
  rewrite sqrt_pow2 by lra. f_equal. f_equal; [field; lra|]. f_equal. f_equal. f_equal. field. lra.
Qed.
Lemma C43_single_proof : forall m1 s1 m2 s2 o beta kappa, 0 < s1 -> 0 < s2 -> 0 <= kappa ->
  let cfg := mkWLConfig (Fin beta) (Fin kappa) in
  let p := mkWL (Fin m1) (Fin s1) in let q := mkWL (Fin m2) (Fin s2) in
  weng_lin_two_teams [p] [q] o cfg = ([fst (weng_lin p q o cfg)], [snd (weng_lin p q o cfg)]).
Proof.
  intros m1 s1 m2 s2 o beta kappa H1 H2 Hk cfg p q. unfold cfg, p, q.
  pose proof (wl_two_teams_eval [(m1, s1)] [(m2, s2)] o beta kappa Hk (wl_ok_single m1 s1 H1) (wl_ok_single m2 s2 H2)) as E.
  unfold wlt_in at 1 2 in E. cbn [map wl_in fst snd] in E. unfold wl_in at 1 2 in E. cbn [fst snd] in E. rewrite E.
  pose proof (wl_1v1_eval m1 s1 m2 s2 o beta kappa H1 H2 Hk) as E1. unfold wl_in at 1 2 in E1. cbn [fst snd] in E1. rewrite E1.
  rewrite !wl_side_single by auto. cbv zeta. cbn [fst snd]. rewrite (wlc_sym beta (s2 ^ 2)). reflexivity.
Qed.
Lemma C43_multi_proof : forall t1 t2 r1 r2 beta kappa, wl_ok t1 -> wl_ok t2 -> 0 <= kappa ->
  let cfg := mkWLConfig (Fin beta) (Fin kappa) in
  let o := match N.compare r1 r2 with Lt => WIN | Eq => DRAW | Gt => LOSS end in
  let '(t1', t2') := weng_lin_two_teams (wlt_in t1) (wlt_in t2) o cfg in
  weng_lin_multi_team [(wlt_in t1, mto_new r1); (wlt_in t2, mto_new r2)] cfg = [t1'; t2'].
Proof.
  intros t1 t2 r1 r2 beta kappa O1 O2 Hk cfg o. unfold cfg. rewrite wl_two_teams_eval by auto.
  change [(wlt_in t1, mto_new r1); (wlt_in t2, mto_new r2)] with (map wlr_in [(t1, r1); (t2, r2)]).
  rewrite wl_multi_eval by auto. cbn [map]. unfold wl_outx, wl_side. cbn [map fst]. rewrite !Rsum_cons, !Rsum_nil.
  assert (R1 : points o = rank_score r1 r2) by (unfold o, rank_score; destruct (N.compare r1 r2); cbn [points]; lra).
  assert (R2 : points (invert o) = rank_score r2 r1).
  { unfold o, rank_score. rewrite (N.compare_antisym r1 r2). destruct (N.compare r1 r2); cbn [points invert CompOpp]; lra. }
  f_equal; [|f_equal]; f_equal; apply map_ext; intros p.
  - match goal with |- wl_player _ _ ?a ?b _ = wl_player _ _ ?c ?d _ => replace a with c; [replace b with d; [reflexivity|]|] end.
    + unfold xeta. cbn [fst]. ring.
    + unfold xdelta at 2. cbn [fst snd]. rewrite R1. ring.
  - match goal with |- wl_player _ _ ?a ?b _ = wl_player _ _ ?c ?d _ => replace a with c; [replace b with d; [reflexivity|]|] end.
    + unfold xeta. cbn [fst]. ring.
    + unfold xdelta at 1. cbn [fst snd]. rewrite R2. ring.
Qed.

(** ** Expected scores *)
Lemma C45_players_proof : forall m1 s1 m2 s2 beta kappa, 0 < beta ->
  let cfg := mkWLConfig (Fin beta) kappa in
  exists e1 e2,
    wl_expected_score (mkWL (Fin m1) (Fin s1)) (mkWL (Fin m2) (Fin s2)) cfg = (Fin e1, Fin e2) /\
    e1 = / (1 + exp ((m2 - m1) / sqrt (s1 ^ 2 + s2 ^ 2 + 2 * beta ^ 2))) /\
    0 < e1 < 1 /\ 0 < e2 < 1 /\ e1 + e2 = 1 /\ (1 / 2 < e1 <-> m2 < m1) /\
    wl_expected_score (mkWL (Fin m2) (Fin s2)) (mkWL (Fin m1) (Fin s1)) cfg = (Fin e2, Fin e1).
Proof.
  intros m1 s1 m2 s2 beta kappa Hb cfg. unfold cfg, wl_expected_score. cbn [wl_rating wl_uncertainty wl_beta].
  rewrite !wl_c_players_eval, (wlc_sym beta (s2 ^ 2)). set (c := wlc beta (s1 ^ 2) (s2 ^ 2)).
  assert (Hc : 0 < c) by (apply wlc_pos_b; auto; apply pow2_ge_0).
  rewrite !wl_p_eval by auto. do 2 eexists. split; [reflexivity|]. split; [reflexivity|].
  split; [apply wlp_range|]. split; [apply wlp_range|]. split; [apply wlp_compl|]. split; [|reflexivity].
  rewrite <- (wlp_self m2 c). split; [|apply wlp_lt; auto].
  intros H. destruct (Rtotal_order m1 m2) as [l|[l|l]]; auto.
  - pose proof (wlp_lt m1 m2 m2 c Hc l). lra.
  - subst. lra.
Qed.
Lemma C45_teams_proof : forall t1 t2 beta kappa, 0 < beta ->
  let cfg := mkWLConfig (Fin beta) kappa in
  exists e1 e2,
    wl_expected_score_two_teams (wlt_in t1) (wlt_in t2) cfg = (Fin e1, Fin e2) /\
    e1 = / (1 + exp ((wl_theta t2 - wl_theta t1) / sqrt (wl_s2 t1 + wl_s2 t2 + 2 * beta ^ 2))) /\
    0 < e1 < 1 /\ 0 < e2 < 1 /\ e1 + e2 = 1 /\ (1 / 2 < e1 <-> wl_theta t2 < wl_theta t1) /\
    wl_expected_score_two_teams (wlt_in t2) (wlt_in t1) cfg = (Fin e2, Fin e1) /\
    wl_expected_score_multi_team [wlt_in t1; wlt_in t2] cfg = [Fin e1; Fin e2].
Proof.
  intros t1 t2 beta kappa Hb cfg. unfold cfg, wl_expected_score_two_teams. cbn [wl_beta].
  pose proof (wl_s2_nonneg t1) as U1. pose proof (wl_s2_nonneg t2) as U2.
  rewrite !wl_theta_eval, !wl_s2_eval, !wl_c_teams_eval by auto. rewrite (wlc_sym beta (wl_s2 t2)).
  set (c := wlc beta (wl_s2 t1) (wl_s2 t2)).
  assert (Hc : 0 < c) by (apply wlc_pos_b; auto).
  rewrite !wl_p_eval by auto. do 2 eexists. split; [reflexivity|]. split; [reflexivity|].
  split; [apply wlp_range|]. split; [apply wlp_range|]. split; [apply wlp_compl|]. split; [|split; [reflexivity|]].
  - rewrite <- (wlp_self (wl_theta t2) c). split; [|apply wlp_lt; auto].
    intros H. destruct (Rtotal_order (wl_theta t1) (wl_theta t2)) as [l|[l|l]]; auto.
    + pose proof (wlp_lt _ _ (wl_theta t2) c Hc l). lra.
    + rewrite l in H. lra.
  - unfold wl_expected_score_multi_team. cbv zeta. cbn [map wl_beta]. rewrite !wl_theta_eval, !wl_s2_eval.
    change ([Fin (wl_s2 t1); Fin (wl_s2 t2)]) with (map Fin [wl_s2 t1; wl_s2 t2]). rewrite xr_sum. rewrite !Rsum_cons, Rsum_nil.
    assert (C : fsqrt (ffma (#2) (fpowi (Fin beta) 2) (Fin (wl_s2 t1 + (wl_s2 t2 + 0))))%flt = Fin c).
    { rewrite (xr_ofZ 2). assert (0 <= beta * beta) by apply Rle_0_sqr. xr. unfold c, wlc. f_equal. f_equal. ring. }
    rewrite C. set (a := wl_theta t1). set (b := wl_theta t2). pose proof (exp_pos (a / c)). pose proof (exp_pos (b / c)).
    cbn [fold_left]. rewrite (xr_ofZ 0). xr.
    assert (E : forall a b, exp (a / c) / (exp (a / c) + exp (b / c)) = wlp a b c).
    { intros. unfold wlp. replace ((b0 - a0) / c) with (b0 / c - a0 / c) by (unfold Rdiv; ring). unfold Rminus. rewrite exp_plus, exp_Ropp.
      pose proof (exp_pos (a0 / c)). pose proof (exp_pos (b0 / c)). field. lra. }
    rewrite !Rplus_0_l, E. rewrite (Rplus_comm (exp (a / c))), E. reflexivity.
Qed.
Lemma C45_multi_proof : forall ts beta kappa, 0 < beta -> ts <> [] ->
  let cfg := mkWLConfig (Fin beta) kappa in
  exists f : R -> R,
    (forall x, 0 < f x) /\ (forall x y, x < y -> f x < f y) /\
    (forall ts', Permutation ts ts' ->
       wl_expected_score_multi_team (map wlt_in ts') cfg = map (fun t => Fin (f (wl_theta t))) ts') /\
    Rsum (map (fun t => f (wl_theta t)) ts) = 1 /\
    (forall t t' l1 l2 l3, ts = l1 ++ t :: l2 ++ t' :: l3 -> f (wl_theta t) < 1 /\ f (wl_theta t') < 1).
Proof.
  intros ts beta kappa Hb Hne cfg. set (U := Rsum (map wl_s2 ts)). set (c := sqrt (U + 2 * beta ^ 2)).
  assert (HU : 0 <= U). { apply Rsum_nonneg. intros x Hx. apply in_map_iff in Hx as (t & <- & _). apply wl_s2_nonneg. }
  assert (Hb2 : 0 < beta ^ 2) by (apply pow_lt; auto).
  assert (Hc : 0 < c) by (unfold c; apply sqrt_lt_R0; lra).
  set (Z := Rsum (map (fun t => exp (wl_theta t / c)) ts)).
  assert (HZ : 0 < Z). { apply Rsum_pos; [destruct ts; [congruence|discriminate]|]. intros x Hx. apply in_map_iff in Hx as (t & <- & _). apply exp_pos. }
  assert (S1 : Rsum (map (fun t => exp (wl_theta t / c) / Z) ts) = 1).
  { rewrite (map_ext _ (fun t => / Z * exp (wl_theta t / c))) by (intros; unfold Rdiv; ring). rewrite Rsum_map_scal. fold Z. field. lra. }
  assert (P : forall x, 0 < exp (x / c) / Z) by (intros; apply Rdiv_lt_0_compat; auto; apply exp_pos).
  exists (fun x => exp (x / c) / Z). split; [exact P|]. split; [|split; [|split; [exact S1|]]].
  - intros x y H. unfold Rdiv at 1 3. apply Rmult_lt_compat_r; [now apply Rinv_0_lt_compat|]. apply exp_increasing.
    unfold Rdiv. apply Rmult_lt_compat_r; [now apply Rinv_0_lt_compat|auto].
  - intros ts' HP. unfold wl_expected_score_multi_team, cfg. cbv zeta. cbn [wl_beta]. rewrite !map_map.
    rewrite (map_ext (fun t => wl_team_uncertainty_sq (wlt_in t)) (fun t => Fin (wl_s2 t))) by (intros; apply wl_s2_eval).
    rewrite (xr_sum_map _ wl_s2) by reflexivity. rewrite <- (Rsum_perm _ _ (Permutation_map wl_s2 HP)). fold U.
    assert (C : fsqrt (ffma (#2) (fpowi (Fin beta) 2) (Fin U))%flt = Fin c).
    { rewrite (xr_ofZ 2). assert (0 <= beta * beta) by apply Rle_0_sqr. xr. unfold c. f_equal. f_equal. ring. }
    rewrite C.
    rewrite (map_ext (fun t => fexp (wl_team_rating (wlt_in t) / Fin c)%flt) (fun t => Fin (exp (wl_theta t / c)))).
    2:{ intros t. rewrite wl_theta_eval. xr. reflexivity. }
    assert (Fo : fold_left fadd (map (fun t => Fin (exp (wl_theta t / c))) ts') (#0)%flt = Fin Z).
    { rewrite <- (map_map (fun t => exp (wl_theta t / c)) Fin). rewrite (xr_ofZ 0), xr_fold_add.
      rewrite <- (Rsum_perm _ _ (Permutation_map (fun t => exp (wl_theta t / c)) HP)). fold Z. f_equal. ring. }
    rewrite Fo. apply map_ext. intros t. rewrite wl_theta_eval. xr. reflexivity.
  - intros t t' l1 l2 l3 E. pose proof S1 as S1'. rewrite E, !map_app, Rsum_app in S1'. cbn [map] in S1'. rewrite Rsum_cons, !map_app, Rsum_app in S1'.
    cbn [map] in S1'. rewrite Rsum_cons in S1'.
    assert (N : forall l, 0 <= Rsum (map (fun t => exp (wl_theta t / c) / Z) l)).
    { intros l. apply Rsum_nonneg. intros x Hx. apply in_map_iff in Hx as (y & <- & _). apply Rlt_le, P. }
    pose proof (N l1). pose proof (N l2). pose proof (N l3). pose proof (P (wl_theta t)). pose proof (P (wl_theta t')). lra.
Qed.
Lemma C45_single_proof : forall m1 s1 m2 s2 beta kappa, 0 < beta ->
  wl_expected_score_two_teams [mkWL (Fin m1) (Fin s1)] [mkWL (Fin m2) (Fin s2)] (mkWLConfig (Fin beta) kappa) =
  wl_expected_score (mkWL (Fin m1) (Fin s1)) (mkWL (Fin m2) (Fin s2)) (mkWLConfig (Fin beta) kappa).
Proof.
  intros. change [mkWL (Fin m1) (Fin s1)] with (wlt_in [(m1, s1)]). change [mkWL (Fin m2) (Fin s2)] with (wlt_in [(m2, s2)]).
  unfold wl_expected_score_two_teams, wl_expected_score. cbn [wl_rating wl_uncertainty wl_beta].
  rewrite wl_c_players_eval, !wl_theta_eval, !wl_s2_eval, !wl_single_theta, !wl_single_s2. cbn [fst snd].
  rewrite wl_c_teams_eval by apply pow2_ge_0. reflexivity.
Qed.

(** ** Direction and uncertainties *)
Lemma wls_eta_nonneg beta th u th' u' : 0 < u -> 0 <= u' -> 0 <= wls_eta beta th u th' u'.
Proof.
  intros. unfold wls_eta. cbv zeta. pose proof (wlc_pos beta u u' ltac:(lra) ltac:(lra)).
  set (c := wlc _ _ _) in *. pose proof (wlp_range th th' c). pose proof (wlp_range th' th c). pose proof (sqrt_lt_R0 u ltac:(lra)).
  assert (0 < sqrt u / c) by (apply Rdiv_lt_0_compat; auto). apply Rlt_le. pos.
Qed.
Lemma wls_delta_pos beta th u th' u' : 0 < u -> 0 <= u' -> 0 < wls_delta beta th u th' u' 1 /\ wls_delta beta th u th' u' 0 < 0.
Proof.
  intros. unfold wls_delta. cbv zeta. pose proof (wlc_pos beta u u' ltac:(lra) ltac:(lra)).
  set (c := wlc _ _ _) in *. pose proof (wlp_range th th' c). assert (0 < u / c) by (apply Rdiv_lt_0_compat; auto). split; nra.
Qed.
Lemma Rsum_neg l : l <> [] -> (forall x, In x l -> x < 0) -> Rsum l < 0.
Proof.
  intros H1 H2. assert (0 < Rsum (map Ropp l)). { apply Rsum_pos; [destruct l; [congruence|discriminate]|]. intros x Hx. apply in_map_iff in Hx as (y & <- & Hy). apply H2 in Hy. lra. }
  enough (Rsum (map Ropp l) = - Rsum l) by lra. clear. induction l as [|x l IH]; cbn [map]; rewrite ?Rsum_cons, ?Rsum_nil; lra.
Qed.
Lemma C46_proof : forall beta kappa pre t r post, 0 < kappa <= 1 ->
  Forall (fun x => wl_ok (fst x)) (pre ++ (t, r) :: post) ->
  exists t', nth_error (weng_lin_multi_team (map wlr_in (pre ++ (t, r) :: post)) (mkWLConfig (Fin beta) (Fin kappa))) (length pre) =
      Some (wlt_in t') /\
    Forall2 (fun p p' => 0 < snd p' <= snd p /\ snd p * sqrt kappa <= snd p') t t' /\
    (pre ++ post <> [] -> (forall x, In x (pre ++ post) -> (r < snd x)%N) -> Forall2 (fun p p' => fst p < fst p') t t') /\
    (pre ++ post <> [] -> (forall x, In x (pre ++ post) -> (snd x < r)%N) -> Forall2 (fun p p' => fst p' < fst p) t t').
Proof.
  intros beta kappa pre t r post Hk HF. exists (wl_team' beta kappa t r (pre ++ post)).
  split; [apply C46_formula_proof; [lra|auto]|].
  assert (Ht : wl_ok t). { rewrite Forall_forall in HF. apply (HF (t, r)). apply in_elt. }
  assert (HO : forall x, In x (pre ++ post) -> wl_ok (fst x)).
  { rewrite Forall_forall in HF. intros x Hx. apply HF. apply in_app_or in Hx. apply in_or_app. cbn. tauto. }
  clear HF. set (os := pre ++ post) in *. clearbody os. pose proof (wl_s2_pos t Ht) as U. destruct Ht as [_ Hf].
  unfold wl_team'. cbv zeta. set (Om := Rsum _). set (De := Rsum _). set (u := wl_s2 t) in *.
  assert (HDe : 0 <= De).
  { apply Rsum_nonneg. intros y Hy. apply in_map_iff in Hy as ([t' r'] & <- & Hy). apply wls_eta_nonneg; auto. apply wl_s2_nonneg. }
  assert (G : forall P : R * R -> R * R -> Prop, (forall p, 0 < snd p -> P p (wl_player kappa u Om De p)) -> Forall2 P t (map (wl_player kappa u Om De) t)).
  { intros P HP. generalize dependent (wl_player kappa u Om De). intros g HP. clear - Hf HP. induction Hf; cbn; constructor; auto. }
  split; [|split].
  - apply G. intros p Hp. unfold wl_player. cbn [snd].
    assert (X : 0 <= snd p ^ 2 / u * De). { assert (0 < snd p ^ 2) by (apply pow_lt; auto). assert (0 < snd p ^ 2 / u) by (apply Rdiv_lt_0_compat; auto). nra. }
    pose proof (wl_player_range kappa _ (snd p) Hp Hk X). lra.
  - intros Hne Hlt. apply G. intros p Hp. unfold wl_player. cbn [fst].
    assert (0 < Om). { apply Rsum_pos; [destruct os; [congruence|discriminate]|]. intros y Hy. apply in_map_iff in Hy as ([t' r'] & <- & Hy).
      specialize (Hlt _ Hy). cbn in Hlt. unfold rank_score. rewrite (proj2 (N.compare_lt_iff r r') Hlt).
      apply wls_delta_pos; auto. apply wl_s2_nonneg. }
    assert (0 < snd p ^ 2) by (apply pow_lt; auto). assert (0 < snd p ^ 2 / u) by (apply Rdiv_lt_0_compat; auto). nra.
  - intros Hne Hlt. apply G. intros p Hp. unfold wl_player. cbn [fst].
    assert (Om < 0). { apply Rsum_neg; [destruct os; [congruence|discriminate]|]. intros y Hy. apply in_map_iff in Hy as ([t' r'] & <- & Hy).
      specialize (Hlt _ Hy). cbn in Hlt. unfold rank_score. rewrite (proj2 (N.compare_gt_iff r r') Hlt).
      apply wls_delta_pos; auto. apply wl_s2_nonneg. }
    assert (0 < snd p ^ 2) by (apply pow_lt; auto). assert (0 < snd p ^ 2 / u) by (apply Rdiv_lt_0_compat; auto). nra.
Qed.

(** ** Rating period *)
Lemma C48_proof : forall (F : Type) (A : Arith F) (p : WengLinRating F) rs rs' c,
  weng_lin_rating_period p rs c = fold_left (fun q x => fst (weng_lin q (fst x) (snd x) c)) rs p /\
  weng_lin_rating_period p [] c = p /\
  weng_lin_rating_period p (rs ++ rs') c = weng_lin_rating_period (weng_lin_rating_period p rs c) rs' c.
Proof.
  intros F A p rs rs' c.
  assert (K : forall rs p, weng_lin_rating_period p rs c = fold_left (fun q x => fst (weng_lin q (fst x) (snd x) c)) rs p).
  { unfold weng_lin_rating_period. induction rs0 as [|[q o] rs0 IH]; intros q0; cbn [fold_left].
    - destruct q0; reflexivity.
    - rewrite <- IH. unfold weng_lin, wl_period_step at 2. cbn [fst snd]. destruct (wl_p_value _ _ _). reflexivity. }
  split; [apply K|]. split; [destruct p; reflexivity|]. rewrite !K, fold_left_app. reflexivity.
Qed.

(** ** Conservation *)
Lemma Rsum_zero {X} (l : list X) : Rsum (map (fun _ => 0) l) = 0.
Proof. induction l as [|x l IH]; cbn [map]; rewrite ?Rsum_cons, ?Rsum_nil; lra. Qed.
Lemma Rsum_swap {X Y} (f : X -> Y -> R) l l' :
  Rsum (map (fun x => Rsum (map (f x) l')) l) = Rsum (map (fun y => Rsum (map (fun x => f x y) l)) l').
Proof.
  induction l as [|x l IH]; cbn [map].
  - rewrite Rsum_nil. symmetry. apply (Rsum_zero l').
  - rewrite Rsum_cons, IH, <- Rsum_map_plus. reflexivity.
Qed.
Lemma Rsum_antisym {X} (f : X -> X -> R) l : (forall x y, In x l -> In y l -> f x y = - f y x) -> Rsum (map (fun x => Rsum (map (f x) l)) l) = 0.
Proof.
  intros H. pose proof (Rsum_swap f l l) as E.
  assert (E2 : Rsum (map (fun y => Rsum (map (fun x => f x y) l)) l) = - Rsum (map (fun x => Rsum (map (f x) l)) l)).
  { replace (- Rsum (map (fun x => Rsum (map (f x) l)) l)) with (-1 * Rsum (map (fun x => Rsum (map (f x) l)) l)) by ring.
    rewrite <- Rsum_map_scal. f_equal. apply map_ext_in. intros y Hy. rewrite <- Rsum_map_scal. f_equal. apply map_ext_in. intros x Hx.
    rewrite H by auto. ring. }
  lra.
Qed.
Lemma C77_proof : forall beta kappa xs, 0 <= kappa -> Forall (fun x => wl_ok (fst x)) xs ->
  exists w, length w = length xs /\ Rsum w = 0 /\
    map (map wl_rating) (weng_lin_multi_team (map wlr_in xs) (mkWLConfig (Fin beta) (Fin kappa))) =
    map (fun '(x, wi) => map (fun p => Fin (fst p + snd p ^ 2 * wi)) (fst x)) (combine xs w).
Proof.
  intros beta kappa xs Hk HF. rewrite wl_multi_eval by auto.
  set (W := fun x : wlx => (Rsum (map (xdelta beta x) xs) - xdelta beta x x) / wl_s2 (fst x)).
  exists (map W xs). split; [apply map_length|]. rewrite Forall_forall in HF. split.
  - set (f := fun x y : wlx => (rank_score (snd x) (snd y) - wlp (wl_theta (fst x)) (wl_theta (fst y)) (wlc beta (wl_s2 (fst x)) (wl_s2 (fst y)))) / wlc beta (wl_s2 (fst x)) (wl_s2 (fst y))).
    rewrite (map_ext_in W (fun x => Rsum (map (f x) xs))).
    + apply Rsum_antisym. intros x y Hx Hy. unfold f. rewrite (wlc_sym beta (wl_s2 (fst y))).
      set (c := wlc beta (wl_s2 (fst x)) (wl_s2 (fst y))).
      assert (RS : rank_score (snd x) (snd y) = 1 - rank_score (snd y) (snd x)).
      { unfold rank_score. rewrite (N.compare_antisym (snd y)). destruct (N.compare (snd y) (snd x)); cbn [CompOpp]; lra. }
      rewrite RS. pose proof (wlp_compl (wl_theta (fst x)) (wl_theta (fst y)) c) as PC.
      replace (wlp (wl_theta (fst x)) (wl_theta (fst y)) c) with (1 - wlp (wl_theta (fst y)) (wl_theta (fst x)) c) by lra.
      unfold Rdiv. ring.
    + intros x Hx. pose proof (wl_s2_pos _ (HF x Hx)) as U. unfold W.
      assert (Z : xdelta beta x x = 0).
      { unfold xdelta, wls_delta. cbv zeta. rewrite wlp_self. unfold rank_score. rewrite N.compare_refl. unfold Rdiv. ring. }
      rewrite Z, Rminus_0_r. unfold Rdiv. rewrite Rmult_comm. rewrite <- Rsum_map_scal. f_equal. apply map_ext_in. intros y Hy.
      unfold xdelta, wls_delta, f. cbv zeta. pose proof (wlc_pos beta (wl_s2 (fst x)) (wl_s2 (fst y)) U (wl_s2_nonneg _)). field. lra.
  - rewrite combine_map_self, !map_map. apply map_ext_in. intros x Hx. pose proof (wl_s2_pos _ (HF x Hx)) as U.
    unfold wlt_in, wl_outx. rewrite !map_map. apply map_ext. intros p. unfold wl_in, wl_player. cbn [wl_rating fst snd].
    f_equal. unfold W. field. lra.
Qed.
