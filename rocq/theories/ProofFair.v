(** Proofs of C137: what makes a match of several teams fair. *)
From Coq Require Import ZArith NArith List Bool Reals Lra Lia.
From Verif Require Import Arith XR Tac ModelLib ModelWengLin ModelTS ModelTSMatrix Spec SpecTS SpecInTS ProofTSQual.
Import ListNotations.
Local Open Scope R_scope.

(** Mean and dispersion of a list of means and variances. *)
Definition mvmean (mv : list (R * R)) : R := Rsum (map (fun x => fst x / snd x) mv) / Rsum (map (fun x => / snd x) mv).
Definition mvdisp (mv : list (R * R)) : R := Rsum (map (fun x => (fst x - mvmean mv) ^ 2 / snd x) mv).
Definition spread (beta : R) (l : list (list wpl)) : R := sqrt (others (map (fun t => beta ^ 2 * Rsum (map (fun x : wpl => snd x ^ 2) t)) l) / others (map (w_var beta 0) l)).
Lemma mq_multi_disp beta l : mq_multi beta l = exp (- (/ 2 * mvdisp (q_mv beta l))) * spread beta l.
Proof. unfold mq_multi, mvdisp, mvmean, spread. cbv zeta. fold (q_mv beta l). f_equal. do 2 f_equal. unfold q_mv. now rewrite map_map. Qed.
Lemma inv_sum_pos (mv : list (R * R)) : mv <> [] -> Forall (fun x => 0 < snd x) mv -> 0 < Rsum (map (fun x => / snd x) mv).
Proof. intros NE F. apply Rsum_pos; [destruct mv; [congruence|discriminate]|]. intros z Hz. apply in_map_iff in Hz as (x & <- & I). rewrite Forall_forall in F. apply Rinv_0_lt_compat. now apply F. Qed.
Lemma mvdisp_scale mv mv' k lam : mv <> [] -> Forall (fun x => 0 < snd x) mv -> Forall2 (fun x y => fst y = k + lam * fst x /\ snd y = snd x) mv mv' -> mvdisp mv' = lam ^ 2 * mvdisp mv.
Proof.
  intros NE F H. assert (P := inv_sum_pos mv NE F).
  assert (A : Rsum (map (fun x => / snd x) mv') = Rsum (map (fun x => / snd x) mv)). { clear - H. induction H as [|x y l l' [_ E] _ IH]; [reflexivity|]. cbn [map]. now rewrite !Rsum_cons, E, IH. }
  assert (B : Rsum (map (fun x => fst x / snd x) mv') = k * Rsum (map (fun x => / snd x) mv) + lam * Rsum (map (fun x => fst x / snd x) mv)).
  { clear - H. induction H as [|x y l l' [E1 E2] _ IH]; [cbn [map]; rewrite !Rsum_nil; ring|]. cbn [map]. rewrite !Rsum_cons, E1, E2, IH. unfold Rdiv. ring. }
  assert (M : mvmean mv' = k + lam * mvmean mv) by (unfold mvmean; rewrite A, B; field; lra).
  unfold mvdisp. rewrite M. generalize (mvmean mv). intros c. clear - H. induction H as [|x y l l' [E1 E2] _ IH]; [cbn [map]; rewrite !Rsum_nil; ring|]. cbn [map]. rewrite !Rsum_cons, E1, E2, IH. unfold Rdiv. ring.
Qed.
Lemma mvdisp_nonneg mv : Forall (fun x => 0 < snd x) mv -> 0 <= mvdisp mv.
Proof. intros F. unfold mvdisp. apply Rsum_nonneg. intros z Hz. apply in_map_iff in Hz as (x & <- & Hx). rewrite Forall_forall in F. apply Rmult_le_pos; [apply pow2_ge_0|left; apply Rinv_0_lt_compat, F; auto]. Qed.
Lemma mvdisp_zero mv : mv <> [] -> Forall (fun x => 0 < snd x) mv -> (mvdisp mv = 0 <-> forall x y, In x mv -> In y mv -> fst x = fst y).
Proof.
  intros NE F. split.
  - intros E. assert (Z : forall x, In x mv -> fst x = mvmean mv).
    { intros x Hx. unfold mvdisp in E. set (c := mvmean mv) in *. apply in_split in Hx as (l1 & l2 & Hs). rewrite Hs in E, F. rewrite map_app, Rsum_app in E. cbn [map] in E. rewrite Rsum_cons in E.
      assert (G : forall l, Forall (fun x : R * R => 0 < snd x) l -> 0 <= Rsum (map (fun x => (fst x - c) ^ 2 / snd x) l)). { intros l Fl. apply Rsum_nonneg. intros z Hz. apply in_map_iff in Hz as (y & <- & Hy). rewrite Forall_forall in Fl. apply Rmult_le_pos; [apply pow2_ge_0|left; apply Rinv_0_lt_compat, Fl; auto]. }
      apply Forall_app in F as [F1 F2]. inversion F2 as [|? ? Fx F3]; subst. pose proof (G l1 F1). pose proof (G l2 F3). assert (N : 0 <= (fst x - c) ^ 2 / snd x) by (apply Rmult_le_pos; [apply pow2_ge_0|left; now apply Rinv_0_lt_compat]).
      assert (Q : (fst x - c) ^ 2 / snd x = 0) by lra. unfold Rdiv in Q. apply Rmult_integral in Q as [Q|Q]; [|pose proof (Rinv_0_lt_compat _ Fx); lra]. simpl in Q. rewrite Rmult_1_r in Q. apply Rmult_integral in Q. lra. }
    intros x y Hx Hy. now rewrite (Z x Hx), (Z y Hy).
  - intros H. destruct mv as [|x0 mv0]; [congruence|]. set (mv := x0 :: mv0) in *. assert (Z : forall x, In x mv -> fst x = fst x0) by (intros x Hx; apply H; [auto|now left]). pose proof (inv_sum_pos mv NE F) as P.
    assert (M : mvmean mv = fst x0). { unfold mvmean. replace (Rsum (map (fun x => fst x / snd x) mv)) with (fst x0 * Rsum (map (fun x => / snd x) mv)); [field; lra|]. rewrite <- Rsum_map_scal. f_equal. apply map_ext_in. intros x Hx. rewrite (Z x Hx). reflexivity. }
    unfold mvdisp. rewrite M. rewrite (map_ext_in _ (fun _ => 0)); [clear; induction mv; cbn [map]; [apply Rsum_nil|rewrite Rsum_cons; lra]|]. intros x Hx. rewrite (Z x Hx). unfold Rdiv. ring.
Qed.
Lemma F2_len {X Y} (f : X -> Y -> Prop) l l' : Forall2 f l l' -> length l = length l'.
Proof. induction 1; cbn; auto. Qed.
Definition same_player (x y : wpl) : Prop := snd x = snd y /\ snd (fst x) = snd (fst y).
Lemma same_var beta t t' : Forall2 same_player t t' -> w_var beta 0 t = w_var beta 0 t' /\ map (fun x : wpl => snd x ^ 2) t = map (fun x => snd x ^ 2) t'.
Proof. induction 1 as [|x y l l' [E1 E2] _ [I1 I2]]; [split; reflexivity|]. unfold w_var in *. cbn [map]. rewrite !Rsum_cons, E1, E2, I1, I2. split; reflexivity. Qed.
Lemma same_spread beta l l' : Forall2 (Forall2 same_player) l l' -> spread beta l = spread beta l'.
Proof.
  intros H. unfold spread. assert (A : map (fun t => beta ^ 2 * Rsum (map (fun x : wpl => snd x ^ 2) t)) l = map (fun t => beta ^ 2 * Rsum (map (fun x : wpl => snd x ^ 2) t)) l' /\ map (w_var beta 0) l = map (w_var beta 0) l').
  { induction H as [|t t' l l' Ht _ [I1 I2]]; [split; reflexivity|]. destruct (same_var beta t t' Ht) as [E1 E2]. cbn [map]. rewrite E1, E2, I1, I2. split; reflexivity. }
  destruct A as [-> ->]. reflexivity.
Qed.
Lemma spread_nonneg beta l : 0 <= spread beta l. Proof. apply sqrt_pos. Qed.
Lemma q_mv_pos beta l : Forall (fun t => 0 < w_var beta 0 t) l -> Forall (fun x => 0 < snd x) (q_mv beta l).
Proof. intros H. apply Forall_forall. intros x Hx. unfold q_mv in Hx. apply in_map_iff in Hx as (t & <- & Ht). rewrite Forall_forall in H. cbn. auto. Qed.
Lemma C137_closer_proof : forall l l' dp beta tau k lam, (3 <= length l)%nat -> Forall (fun t => t <> []) l -> Forall (Forall (fun x : wpl => 0 <= snd x)) l -> Forall (fun t => 0 < w_var beta 0 t) l ->
  Forall2 (Forall2 (fun x y : wpl => snd x = snd y /\ snd (fst x) = snd (fst y))) l l' -> Forall2 (fun t t' => w_mean t' = k + lam * w_mean t) l l' -> Rabs lam <= 1 ->
  let quality l := match_quality_multi_team (map (fun t => tst_in (map fst t)) l) (ts_cfg dp beta tau) (Some (map (fun t : list wpl => map Fin (map snd t)) l)) in
  exists q q', quality l = Ok (Fin q) /\ quality l' = Ok (Fin q') /\ q <= q' /\
  (0 < q -> Rabs lam < 1 -> (q = q' <-> forall t u, In t l -> In u l -> w_mean t = w_mean u)).
Proof.
  intros l l' dp beta tau k lam L NE W P S M Hl quality. exists (mq_multi beta l), (mq_multi beta l'). split; [now apply C56_value_proof|]. split.
  { apply C56_value_proof.
    - now rewrite <- (F2_len _ _ _ S).
    - clear - NE S. induction S as [|t t' l l' Ht _ IH]; [constructor|]. inversion NE; subst. constructor; [inversion Ht; subst; [congruence|discriminate]|auto].
    - clear - W S. induction S as [|t t' l l' Ht _ IH]; [constructor|]. inversion W as [|? ? W1 W2]; subst. constructor; [|auto]. clear - Ht W1. induction Ht as [|x y t t' [E _] _ IH]; [constructor|]. inversion W1; subst. constructor; [lra|auto].
    - clear - P S. induction S as [|t t' l l' Ht _ IH]; [constructor|]. inversion P; subst. constructor; [destruct (same_var beta t t' Ht) as [<- _]; auto|auto]. }
  assert (NL : l <> []) by (destruct l; [cbn in L; lia|discriminate]). assert (NQ : q_mv beta l <> []) by (unfold q_mv; destruct l; [congruence|discriminate]). pose proof (q_mv_pos beta l P) as PQ.
  assert (SC : mvdisp (q_mv beta l') = lam ^ 2 * mvdisp (q_mv beta l)).
  { apply mvdisp_scale with k; auto. clear - S M. revert M. induction S as [|t t' l l' Ht _ IH]; intros M; [constructor|]. inversion M; subst. unfold q_mv. cbn [map]. constructor; [|apply IH; auto]. cbn [fst snd]. split; [auto|]. destruct (same_var beta t t' Ht) as [E _]. auto. }
  rewrite !mq_multi_disp, SC, <- (same_spread beta l l' S). pose proof (mvdisp_nonneg _ PQ) as D0. set (d := mvdisp (q_mv beta l)) in *. pose proof (spread_nonneg beta l) as S0. set (s := spread beta l) in *.
  assert (L2 : lam ^ 2 <= 1) by (rewrite <- (pow2_abs lam); pose proof (Rabs_pos lam); nra). split.
  - apply Rmult_le_compat_r; [auto|]. assert (XX : - (/ 2 * d) <= - (/ 2 * (lam ^ 2 * d))) by nra. destruct XX as [XX|XX]; [left; now apply exp_increasing|rewrite XX; lra].
  - intros Q HL. assert (SP : 0 < s) by (destruct S0 as [S0|S0]; [auto|rewrite <- S0 in Q; lra]). assert (L3 : lam ^ 2 < 1) by (rewrite <- (pow2_abs lam); pose proof (Rabs_pos lam); nra).
    transitivity (d = 0).
    + split; intros E; [|rewrite E; f_equal; f_equal; ring]. apply Rmult_eq_reg_r in E; [|lra]. apply exp_inv in E. nra.
    + unfold d. rewrite mvdisp_zero by auto. unfold q_mv. split.
      * intros H t u Ht Hu. exact (H (w_mean t, w_var beta 0 t) (w_mean u, w_var beta 0 u) ltac:(apply in_map_iff; eauto) ltac:(apply in_map_iff; eauto)).
      * intros H x y Hx Hy. apply in_map_iff in Hx as (t & <- & Ht). apply in_map_iff in Hy as (u & <- & Hu). cbn. auto.
Qed.
(** Between equal teams certainty makes a match fairer. *)
Lemma C137_certain_proof : forall l l' dp beta tau, (3 <= length l)%nat -> Forall (fun t => t <> []) l -> Forall (Forall (fun x : wpl => 0 <= snd x)) l -> Forall (fun t => 0 < w_var beta 0 t) l ->
  Forall2 (Forall2 (fun x y : wpl => snd x = snd y /\ snd (fst x) ^ 2 <= snd (fst y) ^ 2)) l l' -> (forall t u, In t l -> In u l -> w_mean t = w_mean u) ->
  let quality l := match_quality_multi_team (map (fun t => tst_in (map fst t)) l) (ts_cfg dp beta tau) (Some (map (fun t : list wpl => map Fin (map snd t)) l)) in
  exists q q', quality l = Ok (Fin q) /\ quality l' = Ok (Fin q') /\ q' <= q.
Proof.
  intros l l' dp beta tau L NE W P S M quality. exists (mq_multi beta l), (mq_multi beta l').
  assert (VL : Forall2 (fun t t' => w_var beta 0 t <= w_var beta 0 t' /\ map (fun x : wpl => snd x ^ 2) t = map (fun x : wpl => snd x ^ 2) t') l l').
  { clear - S. induction S as [|t t' l l' Ht _ IH]; constructor; auto. clear - Ht. induction Ht as [|x y t t' [E1 E2] _ [I1 I2]]; [split; [lra|reflexivity]|]. unfold w_var in *. cbn [map]. rewrite !Rsum_cons, E1, I2. split; [|reflexivity]. pose proof (pow2_ge_0 (snd y)). nra. }
  split; [now apply C56_value_proof|]. assert (P' : Forall (fun t => 0 < w_var beta 0 t) l') by (clear - P VL; induction VL as [|t t' l l' [Ht _] _ IH]; [constructor|]; inversion P; subst; constructor; [lra|auto]). split.
  { apply C56_value_proof; auto.
    - now rewrite <- (F2_len _ _ _ S).
    - clear - NE S. induction S as [|t t' l l' Ht _ IH]; [constructor|]. inversion NE; subst. constructor; [inversion Ht; subst; [congruence|discriminate]|auto].
    - clear - W S. induction S as [|t t' l l' Ht _ IH]; [constructor|]. inversion W as [|? ? W1 W2]; subst. constructor; [|auto]. clear - Ht W1. induction Ht as [|x y t t' [E _] _ IH]; [constructor|]. inversion W1; subst. constructor; [lra|auto]. }
  assert (NL : l <> []) by (destruct l; [cbn in L; lia|discriminate]). assert (NQ : q_mv beta l <> []) by (unfold q_mv; destruct l; [congruence|discriminate]).
  assert (D : mvdisp (q_mv beta l) = 0). { apply mvdisp_zero; [auto|now apply q_mv_pos|]. intros x y Hx Hy. unfold q_mv in *. apply in_map_iff in Hx as (t & <- & Ht). apply in_map_iff in Hy as (u & <- & Hu). cbn. auto. }
  rewrite !mq_multi_disp, D, Rmult_0_r, Ropp_0, exp_0, Rmult_1_l. pose proof (mvdisp_nonneg _ (q_mv_pos beta l' P')) as D'.
  assert (E1 : exp (- (/ 2 * mvdisp (q_mv beta l'))) <= 1) by (rewrite <- exp_0; assert (XX : - (/ 2 * mvdisp (q_mv beta l')) <= 0) by lra; destruct XX as [XX|XX]; [left; now apply exp_increasing|rewrite XX; lra]).
  assert (SS : spread beta l' <= spread beta l).
  { unfold spread. assert (EB : map (fun t => beta ^ 2 * Rsum (map (fun x : wpl => snd x ^ 2) t)) l' = map (fun t => beta ^ 2 * Rsum (map (fun x : wpl => snd x ^ 2) t)) l) by (clear - VL; induction VL as [|t t' l l' [_ Ht] _ IH]; [reflexivity|cbn [map]; now rewrite Ht, IH]).
    rewrite EB. apply sqrt_le_1_alt. assert (M2 : Forall2 (fun a b => 0 <= a <= b) (map (w_var beta 0) l) (map (w_var beta 0) l')). { clear - VL P. induction VL as [|t t' l l' [Ht _] _ IH]; [constructor|]. inversion P; subst. cbn [map]. constructor; [lra|auto]. }
    apply others_mono in M2. assert (PV : 0 < others (map (w_var beta 0) l)) by (apply others_pos; [destruct l; [congruence|discriminate]|]; apply Forall_forall; intros z Hz; apply in_map_iff in Hz as (t & <- & Ht); rewrite Forall_forall in P; auto).
    assert (B0 : 0 <= others (map (fun t => beta ^ 2 * Rsum (map (fun x : wpl => snd x ^ 2) t)) l)).
    { assert (M3 : Forall2 (fun a b => 0 <= a <= b) (map (fun t => beta ^ 2 * Rsum (map (fun x : wpl => snd x ^ 2) t)) l) (map (w_var beta 0) l)) by (clear; induction l as [|t l IH]; cbn [map]; constructor; auto; apply w_var_le). apply others_mono in M3. lra. }
    apply Rmult_le_compat_l; [auto|]. apply Rinv_le_contravar; lra. }
  pose proof (spread_nonneg beta l'). pose proof (exp_pos (- (/ 2 * mvdisp (q_mv beta l')))). nra.
Qed.
(** Between unequal teams it can make it less fair. *)
Lemma C137_certain_refuted_proof : forall s s' dp beta tau, 0 <= s < s' -> 0 < beta -> exists g q q', 0 < g /\
  match_quality_multi_team [[ts_in (0, s)]; [ts_in (0, s)]; [ts_in (g, s)]] (ts_cfg dp beta tau) (Some [[Fin 1]; [Fin 1]; [Fin 1]]) = Ok (Fin q) /\
  match_quality_multi_team [[ts_in (0, s')]; [ts_in (0, s')]; [ts_in (g, s')]] (ts_cfg dp beta tau) (Some [[Fin 1]; [Fin 1]; [Fin 1]]) = Ok (Fin q') /\ q < q'.
Proof.
  intros s s' dp beta tau Hs Hb. assert (B2 : 0 < beta ^ 2) by (now apply pow_lt).
  set (V := s ^ 2 + beta ^ 2). set (V' := s' ^ 2 + beta ^ 2). assert (V0 : 0 < V) by (unfold V; pose proof (pow2_ge_0 s); lra). assert (VV : V < V') by (unfold V, V'; nra).
  assert (IV : 0 < / V - / V') by (assert (/ V' < / V) by (apply Rinv_lt_contravar; nra); lra).
  set (y := 3 * (V' / V) / (/ V - / V')). assert (y0 : 0 < y) by (unfold y; apply Rdiv_lt_0_compat; [apply Rmult_lt_0_compat; [lra|apply Rdiv_lt_0_compat; lra]|auto]). set (g := sqrt y). assert (g0 : 0 < g) by (now apply sqrt_lt_R0). assert (g2 : g ^ 2 = y) by (apply pow2_sqrt; lra).
  pose (l := fun w => [[((0, w), 1)]; [((0, w), 1)]; [((g, w), 1)]] : list (list wpl)). exists g, (mq_multi beta (l s)), (mq_multi beta (l s')).
  assert (Q : forall w, match_quality_multi_team [[ts_in (0, w)]; [ts_in (0, w)]; [ts_in (g, w)]] (ts_cfg dp beta tau) (Some [[Fin 1]; [Fin 1]; [Fin 1]]) = Ok (Fin (mq_multi beta (l w)))).
  { intros w. apply (C56_value_proof (l w)); [cbn; lia| | |]; unfold l; repeat (constructor; [try discriminate|]); try constructor; cbn; try lra; try (constructor; fail); unfold w_var, Rsum; cbn; pose proof (pow2_ge_0 w); nra. }
  split; [auto|]. split; [apply Q|]. split; [apply Q|].
  assert (E : forall w, let U := w ^ 2 + beta ^ 2 in 0 < U -> mq_multi beta (l w) = exp (- (y / 3 * / U)) * (beta ^ 2 / U)).
  { intros w U HU. assert (WV : forall m, w_var beta 0 [((m, w), 1)] = U) by (intros m; unfold w_var, Rsum, U; cbn; ring). rewrite mq_multi_disp. f_equal.
    - f_equal. unfold mvdisp, mvmean, q_mv, l. cbn [map]. rewrite !WV. unfold w_mean, Rsum. cbn [map fst snd fold_right]. rewrite <- g2. field. lra.
    - unfold spread, l. cbn [map]. rewrite !WV. unfold Rsum. cbn [map others fold_right snd]. rewrite <- (sqrt_pow2 (beta ^ 2 / U)) by (left; now apply Rdiv_lt_0_compat). f_equal. field. split; [lra|]. assert (0 < U * U) by (now apply Rmult_lt_0_compat). nra. }
  rewrite (E s), (E s') by (fold V V'; lra). fold V V'. clear E Q.
  assert (X : exp (- (y / 3 * / V')) = exp (- (y / 3 * / V)) * exp (V' / V)). { rewrite <- exp_plus. f_equal. unfold y. field. repeat split; try lra. }
  rewrite X, Rmult_assoc. apply Rmult_lt_compat_l; [apply exp_pos|]. pose proof (exp_ineq1_le (V' / V)) as Y. assert (Z : beta ^ 2 / V = V' / V * (beta ^ 2 / V')) by (field; lra). rewrite Z. apply Rmult_lt_compat_r; [apply Rdiv_lt_0_compat; lra|lra].
Qed.
