(** Proofs of C145: how a Weng-Lin team shares its result, and games of many teams. *)
From Coq Require Import ZArith NArith List Bool Reals Lra Lia.
From Verif Require Import Arith XR Tac ModelLib ModelWengLin Spec SpecIn ProofElo ProofWengLin.
Import Spec ListNotations.
Local Open Scope R_scope.

Lemma Rsum_abs_lt {A} (f g : A -> R) l : l <> [] -> (forall a, In a l -> Rabs (f a) < g a) -> Rabs (Rsum (map f l)) < Rsum (map g l).
Proof.
  induction l as [|a l IH]; [congruence|]. intros _ H. cbn [map]. rewrite !Rsum_cons. pose proof (H a (or_introl eq_refl)) as Ha. destruct l as [|b l]; [cbn [map]; rewrite !Rsum_nil, !Rplus_0_r; auto|].
  specialize (IH ltac:(discriminate) (fun x I => H x (or_intror I))). pose proof (Rabs_triang (f a) (Rsum (map f (b :: l)))). lra.
Qed.
Lemma Rsum_le_const {A} (g : A -> R) l k : (forall a, In a l -> g a <= k) -> Rsum (map g l) <= INR (length l) * k.
Proof. induction l as [|a l IH]; intros H; [cbn; lra|]. cbn [map length]. rewrite Rsum_cons, S_INR. pose proof (H a (or_introl eq_refl)). specialize (IH (fun x I => H x (or_intror I))). lra. Qed.
Lemma delta_eq beta a u b v s : wls_delta beta a u b v s = u * ((s - wlp a b (wlc beta u v)) / wlc beta u v).
Proof. unfold wls_delta. unfold Rdiv. ring. Qed.
Lemma rank_score_range r r' : 0 <= rank_score r r' <= 1.
Proof. unfold rank_score. destruct (N.compare r r'); lra. Qed.
Lemma C145_share_proof : forall beta kappa pre t r post, 0 <= kappa -> Forall (fun y => wl_ok (fst y)) (pre ++ (t, r) :: post) -> pre ++ post <> [] ->
  let V := Rsum (map (fun p => snd p ^ 2) t) in let n := INR (length (pre ++ post)) in exists s f, Rabs s * sqrt (V + 2 * beta ^ 2) < n /\ 0 <= f /\
  nth_error (weng_lin_multi_team (map wlr_in (pre ++ (t, r) :: post)) (mkWLConfig (Fin beta) (Fin kappa))) (length pre) =
    Some (wlt_in (map (fun p => (fst p + snd p ^ 2 * s, snd p * sqrt (Rmax (1 - snd p ^ 2 * f) kappa))) t)) /\
  forall p, In p t -> Rabs (snd p ^ 2 * s) < n * snd p.
Proof.
  intros beta kappa pre t r post Hk HF Hne V n. pose proof (C46_formula_proof beta kappa pre t r post Hk HF) as E. rewrite Forall_forall in HF. assert (Ht : wl_ok t) by (apply (HF (t, r)), in_elt). pose proof (wl_s2_pos t Ht) as U. change (wl_s2 t) with V in U.
  set (g := fun y : list (R * R) * N => (rank_score r (snd y) - wlp (wl_theta t) (wl_theta (fst y)) (wlc beta V (wl_s2 (fst y)))) / wlc beta V (wl_s2 (fst y))).
  set (e := fun y : list (R * R) * N => wls_eta beta (wl_theta t) V (wl_theta (fst y)) (wl_s2 (fst y))).
  exists (Rsum (map g (pre ++ post))), (Rsum (map e (pre ++ post)) / V).
  pose proof (pow2_ge_0 beta) as B. assert (C0 : 0 < sqrt (V + 2 * beta ^ 2)) by (apply sqrt_lt_R0; lra).
  assert (G : forall y, In y (pre ++ post) -> Rabs (g y) < / sqrt (V + 2 * beta ^ 2)).
  { intros [t' r'] I. assert (Ht' : wl_ok t') by (apply (HF (t', r')); rewrite in_app_iff in *; cbn; tauto). pose proof (wl_s2_pos t' Ht') as U'. unfold g. cbn [fst snd]. set (c := wlc beta V (wl_s2 t')). assert (C : sqrt (V + 2 * beta ^ 2) < c) by (unfold c, wlc; apply sqrt_lt_1_alt; lra).
    pose proof (wlp_range (wl_theta t) (wl_theta t') c) as PR. pose proof (rank_score_range r r') as RR. assert (IC : 0 < / c < / sqrt (V + 2 * beta ^ 2)) by (split; [apply Rinv_0_lt_compat; lra|apply Rinv_lt_contravar; nra]).
    unfold Rdiv. rewrite Rabs_mult, (Rabs_pos_eq (/ c)) by lra. assert (A : Rabs (rank_score r r' - wlp (wl_theta t) (wl_theta t') c) <= 1) by (apply Rabs_le; lra). pose proof (Rabs_pos (rank_score r r' - wlp (wl_theta t) (wl_theta t') c)). nra. }
  assert (S : Rabs (Rsum (map g (pre ++ post))) < n * / sqrt (V + 2 * beta ^ 2)). { eapply Rlt_le_trans; [apply (Rsum_abs_lt g (fun _ => / sqrt (V + 2 * beta ^ 2))); auto|]. apply Rsum_le_const. intros; lra. }
  assert (F0 : 0 <= Rsum (map e (pre ++ post))). { apply Rsum_nonneg. intros x Hx. apply in_map_iff in Hx. destruct Hx as ([t' r'] & <- & I). assert (Ht' : wl_ok t') by (apply (HF (t', r')); rewrite in_app_iff in *; cbn; tauto). apply wls_eta_nonneg; [auto|]. pose proof (wl_s2_pos t' Ht'). cbn [fst]. lra. }
  split; [apply Rmult_lt_reg_r with (/ sqrt (V + 2 * beta ^ 2)); [now apply Rinv_0_lt_compat|]; rewrite Rmult_assoc, Rinv_r, Rmult_1_r by lra; exact S|].
  split; [apply Rmult_le_pos; [auto|left; now apply Rinv_0_lt_compat]|]. split.
  - rewrite E. unfold wl_team'. cbv zeta. do 2 f_equal. change (wl_s2 t) with V. apply map_ext. intros p. unfold wl_player.
    assert (O : Rsum (map (fun '(t', r') => wls_delta beta (wl_theta t) V (wl_theta t') (wl_s2 t') (rank_score r r')) (pre ++ post)) = V * Rsum (map g (pre ++ post))).
    { clear. induction (pre ++ post) as [|[t' r'] l IH]; [cbn; ring|]. cbn [map]. rewrite !Rsum_cons, IH, delta_eq. unfold g. cbn [fst snd]. ring. }
    assert (O' : Rsum (map (fun '(t', r') => wls_eta beta (wl_theta t) V (wl_theta t') (wl_s2 t')) (pre ++ post)) = Rsum (map e (pre ++ post))) by (f_equal; apply map_ext; intros [t' r']; reflexivity).
    rewrite O, O'. f_equal; [field; lra|]. do 3 f_equal. field. lra.
  - intros p I. destruct Ht as [_ Hf]. rewrite Forall_forall in Hf. pose proof (Hf p I) as Hp. assert (PV : snd p <= sqrt (V + 2 * beta ^ 2)). { rewrite <- (sqrt_pow2 (snd p)) at 1 by lra. apply sqrt_le_1_alt. assert (snd p ^ 2 <= V). { unfold V. clear - I Hf. induction t as [|q l IH]; [destruct I|]. cbn [map]. rewrite Rsum_cons. assert (0 <= Rsum (map (fun p => snd p ^ 2) l)) by (apply Rsum_nonneg; intros x Hx; apply in_map_iff in Hx; destruct Hx as (z & <- & _); apply pow2_ge_0). destruct I as [<-|I]; [lra|]. pose proof (pow2_ge_0 (snd q)). specialize (IH (fun x i => Hf x (or_intror i)) I). lra. } lra. }
    rewrite Rabs_mult, (Rabs_pos_eq (snd p ^ 2)) by apply pow2_ge_0. set (Q := sqrt (V + 2 * beta ^ 2)) in *. assert (N1 : 0 <= n) by apply pos_INR. assert (K : snd p * Rabs (Rsum (map g (pre ++ post))) < n). { apply Rlt_le_trans with (snd p * (n * / Q)); [apply Rmult_lt_compat_l; auto|]. replace (snd p * (n * / Q)) with (n * (snd p * / Q)) by ring. assert (snd p * / Q <= 1) by (apply Rmult_le_reg_r with Q; [lra|]; rewrite Rmult_assoc, Rinv_l; lra). nra. }
    cbn [pow]. nra.
Qed.
(** Many equal players in one game. *)
Lemma C145_collapse_proof : forall m s beta kappa pre r post, 0 < s -> 0 <= kappa -> let n := INR (length (pre ++ post)) in let c := sqrt (2 * s ^ 2 + 2 * beta ^ 2) in 4 * (c / s) ^ 3 <= n ->
  exists m', nth_error (weng_lin_multi_team (map (fun k => ([mkWL (Fin m) (Fin s)], mto_new k)) (pre ++ r :: post)) (mkWLConfig (Fin beta) (Fin kappa))) (length pre) = Some [mkWL (Fin m') (Fin (s * sqrt kappa))] /\
    ((forall k, In k (pre ++ post) -> (r < k)%N) -> m' = m + n * (s ^ 2 / (2 * c))) /\ ((forall k, In k (pre ++ post) -> k = r) -> m' = m) /\ ((forall k, In k (pre ++ post) -> (k < r)%N) -> m' = m - n * (s ^ 2 / (2 * c))).
Proof.
  intros m s beta kappa pre r post Hs Hk n c Hn. set (T := fun k : N => ([(m, s)], k)).
  assert (HF : Forall (fun y => wl_ok (fst y)) (map T pre ++ T r :: map T post)). { rewrite Forall_forall. intros y Hy. change (T r :: map T post) with (map T (r :: post)) in Hy. rewrite <- map_app in Hy. apply in_map_iff in Hy. destruct Hy as (k & <- & _). now apply wl_ok_single. }
  pose proof (C46_formula_proof beta kappa (map T pre) [(m, s)] r (map T post) Hk HF) as E. rewrite map_length in E.
  assert (EM : map (fun k => ([mkWL (Fin m) (Fin s)], mto_new k)) (pre ++ r :: post) = map wlr_in (map T pre ++ ([(m, s)], r) :: map T post)). { change (([(m, s)], r) :: map T post) with (map T (r :: post)). rewrite <- map_app, map_map. reflexivity. }
  rewrite EM, E. clear E EM. unfold wl_team'. cbv zeta. rewrite <- map_app, !map_map. assert (W2 : wl_s2 [(m, s)] = s ^ 2) by (unfold wl_s2; cbn [map snd]; rewrite Rsum_cons, Rsum_nil; ring). unfold T. rewrite !W2. assert (S2 : 0 < s ^ 2) by (now apply pow_lt).
  assert (EC : wlc beta (s ^ 2) (s ^ 2) = c) by (unfold wlc, c; f_equal; ring). assert (C0 : 0 < c) by (rewrite <- EC; apply wlc_pos; lra).
  unfold wls_eta, wls_delta. rewrite EC, !wlp_self. rewrite sqrt_pow2 by lra.
  assert (D : Rsum (map (fun _ : N => s / c * (s / c) ^ 2 * (1 / 2) * (1 / 2)) (pre ++ post)) = n * ((s / c) ^ 3 / 4)). { unfold n. generalize (s / c). clear. intros x. induction (pre ++ post) as [|k l IH]; [cbn; ring|]. cbn [map length]. rewrite Rsum_cons, IH, S_INR. cbn [pow]. field. }
  rewrite D. assert (D1 : 1 <= n * ((s / c) ^ 3 / 4)). { assert (X : (c / s) ^ 3 * (s / c) ^ 3 = 1) by (rewrite <- Rpow_mult_distr; replace (c / s * (s / c)) with 1 by (field; lra); apply pow1). assert (0 < (s / c) ^ 3) by (apply pow_lt, Rdiv_lt_0_compat; lra). nra. }
  set (O := Rsum (map (fun x : N => s ^ 2 / c * (rank_score r x - 1 / 2)) (pre ++ post))). exists (m + O). cbn [map]. unfold wl_player. cbn [fst snd]. split.
  - unfold wlt_in, wl_in. cbn [map fst snd]. replace (s ^ 2 / s ^ 2) with 1 by (field; lra). rewrite !Rmult_1_l, Rmax_right by lra. reflexivity.
  - assert (K : forall v, (forall k, In k (pre ++ post) -> rank_score r k = v) -> O = n * (s ^ 2 / c * (v - 1 / 2))). { intros v. unfold O, n. clear. induction (pre ++ post) as [|k l IH]; intros H; [cbn; ring|]. cbn [map length]. rewrite Rsum_cons, IH, S_INR, (H k (or_introl eq_refl)) by (intros; apply H; now right). ring. }
    repeat split; intros H.
    + rewrite (K 1); [field; lra|]. intros k I. specialize (H k I). unfold rank_score. destruct (N.compare_spec r k); try lia. reflexivity.
    + rewrite (K (1 / 2)); [ring|]. intros k I. rewrite (H k I). unfold rank_score. now rewrite N.compare_refl.
    + rewrite (K 0); [field; lra|]. intros k I. specialize (H k I). unfold rank_score. destruct (N.compare_spec r k); try lia. reflexivity.
Qed.
