(** Proofs of C122: ranks in a Weng-Lin game of many teams. *)
From Coq Require Import ZArith NArith List Bool Reals Lra Lia.
From Verif Require Import Arith XR Tac ModelLib ModelWengLin Spec SpecIn ProofElo ProofWengLin.
Import Spec ListNotations.
Local Open Scope R_scope.

Lemma rank_own r r' x : (r' < r)%N -> rank_score r x <= rank_score r' x /\ ((r' <= x <= r)%N -> rank_score r x < rank_score r' x) /\ (~ (r' <= x <= r)%N -> rank_score r x = rank_score r' x).
Proof.
  intro H. unfold rank_score. destruct (N.compare_spec r x), (N.compare_spec r' x); repeat split; intros; try lra; try lia.
Qed.
Lemma rank_other r r' x : (r' < r)%N -> rank_score x r' <= rank_score x r /\ ((r' <= x <= r)%N -> rank_score x r' < rank_score x r) /\ (~ (r' <= x <= r)%N -> rank_score x r' = rank_score x r).
Proof.
  intro H. unfold rank_score. destruct (N.compare_spec x r), (N.compare_spec x r'); repeat split; intros; try lra; try lia.
Qed.
Lemma wls_delta_mono beta th u th' u' a b : 0 < u -> 0 <= u' -> (a <= b -> wls_delta beta th u th' u' a <= wls_delta beta th u th' u' b) /\ (a < b -> wls_delta beta th u th' u' a < wls_delta beta th u th' u' b).
Proof.
  intros H H'. unfold wls_delta. cbv zeta. pose proof (wlc_pos beta u u' H H') as C. assert (P : 0 < u / wlc beta u u') by (apply Rdiv_lt_0_compat; assumption).
  split; intro L; [apply Rmult_le_compat_l|apply Rmult_lt_compat_l]; lra.
Qed.
Lemma Rsum_le_map {X} (f g : X -> R) l : (forall x, In x l -> f x <= g x) -> Rsum (map f l) <= Rsum (map g l).
Proof. induction l as [|x l IH]; intro H; cbn [map]; rewrite ?Rsum_cons; [lra|]. pose proof (H x (or_introl eq_refl)). specialize (IH (fun y I => H y (or_intror I))). lra. Qed.
Lemma Rsum_lt_map {X} (f g : X -> R) l : (forall x, In x l -> f x <= g x) -> (exists x, In x l /\ f x < g x) -> Rsum (map f l) < Rsum (map g l).
Proof.
  induction l as [|x l IH]; intros H (y & I & L); [destruct I|]. cbn [map]. rewrite !Rsum_cons. pose proof (H x (or_introl eq_refl)). destruct I as [->|I].
  - pose proof (Rsum_le_map f g l (fun z J => H z (or_intror J))). lra.
  - specialize (IH (fun z J => H z (or_intror J)) (ex_intro _ y (conj I L))). lra.
Qed.
Lemma F2_map {X Y} (P : Y -> Y -> Prop) (f g : X -> Y) l : (forall x, In x l -> P (f x) (g x)) -> Forall2 P (map f l) (map g l).
Proof. induction l as [|x l IH]; intro H; cbn; constructor; [apply H; left; reflexivity|apply IH; intros; apply H; right; assumption]. Qed.
Lemma player_cmp kappa u A B De (t : list (R * R)) : 0 < u -> Forall (fun p => 0 < snd p) t ->
  Forall2 (fun p q => snd p = snd q) (map (wl_player kappa u A De) t) (map (wl_player kappa u B De) t) /\
  (A <= B -> Forall2 (fun p q => fst p <= fst q) (map (wl_player kappa u A De) t) (map (wl_player kappa u B De) t)) /\
  (A < B -> Forall2 (fun p q => fst p < fst q) (map (wl_player kappa u A De) t) (map (wl_player kappa u B De) t)).
Proof.
  intros Hu Hf. rewrite Forall_forall in Hf. assert (P : forall p, In p t -> 0 < snd p ^ 2 / u) by (intros p I; apply Rdiv_lt_0_compat; [apply pow_lt, Hf, I|exact Hu]).
  split; [apply F2_map; reflexivity|]. split; intro L; apply F2_map; intros p I; specialize (P p I); unfold wl_player; cbn [fst]; apply Rplus_le_compat_l || apply Rplus_lt_compat_l; [apply Rmult_le_compat_l|apply Rmult_lt_compat_l]; lra.
Qed.

Lemma C122_own_proof : forall beta kappa pre t r r' post, 0 <= kappa -> (r' < r)%N -> Forall (fun x => wl_ok (fst x)) (pre ++ (t, r) :: post) ->
  let cfg := mkWLConfig (Fin beta) (Fin kappa) in
  exists a b, nth_error (weng_lin_multi_team (map wlr_in (pre ++ (t, r) :: post)) cfg) (length pre) = Some (wlt_in a) /\
    nth_error (weng_lin_multi_team (map wlr_in (pre ++ (t, r') :: post)) cfg) (length pre) = Some (wlt_in b) /\
    Forall2 (fun p q => snd p = snd q) a b /\ Forall2 (fun p q => fst p <= fst q) a b /\
    ((exists x, In x (pre ++ post) /\ (r' <= snd x <= r)%N) -> Forall2 (fun p q => fst p < fst q) a b) /\
    ((forall x, In x (pre ++ post) -> ~ (r' <= snd x <= r)%N) -> a = b).
Proof.
  intros beta kappa pre t r r' post Hk Hr HF cfg. exists (wl_team' beta kappa t r (pre ++ post)), (wl_team' beta kappa t r' (pre ++ post)).
  assert (HF' : Forall (fun x => wl_ok (fst x)) (pre ++ (t, r') :: post)) by (apply Forall_app in HF; destruct HF as [H1 H2]; apply Forall_app; split; [exact H1|]; inversion H2; constructor; assumption).
  split; [apply C46_formula_proof; assumption|]. split; [apply C46_formula_proof; assumption|].
  assert (Ht : wl_ok t). { rewrite Forall_forall in HF. apply (HF (t, r)). apply in_elt. } pose proof (wl_s2_pos t Ht) as U. destruct Ht as [_ Hf].
  set (os := pre ++ post). unfold wl_team'. cbv zeta. set (A := Rsum (map _ os)). set (De := Rsum (map _ os)). set (B := Rsum (map _ os)).
  destruct (player_cmp kappa (wl_s2 t) A B De t U Hf) as (P1 & P2 & P3). split; [exact P1|]. split.
  - apply P2, Rsum_le_map. intros [t' x] I. apply wls_delta_mono; [exact U|apply wl_s2_nonneg|apply rank_own, Hr].
  - split.
    + intros ([t' x] & I & H). apply P3, Rsum_lt_map; [intros [t2 y] J; apply wls_delta_mono; [exact U|apply wl_s2_nonneg|apply rank_own, Hr]|]. exists (t', x). split; [exact I|]. apply wls_delta_mono; [exact U|apply wl_s2_nonneg|apply rank_own; assumption].
    + intro H. replace B with A; [reflexivity|]. unfold A, B. f_equal. apply map_ext_in. intros [t' x] I. f_equal. apply rank_own; [exact Hr|]. apply (H (t', x) I).
Qed.
Lemma C122_others_proof : forall beta kappa pre t r r' post i t2 r2, 0 <= kappa -> (r' < r)%N -> Forall (fun x => wl_ok (fst x)) (pre ++ (t, r) :: post) ->
  i <> length pre -> nth_error (pre ++ (t, r) :: post) i = Some (t2, r2) ->
  let cfg := mkWLConfig (Fin beta) (Fin kappa) in
  exists a b, nth_error (weng_lin_multi_team (map wlr_in (pre ++ (t, r) :: post)) cfg) i = Some (wlt_in a) /\
    nth_error (weng_lin_multi_team (map wlr_in (pre ++ (t, r') :: post)) cfg) i = Some (wlt_in b) /\
    Forall2 (fun p q => snd p = snd q) a b /\
    ((r' <= r2 <= r)%N -> Forall2 (fun p q => fst q < fst p) a b) /\ (~ (r' <= r2 <= r)%N -> a = b).
Proof.
  intros beta kappa pre t r r' post i t2 r2 Hk Hr HF Hi Hn cfg. set (xs := pre ++ (t, r) :: post) in *. set (xs' := pre ++ (t, r') :: post).
  assert (HF' : Forall (fun x => wl_ok (fst x)) xs') by (unfold xs, xs' in *; apply Forall_app in HF; destruct HF as [H1 H2]; apply Forall_app; split; [exact H1|]; inversion H2; constructor; assumption).
  assert (Hn' : nth_error xs' i = Some (t2, r2)).
  { rewrite <- Hn. unfold xs, xs'. destruct (Nat.lt_ge_cases i (length pre)) as [L|L]; [rewrite !nth_error_app1 by exact L; reflexivity|]. rewrite !nth_error_app2 by exact L. destruct (i - length pre)%nat as [|j] eqn:E; [lia|reflexivity]. }
  unfold cfg. rewrite !wl_multi_eval by assumption. rewrite !nth_error_map. unfold wlx. rewrite Hn, Hn'. cbn [option_map]. exists (wl_outx beta kappa xs (t2, r2)), (wl_outx beta kappa xs' (t2, r2)). split; [reflexivity|]. split; [reflexivity|].
  assert (Ht2 : wl_ok t2) by (rewrite Forall_forall in HF; apply (HF (t2, r2)); eapply nth_error_In; exact Hn). assert (Ht : wl_ok t) by (rewrite Forall_forall in HF; apply (HF (t, r)); unfold xs; apply in_elt).
  pose proof (wl_s2_pos t2 Ht2) as U. destruct Ht2 as [_ Hf]. unfold wl_outx. cbn [fst].
  assert (DE : Rsum (map (xeta beta (t2, r2)) xs') = Rsum (map (xeta beta (t2, r2)) xs)) by (unfold xs, xs'; rewrite !map_app, !Rsum_app; cbn [map]; rewrite !Rsum_cons; reflexivity). rewrite DE.
  assert (DD : Rsum (map (xdelta beta (t2, r2)) xs') - Rsum (map (xdelta beta (t2, r2)) xs) = xdelta beta (t2, r2) (t, r') - xdelta beta (t2, r2) (t, r)) by (unfold xs, xs'; rewrite !map_app, !Rsum_app; cbn [map]; rewrite !Rsum_cons; ring).
  set (A := Rsum (map (xdelta beta (t2, r2)) xs) - xdelta beta (t2, r2) (t2, r2)). set (B := Rsum (map (xdelta beta (t2, r2)) xs') - xdelta beta (t2, r2) (t2, r2)). set (De := Rsum _ - _).
  destruct (player_cmp kappa (wl_s2 t2) B A De t2 U Hf) as (P1 & _ & P3).
  assert (FL : forall (P : R * R -> R * R -> Prop) a b, Forall2 P b a -> Forall2 (fun p q => P q p) a b) by (intros P a b F; induction F; constructor; assumption).
  destruct (rank_other r r' r2 Hr) as (_ & R2 & R3). destruct (wls_delta_mono beta (wl_theta t2) (wl_s2 t2) (wl_theta t) (wl_s2 t) (rank_score r2 r') (rank_score r2 r) U (wl_s2_nonneg t)) as [_ M].
  split; [apply FL in P1; revert P1; clear; induction 1; constructor; [symmetry; assumption|assumption]|]. split.
  - intro H. apply (FL (fun p q => fst p < fst q)), P3. specialize (M (R2 H)). unfold A, B. unfold xdelta in DD |- *. cbn [fst snd] in DD |- *. lra.
  - intro H. replace B with A; [reflexivity|]. specialize (R3 H). unfold A, B. unfold xdelta in DD |- *. cbn [fst snd] in DD |- *. rewrite R3 in DD. lra.
Qed.
Lemma C122_pairs_proof : forall beta kappa pre t r post k m s, 0 <= kappa -> Forall (fun x => wl_ok (fst x)) (pre ++ (t, r) :: post) -> nth_error t k = Some (m, s) ->
  let cfg := mkWLConfig (Fin beta) (Fin kappa) in
  exists a ds s', nth_error (weng_lin_multi_team (map wlr_in (pre ++ (t, r) :: post)) cfg) (length pre) = Some (wlt_in a) /\
    nth_error a k = Some (m + Rsum ds, s') /\
    Forall2 (fun x d => exists s'', nth_error (fst (weng_lin_two_teams (wlt_in t) (wlt_in (fst x)) (match N.compare r (snd x) with Lt => WIN | Eq => DRAW | Gt => LOSS end) cfg)) k = Some (mkWL (Fin (m + d)) (Fin s''))) (pre ++ post) ds.
Proof.
  intros beta kappa pre t r post k m s Hk HF Hn cfg. exists (wl_team' beta kappa t r (pre ++ post)).
  assert (Ht : wl_ok t). { rewrite Forall_forall in HF. apply (HF (t, r)). apply in_elt. }
  assert (HO : forall x, In x (pre ++ post) -> wl_ok (fst x)). { rewrite Forall_forall in HF. intros x Hx. apply HF. apply in_app_or in Hx. apply in_or_app. cbn. tauto. }
  set (f := fun x : list (R * R) * N => s ^ 2 / wl_s2 t * wls_delta beta (wl_theta t) (wl_s2 t) (wl_theta (fst x)) (wl_s2 (fst x)) (rank_score r (snd x))).
  exists (map f (pre ++ post)). eexists. split; [apply C46_formula_proof; assumption|]. split.
  - unfold wl_team'. cbv zeta. rewrite nth_error_map, Hn. cbn [option_map]. unfold wl_player. cbn [fst snd]. do 2 f_equal. f_equal. generalize (pre ++ post). intro l. induction l as [|[t' x] l IH]; cbn [map]; rewrite ?Rsum_nil, ?Rsum_cons; [ring|]. rewrite <- IH. unfold f. cbn [fst snd]. ring.
  - revert HO. generalize (pre ++ post). intros l HO. induction l as [|x l IH]; cbn [map]; constructor; [|apply IH; intros; apply HO; right; assumption].
    eexists. unfold cfg. rewrite wl_two_teams_eval; [|exact Hk|exact Ht|apply HO; left; reflexivity]. cbn [fst]. unfold wlt_in, wl_side. rewrite !nth_error_map, Hn. cbn [option_map]. unfold wl_player, wl_in. cbn [fst snd]. do 3 f_equal. unfold f. f_equal. f_equal. f_equal.
    unfold rank_score. destruct (N.compare r (snd x)); cbn [points]; lra.
Qed.
