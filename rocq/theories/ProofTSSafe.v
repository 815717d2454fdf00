(** Proofs about [trueskill_multi_team]: when it panics and when it does not. *)
From Coq Require Import ZArith NArith List Bool Lia Arith.PeanoNat Permutation Reals Lra.
From Verif Require Import Arith XR Tac ModelLib ModelWengLin ModelTS ModelTSGraph Spec SpecTS SpecInTS ProofTS ProofTSGraph.
Import ListNotations.

Section Safe.
  Context {F : Type} {A : Arith F}.
  Implicit Types (s : Store F).
  (** The message of factor [id] is present in variable [v]. *)
  Definition dom s v id := v_messages (s v) id <> None.
  Definition le_dom s s' := forall v id, dom s v id -> dom s' v id.
  Lemma le_refl s : le_dom s s. Proof. intros v i; auto. Qed.
  Lemma le_trans s s' s'' : le_dom s s' -> le_dom s' s'' -> le_dom s s''. Proof. intros H K v i; auto. Qed.
  Definition safe {X} s (m : M F X) (Q : X -> Store F -> Prop) : Prop :=
    exists s' x, m s = Some (s', x) /\ le_dom s s' /\ Q x s'.
  Definition tr {X} (_ : X) (_ : Store F) := True.
  Lemma safe_ret {X} s (x : X) (Q : X -> Store F -> Prop) : Q x s -> safe s (ret x) Q.
  Proof. intros H. exists s, x. auto using le_refl. Qed.
  Lemma safe_bind {X Y} s (m : M F X) (f : X -> M F Y) (Q : X -> Store F -> Prop) (R : Y -> Store F -> Prop) :
    safe s m Q -> (forall x s', le_dom s s' -> Q x s' -> safe s' (f x) R) -> safe s (bind m f) R.
  Proof.
    intros (s1 & x & E & L & H) K. destruct (K x s1 L H) as (s2 & y & E2 & L2 & H2).
    exists s2, y. unfold bind. rewrite E. eauto using le_trans.
  Qed.
  Lemma safe_weaken {X} s (m : M F X) (Q R : X -> Store F -> Prop) : safe s m Q -> (forall x s', le_dom s s' -> Q x s' -> R x s') -> safe s m R.
  Proof. intros (s1 & x & E & L & H) K. exists s1, x. auto. Qed.
  Lemma safe_put s v x (Q : unit -> Store F -> Prop) :
    (forall id, dom s v id -> v_messages x id <> None) -> (forall s', (forall id, v_messages x id <> None -> dom s' v id) -> Q tt s') -> safe s (put_var v x) Q.
  Proof.
    intros H K. eexists _, tt. split; [reflexivity|]. split.
    - intros w id D. unfold dom. destruct (Nat.eqb_spec w v) as [->|]; auto.
    - apply K. intros id D. unfold dom. now rewrite Nat.eqb_refl.
  Qed.
  Lemma safe_register s v id : safe s (register v id) (fun _ s' => dom s' v id).
  Proof.
    unfold register. eapply safe_bind with (Q := fun x s' => s' = s /\ x = s v).
    - exists s, (s v). auto using le_refl.
    - intros x s' _ [-> ->]. apply safe_put.
      + intros i D. unfold dom in D. cbn. destruct (Nat.eqb_spec i id) as [->|]; auto. destruct (v_messages (s v) id); congruence.
      + intros s' H. apply H. cbn. rewrite Nat.eqb_refl. destruct (v_messages (s v) id); congruence.
  Qed.
  Lemma safe_cavity s v id : dom s v id -> safe s (var_cavity v id) (fun _ s' => s' = s).
  Proof. unfold dom. intros D. unfold safe, var_cavity, bind, get_var, of_option. destruct (v_messages (s v) id) as [g|]; [|congruence]. eexists s, _. split; [reflexivity|]. auto using le_refl. Qed.
  Lemma safe_update_message s v id m : dom s v id -> safe s (update_message v id m) tr.
  Proof.
    intros D. unfold update_message, bind at 1, safe, get_var. unfold bind at 1, of_option. destruct (v_messages (s v) id) as [g|] eqn:E; [|exfalso; now apply D].
    cbv zeta. unfold bind, put_var, ret. eexists _, _. split; [reflexivity|]. split; [|exact I].
    intros w i Dw. unfold dom. destruct (Nat.eqb_spec w v) as [->|]; auto. cbn. unfold msg_set. destruct (Nat.eqb_spec i id); [discriminate|exact Dw].
  Qed.
  Lemma safe_update_value s v id m : dom s v id -> safe s (update_value v id m) tr.
  Proof.
    intros D. unfold update_value, bind at 1, safe, get_var. unfold bind at 1, of_option. destruct (v_messages (s v) id) as [g|] eqn:E; [|exfalso; now apply D].
    unfold bind, put_var, ret. eexists _, _. split; [reflexivity|]. split; [|exact I].
    intros w i Dw. unfold dom. destruct (Nat.eqb_spec w v) as [->|]; auto. cbn. unfold msg_set. destruct (Nat.eqb_spec i id); [discriminate|exact Dw].
  Qed.
  Lemma safe_for_each {X Y} s (l : list X) (body : X -> M F Y) (Q : X -> Store F -> Prop) :
    (forall x s1 s2, le_dom s1 s2 -> Q x s1 -> Q x s2) ->
    (forall x s', In x l -> le_dom s s' -> safe s' (body x) (fun _ => Q x)) -> safe s (for_each l body) (fun _ s' => Forall (fun x => Q x s') l).
  Proof.
    intros Mo. revert s. induction l as [|x l IH]; intros s H; cbn [for_each].
    - apply safe_ret. constructor.
    - eapply safe_bind; [apply H; [now left|apply le_refl]|]. intros y s1 L1 Q1. eapply safe_weaken.
      + apply IH. intros x' s' I L. apply H; [now right|eauto using le_trans].
      + intros ? s2 L2 H2. constructor; auto. eapply Mo; eauto.
  Qed.
  Lemma safe_for_each0 {X Y} s (l : list X) (body : X -> M F Y) :
    (forall x s', In x l -> le_dom s s' -> safe s' (body x) tr) -> safe s (for_each l body) tr.
  Proof. intros H. eapply safe_weaken; [apply (safe_for_each s l body (fun _ _ => True)); auto|]. intros; exact I. Qed.
  Lemma safe_for_fold {X Y} s (l : list X) (body : Y -> X -> M F Y) a :
    (forall x y s', In x l -> le_dom s s' -> safe s' (body y x) tr) -> safe s (for_fold l body a) tr.
  Proof.
    revert s a. induction l as [|x l IH]; intros s a H; cbn [for_fold].
    - apply safe_ret. exact I.
    - eapply safe_bind; [apply H; [now left|apply le_refl]|]. intros y s1 L1 _. apply IH. intros. apply H; [now right|eauto using le_trans].
  Qed.
  Lemma safe_map_m {X Y} s (l : list X) (body : X -> M F Y) (R : X -> Y -> Store F -> Prop) :
    (forall x y s1 s2, le_dom s1 s2 -> R x y s1 -> R x y s2) ->
    (forall x s', In x l -> le_dom s s' -> safe s' (body x) (R x)) -> safe s (map_m l body) (fun ys s' => Forall2 (fun x y => R x y s') l ys).
  Proof.
    intros Mo. revert s. induction l as [|x l IH]; intros s H; cbn [map_m].
    - apply safe_ret. constructor.
    - eapply safe_bind; [apply H; [now left|apply le_refl]|]. intros y s1 L1 R1. eapply safe_bind.
      + apply IH. intros x' s' I L. apply H; [now right|eauto using le_trans].
      + intros ys s2 L2 H2. apply safe_ret. constructor; auto. eapply Mo; eauto.
  Qed.

  (** Factors whose messages are all present. *)
  Definition good_prior s (f : PriorFactor) := dom s (pf_variable f) (pf_id f) /\
    feqb (fhypot (g_sigma (pf_val f)) (pf_dynamic f)) (#0)%flt = false.
  Definition good_lik s (f : LikelihoodFactor (F:=F)) := dom s (lf_mean f) (lf_id f) /\ dom s (lf_value f) (lf_id f).
  Definition good_sum s (f : SumFactor (F:=F)) := dom s (sf_sum f) (sf_id f) /\ Forall (fun t => dom s t (sf_id f)) (sf_terms f) /\
    length (sf_terms f) = length (sf_coeffs f).
  Definition good_trunc s (f : TruncateFactor (F:=F)) := dom s (tf_variable f) (tf_id f).
  Lemma good_sum_mono s s' f : le_dom s s' -> good_sum s f -> good_sum s' f.
  Proof. intros L (H1 & H2 & H3). repeat split; auto. eapply Forall_impl; [|exact H2]. intros; now apply L. Qed.
  Lemma safe_prior_down s f : good_prior s f -> safe s (prior_down f) tr.
  Proof.
    intros [D E]. unfold prior_down. cbv zeta. unfold g_with_mu_sigma. rewrite E. unfold bind, of_option. cbn. now apply safe_update_value.
  Qed.
  Lemma safe_lik_down s f : good_lik s f -> safe s (lik_down f) tr.
  Proof. intros [D E]. unfold lik_down. eapply safe_bind; [apply safe_cavity; exact D|]. intros x s' L ->. now apply safe_update_message. Qed.
  Lemma safe_lik_up s f : good_lik s f -> safe s (lik_up f) tr.
  Proof. intros [D E]. unfold lik_up. eapply safe_bind; [apply safe_cavity; exact E|]. intros x s' L ->. now apply safe_update_message. Qed.
  Lemma safe_sum_update s id var vals cs : dom s var id -> Forall (fun t => dom s t id) vals -> safe s (sum_update id var vals cs) tr.
  Proof.
    intros D H. rewrite Forall_forall in H. unfold sum_update. eapply safe_bind with (Q := fun _ s' => le_dom s s').
    - eapply safe_weaken; [apply (safe_map_m s vals (fun val => var_cavity val id) (fun _ _ _ => True)); auto|auto].
      intros x s' I L. eapply safe_weaken; [apply safe_cavity, L; auto|auto].
    - intros ds s' L _. destruct (fold_left _ _ _) as [pi mu]. cbv zeta. apply safe_update_message. auto.
  Qed.
  Lemma list_set_in {X} (l : list X) i y x : In x (list_set l i y) -> x = y \/ In x l.
  Proof. revert i. induction l as [|z l IH]; intros [|i]; cbn; intros H; try tauto. - destruct H; auto. - destruct H as [->|H]; auto. apply IH in H. tauto. Qed.
  Lemma safe_sum_down s f : good_sum s f -> safe s (sum_down f) tr.
  Proof. intros (H1 & H2 & H3). now apply safe_sum_update. Qed.
  Lemma safe_sum_up s f i : good_sum s f -> (i < length (sf_terms f))%nat -> safe s (sum_up f i) tr.
  Proof.
    intros (H1 & H2 & H3) L. unfold sum_up. destruct (nth_error (sf_coeffs f) i) as [c|] eqn:E1.
    - destruct (nth_error (sf_terms f) i) as [t|] eqn:E2.
      + unfold bind, of_option. change (safe s (sum_update (sf_id f) t (list_set (sf_terms f) i (sf_sum f)) (sum_up_coeffs (sf_coeffs f) i c)) tr).
        rewrite Forall_forall in H2. apply safe_sum_update.
        * apply H2. eapply nth_error_In; eauto.
        * apply Forall_forall. intros x Hx. apply list_set_in in Hx as [->|Hx]; auto.
      + apply nth_error_None in E2. lia.
    - apply nth_error_None in E1. lia.
  Qed.
  Lemma safe_trunc_up s f : good_trunc s f -> safe s (trunc_up f) tr.
  Proof. intros D. unfold trunc_up. eapply safe_bind; [apply safe_cavity; exact D|]. intros x s' L ->. cbv zeta. now apply safe_update_value. Qed.

  Lemma safe_sweep s diffs truncs : diffs <> [] -> length truncs = length diffs ->
    Forall (fun f => good_sum s f /\ length (sf_terms f) = 2%nat) diffs -> Forall (good_trunc s) truncs -> safe s (sweep diffs truncs) tr.
  Proof.
    intros NE L HD HT. rewrite Forall_forall in HD, HT.
    assert (GD : forall x s', (x < length diffs)%nat -> le_dom s s' -> good_sum s' (nth x diffs sum_default) /\ length (sf_terms (nth x diffs sum_default)) = 2%nat).
    { intros x s' Hx Ls. destruct (HD (nth x diffs sum_default)) as [G E]; [now apply nth_In|]. split; auto. eapply good_sum_mono; eauto. }
    assert (GT : forall x s', (x < length diffs)%nat -> le_dom s s' -> good_trunc s' (nth x truncs trunc_default)).
    { intros x s' Hx Ls. apply Ls. apply HT. apply nth_In. lia. }
    assert (ST : forall x y i s', (x < length diffs)%nat -> (i < 2)%nat -> le_dom s s' ->
       safe s' (do _ <- sum_down (nth x diffs sum_default); do d <- trunc_up (nth x truncs trunc_default); do _ <- sum_up (nth x diffs sum_default) i; ret (fmax y d)) tr).
    { intros x y i s' Hx Hi Ls. eapply safe_bind; [apply safe_sum_down, GD; auto|]. intros _ s1 L1 _.
      eapply safe_bind; [apply safe_trunc_up, GT; eauto using le_trans|]. intros d s2 L2 _.
      destruct (GD x s2 Hx) as [G E]; [eauto using le_trans|]. eapply safe_bind; [apply safe_sum_up; [exact G|lia]|]. intros _ s3 _ _. now apply safe_ret. }
    unfold sweep. destruct (length diffs) as [|[|k]] eqn:E; [destruct diffs; [congruence|discriminate]| |].
    - eapply safe_bind; [apply safe_sum_down, GD; auto using le_refl|]. intros _ s1 L1 _. apply safe_trunc_up, GT; auto.
    - eapply safe_bind.
      + apply safe_for_fold. intros x y s' Hx Ls. apply in_seq in Hx. apply ST; auto; lia.
      + intros d s1 L1 _. apply safe_for_fold. intros x y s' Hx Ls. apply in_rev, in_seq in Hx. apply ST; auto; [lia|eauto using le_trans].
  Qed.
  Lemma safe_iterate k s diffs truncs md : diffs <> [] -> length truncs = length diffs ->
    Forall (fun f => good_sum s f /\ length (sf_terms f) = 2%nat) diffs -> Forall (good_trunc s) truncs -> safe s (iterate_sweeps k diffs truncs md) tr.
  Proof.
    revert s. induction k as [|k IH]; intros s NE L HD HT; cbn [iterate_sweeps].
    - now apply safe_ret.
    - eapply safe_bind; [now apply safe_sweep|]. intros d s1 L1 _. destruct (fleb d md); [now apply safe_ret|]. apply IH; auto.
      + eapply Forall_impl; [|exact HD]. cbn. intros f [G E]. split; auto. eapply good_sum_mono; eauto.
      + eapply Forall_impl; [|exact HT]. cbn. intros f G. now apply L1.
  Qed.
  (** A player whose prior can be built. *)
  Definition good_player (tau : F) (p : TrueSkillRating F) : Prop :=
    feqb (ts_uncertainty p) (#0)%flt = false /\
    let pi := fpowi (ts_uncertainty p) (-2) in
    feqb (fhypot (g_sigma (mkG pi (fmul pi (ts_rating p)))) tau) (#0)%flt = false.
  Lemma Forall2_in_r {X Y} (P : X -> Y -> Prop) l l' : Forall2 P l l' -> Forall (fun y => exists x, In x l /\ P x y) l'.
  Proof.
    induction 1; constructor; [eexists; split; [now left|eauto]|]. eapply Forall_impl; [|exact IHForall2]. intros y' (x' & I & Hx). exists x'. split; [now right|auto].
  Qed.
  Lemma F2_length {X Y} (P : X -> Y -> Prop) l l' : Forall2 P l l' -> length l' = length l.
  Proof. induction 1; cbn; congruence. Qed.
  Lemma slice_same_length {X Y} (l : list X) (l' : list Y) a b : length l = length l' -> length (slice l a b) = length (slice l' a b).
  Proof. intros H. unfold slice. rewrite !firstn_length, !skipn_length. lia. Qed.

  Lemma safe_schedule s sizes trs rs ws tau beta dp md :
    (2 <= length trs)%nat -> length ws = length rs -> Forall (good_player tau) rs ->
    safe s (run_schedule sizes trs rs ws tau beta dp md) tr.
  Proof.
    intros HT HW HP. unfold run_schedule. cbv zeta.
    eapply safe_bind with (Q := fun l s' => length l = length rs /\ Forall (good_prior s') l).
    { unfold build_rating_layer. eapply safe_weaken.
      - apply (safe_map_m s (enumerate rs) _ (fun _ f s' => good_prior s' f)).
        + intros _ f s1 s2 L [D E]. split; auto.
        + intros [i p] s' I L. cbn [fst snd].
          assert (GP : good_player tau p). { rewrite Forall_forall in HP. apply HP. rewrite <- (enumerate_snd rs). apply (in_map snd) in I. exact I. }
          destruct GP as [G1 G2]. unfold g_with_mu_sigma. rewrite G1. unfold bind at 1, of_option, safe. cbv zeta in *.
          destruct (safe_register s' i (0 + i)) as (s1 & x & E & L1 & D). unfold bind. rewrite E. unfold ret. eexists _, _. split; [reflexivity|].
          split; [exact L1|]. split; [exact D|exact G2].
      - intros l s' L H. pose proof (F2_length _ _ _ H) as HL. split.
        + rewrite HL. unfold enumerate. rewrite combine_length, seq_length. lia.
        + apply Forall2_in_r in H. eapply Forall_impl; [|exact H]. cbn. intros f (x & _ & G). exact G. }
    intros rl s1 L1 [RL GR]. rewrite RL.
    eapply safe_bind with (Q := fun l s' => Forall (good_lik s') l).
    { unfold build_perf_layer. cbv zeta. eapply safe_weaken.
      - apply (safe_map_m s1 (seq 0 (length rs)) _ (fun _ f s' => good_lik s' f)).
        + intros _ f s2 s3 L [D E]. split; auto.
        + intros i s2 I L. eapply safe_bind; [apply safe_register|]. intros ? s3 L3 D3. eapply safe_bind; [apply safe_register|]. intros ? s4 L4 D4. apply safe_ret. split; cbn; auto.
      - intros l s' L H. apply Forall2_in_r in H. eapply Forall_impl; [|exact H]. cbn. intros f (x & _ & G). exact G. }
    intros pl s2 L2 GL.
    eapply safe_bind with (Q := fun l s' => Forall (good_sum s') l).
    { unfold build_team_perf_layer. cbv zeta. eapply safe_weaken.
      - apply (safe_map_m s2 (seq 0 (length sizes)) _ (fun _ f s' => good_sum s' f)).
        + intros _ f s3 s4 L G. eapply good_sum_mono; eauto.
        + intros t s3 I L. eapply safe_bind; [apply safe_register|]. intros ? s4 L4 D4.
          eapply safe_bind; [eapply (safe_for_each _ _ _ (fun c s' => dom s' c (0 + length rs + length pl + t)))|].
          * intros ? sa sb La Da. now apply La.
          * intros ? s' Hx Ls. apply safe_register.
          * intros ? s5 L5 D5. apply safe_ret. split; [now apply L5|]. split; [exact D5|]. cbn. apply slice_same_length. rewrite seq_length. lia.
      - intros l s' L H. apply Forall2_in_r in H. eapply Forall_impl; [|exact H]. cbn. intros f (x & _ & G). exact G. }
    intros tl s3 L3 GTL.
    eapply safe_bind. { apply safe_for_each0. intros f s' I L. apply safe_prior_down. rewrite Forall_forall in GR. destruct (GR f I) as [D E]. split; auto. }
    intros _ s4 L4 _.
    eapply safe_bind. { apply safe_for_each0. intros f s' I L. apply safe_lik_down. rewrite Forall_forall in GL. destruct (GL f I) as [D E]. split; eauto. }
    intros _ s5 L5 _.
    assert (G5 : forall s', le_dom s5 s' -> Forall (good_sum s') tl).
    { intros s' L. eapply Forall_impl; [|exact GTL]. intros f G. eapply good_sum_mono; [|exact G]. eauto using le_trans. }
    eapply safe_bind. { apply safe_for_each0. intros f s' I L. apply safe_sum_down. specialize (G5 s' L). rewrite Forall_forall in G5. now apply G5. }
    intros _ s6 L6 _.
    eapply safe_bind with (Q := fun l s' => length l = (length trs - 1)%nat /\ Forall (fun f => good_sum s' f /\ length (sf_terms f) = 2%nat) l).
    { unfold build_team_diff_layer. cbv zeta. eapply safe_weaken.
      - apply (safe_map_m s6 (seq 0 (length trs - 1)) _ (fun _ f s' => good_sum s' f /\ length (sf_terms f) = 2%nat)).
        + intros _ f sa sb L [G E]. split; auto. eapply good_sum_mono; eauto.
        + intros t sa I L. eapply safe_bind; [apply safe_register|]. intros ? sb Lb Db.
          eapply safe_bind; [eapply (safe_for_each _ _ _ (fun c s' => dom s' c (0 + length rs + length pl + length tl + t)))|].
          * intros ? s' s'' La Da. now apply La.
          * intros ? s' Hx Ls. apply safe_register.
          * intros ? sc Lc Dc. apply safe_ret. split; [|reflexivity]. split; [now apply Lc|]. split; [exact Dc|reflexivity].
      - intros l s' L H. pose proof (F2_length _ _ _ H) as HL. rewrite seq_length in HL. split; auto. apply Forall2_in_r in H. eapply Forall_impl; [|exact H]. cbn. intros f (x & _ & G). exact G. }
    intros dl s7 L7 [DL GD].
    eapply safe_bind with (Q := fun l s' => length l = (length trs - 1)%nat /\ Forall (good_trunc s') l).
    { unfold build_trunc_layer. cbv zeta. eapply safe_weaken.
      - apply (safe_map_m s7 (seq 0 (length trs - 1)) _ (fun _ f s' => good_trunc s' f)).
        + intros _ f sa sb L G. now apply L.
        + intros t sa I L. destruct (nth t trs _) as [t1 r1]. destruct (nth (S t) trs _) as [t2 r2].
          eapply safe_bind; [apply safe_register|]. intros ? sb Lb Db. apply safe_ret. exact Db.
      - intros l s' L H. pose proof (F2_length _ _ _ H) as HL. rewrite seq_length in HL. split; auto. apply Forall2_in_r in H. eapply Forall_impl; [|exact H]. cbn. intros f (x & _ & G). exact G. }
    intros ul s8 L8 [UL GU].
    assert (G8 : forall s', le_dom s8 s' -> Forall (fun f => good_sum s' f /\ length (sf_terms f) = 2%nat) dl).
    { intros s' L. eapply Forall_impl; [|exact GD]. cbn. intros f [G E]. split; auto. eapply good_sum_mono; [|exact G]. eauto using le_trans. }
    eapply safe_bind. { apply safe_iterate; auto using le_refl; [|lia]. intros ->. cbn in DL. lia. }
    intros _ s9 L9 _.
    assert (UP : forall s' k i, le_dom s8 s' -> (k < length dl)%nat -> (i < 2)%nat -> safe s' (sum_up (nth k dl sum_default) i) tr).
    { intros s' k i L Hk Hi. specialize (G8 s' L). rewrite Forall_forall in G8. destruct (G8 (nth k dl sum_default)) as [G E]; [now apply nth_In|]. apply safe_sum_up; auto. lia. }
    eapply safe_bind; [apply UP; eauto; lia|]. intros _ s10 L10 _.
    eapply safe_bind; [apply UP; eauto using le_trans; lia|]. intros _ s11 L11 _.
    assert (L511 : le_dom s5 s11) by eauto 10 using le_trans.
    eapply safe_bind.
    { apply safe_for_each0. intros f s' I L. assert (G : good_sum s' f). { assert (LL : le_dom s5 s') by eauto using le_trans. specialize (G5 s' LL). rewrite Forall_forall in G5. auto. }
      apply safe_for_each0. intros x s'' Ix Lx. apply in_seq in Ix. apply safe_sum_up; [eapply good_sum_mono; eauto|lia]. }
    intros _ s12 L12 _.
    eapply safe_bind. { apply safe_for_each0. intros f s' I L. apply safe_lik_up. rewrite Forall_forall in GL. destruct (GL f I) as [D E].
      assert (LL : le_dom s2 s') by eauto 15 using le_trans. split; auto. }
    intros _ s13 L13 _. now apply safe_ret.
  Qed.
  (** With one team the sweep panics. *)
  Lemma one_team_none sizes tr1 rs ws tau beta dp md s : run_schedule sizes [tr1] rs ws tau beta dp md s = None.
  Proof.
    unfold run_schedule. cbv zeta.
    repeat (unfold bind at 1; lazymatch goal with
      | |- match iterate_sweeps _ _ _ _ _ with Some _ => _ | None => None end = None => fail
      | |- match ?m with Some _ => _ | None => None end = None => destruct m as [[? ?]|] eqn:?; [|reflexivity] end).
    match goal with H : build_team_diff_layer _ _ _ _ = Some (_, ?l) |- _ => apply map_m_length in H; destruct l; [|discriminate H] end.
    reflexivity.
  Qed.
End Safe.

Local Open Scope R_scope.
Lemma xr_good_player m s tau : s <> 0 -> good_player (Fin tau) (ts_in (m, s)).
Proof.
  intros H. assert (P : 0 < s * s) by nra. unfold good_player, ts_in. cbn [ts_uncertainty ts_rating fst snd]. split.
  - rewrite xr_ofZ, xr_eqb. now apply Reqb_false.
  - cbv zeta. rewrite xr_powim2 by auto.
    unfold g_sigma. cbn [g_pi]. rewrite !xr_ofZ, !xr_eqb. assert (0 < / (s * s)) by now apply Rinv_0_lt_compat.
    rewrite (Reqb_false (/ (s * s))) by lra. rewrite xr_recip, xr_sqrt, xr_hypot, xr_eqb by (try (rewrite Rinv_inv); lra).
    rewrite Rinv_inv. apply Reqb_false. intros Z. assert (0 < sqrt (s * s)) by now apply sqrt_lt_R0.
    apply sqrt_eq_0 in Z; nra.
Qed.
Lemma xr_bad_player m s : s = 0 -> g_with_mu_sigma (ts_rating (ts_in (m, s))) (ts_uncertainty (ts_in (m, s))) = None.
Proof. intros ->. unfold g_with_mu_sigma, ts_in. cbn [ts_uncertainty ts_rating fst snd]. rewrite xr_ofZ, xr_eqb. now rewrite Reqb_true. Qed.
Lemma map_m_none {F X Y} (l : list X) (body : X -> M F Y) s : Exists (fun x => forall s', body x s' = None) l -> map_m l body s = None.
Proof.
  intros H. revert s. induction H as [x l H|x l H IH]; intros s; cbn [map_m]; unfold bind at 1.
  - now rewrite H.
  - destruct (body x s) as [[s1 y]|]; auto. unfold bind. now rewrite IH.
Qed.
Lemma schedule_bad_player sizes trs (ps : list (R * R)) ws tau beta dp md s : Exists (fun p => snd p = 0) ps ->
  run_schedule (F:=XR) sizes trs (tst_in ps) ws tau beta dp md s = None.
Proof.
  intros H. unfold run_schedule, bind at 1. replace (build_rating_layer (tst_in ps) tau 0 s) with (@None (Store XR * list (PriorFactor (F:=XR)))); [reflexivity|].
  symmetry. unfold build_rating_layer. apply map_m_none. apply Exists_exists in H as (p & I & E). apply In_nth_error in I as [i I].
  apply Exists_exists. exists (i, ts_in p). split.
  - apply nth_error_In with i. unfold tst_in, enumerate.
    assert (K : forall (k : nat) (l : list (TrueSkillRating XR)) i y, nth_error l i = Some y -> nth_error (combine (seq k (length l)) l) i = Some ((k + i)%nat, y)).
    { intros k l. revert k. induction l as [|z l IH]; intros k [|j] y HH; cbn in *; try discriminate.
      - injection HH as ->. now rewrite Nat.add_0_r.
      - rewrite (IH (S k) j y HH). f_equal. f_equal. lia. }
    apply (K 0%nat). now apply map_nth_error.
  - intros s'. cbn [fst snd]. destruct p as [m u]. cbn in E. rewrite xr_bad_player by auto. reflexivity.
Qed.
(** Real-valued weights. *)
Lemma weights_ok_real (ts : list (list (R * R))) ws : weights_ok (fun w => w < 0) ts ws ->
  weights_ok neg_weight (map tst_in ts) (map (map Fin) ws).
Proof.
  unfold weights_ok. induction 1 as [|t w ts ws [L H] _ IH]; cbn; constructor; auto. split; [unfold tst_in; now rewrite !map_length|].
  apply Forall_map. eapply Forall_impl; [|exact H]. cbn. intros x Hx. unfold neg_weight. rewrite xr_ofZ, xr_ltb. destruct (Rltb_spec x 0); congruence.
Qed.
Lemma wsum_length {X Y} (ts : list (list X)) (ws : list (list Y)) bad : weights_ok bad ts ws -> list_sum (map (@length _) ws) = list_sum (map (@length _) ts).
Proof. unfold weights_ok. induction 1 as [|t w ts ws [L H] _ IH]; unfold list_sum in *; cbn; lia. Qed.

Lemma C52_panic_proof : forall l ws dp beta tau,
  l <> [] -> Forall (fun x => fst x <> []) l -> weights_ok (fun w => w < 0) (map fst l) ws ->
  (trueskill_multi_team (map tsr_in l) (ts_cfg dp beta tau) (Some (map (map Fin) ws)) = Panic <->
   length l = 1%nat \/ Exists (fun x => Exists (fun p => snd p = 0) (fst x)) l).
Proof.
  intros l ws dp beta tau NE HF HW.
  set (e := combine (map tsr_in l) (map (map Fin) ws)).
  assert (LW : length ws = length l) by (clear -HW; unfold weights_ok in HW; apply F2_length in HW; now rewrite map_length in HW).
  assert (E1 : map fst e = map tsr_in l) by (apply map_fst_combine; now rewrite !map_length).
  assert (E2 : map snd e = map (map Fin) ws) by (apply map_snd_combine; now rewrite !map_length).
  assert (LE : length e = length l) by (unfold e; rewrite combine_length, !map_length; lia).
  assert (NE' : e <> []) by (destruct e; [destruct l; [congruence|discriminate]|discriminate]).
  assert (HF' : Forall (fun x => eteam x <> []) e).
  { apply Forall_forall. intros x Hx. apply (in_map fst) in Hx. rewrite E1 in Hx. apply in_map_iff in Hx as (y & Ey & Hy). unfold eteam. rewrite <- Ey.
    rewrite Forall_forall in HF. specialize (HF y Hy). cbn. intros Z. apply HF. destruct (fst y); [auto|discriminate]. }
  assert (OK : weights_ok neg_weight (map fst (map fst e)) (map snd e)).
  { rewrite E1, E2, map_map. replace (map (fun x => fst (tsr_in x)) l) with (map tst_in (map fst l)) by (rewrite map_map; reflexivity). now apply weights_ok_real. }
  destruct (multi_entries_kind e (ts_cfg dp beta tau) NE' HF') as (K1 & K2 & _). rewrite E1, E2 in K1, K2. rewrite E1, E2 in OK. specialize (K1 OK). specialize (K2 OK).
  set (se := sort_by_key trank e) in *.
  assert (PE : Permutation e se) by apply sort_perm.
  assert (LS : length se = length l) by (rewrite <- (Permutation_length PE); auto).
  (* the sorted players, as reals *)
  assert (RS : exists ps, concat (map fst (map fst se)) = tst_in (concat ps) /\ Permutation (map fst l) ps).
  { assert (PM : Permutation (map tst_in (map fst l)) (map fst (map fst se))).
    { replace (map tst_in (map fst l)) with (map fst (map fst e)) by (rewrite E1, !map_map; reflexivity). now apply Permutation_map, Permutation_map. }
    apply Permutation_sym, Permutation_map_inv in PM as (ps & EQ & PP). exists ps. split; auto. rewrite EQ. unfold tst_in. now rewrite concat_map. }
  destruct RS as (ps & RS & PP).
  assert (EXE : Exists (fun x => Exists (fun p => snd p = 0) (fst x)) l <-> Exists (fun p => snd p = 0) (concat ps)).
  { rewrite !Exists_exists. split.
    - intros (x & I & X). apply Exists_exists in X as (p & Ip & X). exists p. split; auto. apply in_concat. exists (fst x). split; auto.
      eapply Permutation_in; [exact PP|]. now apply in_map.
    - intros (p & I & X). apply in_concat in I as (t & It & Ip). apply (Permutation_in _ (Permutation_sym PP)) in It. apply in_map_iff in It as (x & <- & Ix).
      exists x. split; auto. apply Exists_exists. eauto. }
  split.
  - intros HP. destruct (Nat.eq_dec (length l) 1) as [L1|L1]; [now left|]. right. apply EXE.
    destruct (Exists_dec (fun p : R * R => snd p = 0) (concat ps)) as [D|D]; [intros p; apply Req_EM_T|exact D|]. exfalso.
    destruct K2 as [r K2]; [|congruence]. unfold ts_core. cbv zeta.
    destruct (safe_schedule (fun _ => var_new) (team_sizes (map fst (map fst se))) (map fst se) (concat (map fst (map fst se))) (concat (map snd se)) (Fin tau) (Fin beta) (Fin dp) ts_min_delta) as (s' & x & EQ & _).
    + rewrite map_length, LS. destruct l as [|? [|? ?]]; cbn in *; try congruence; lia.
    + rewrite !concat_length'. apply (wsum_length _ _ neg_weight). apply (weights_ok_entries se). eapply Permutation_Forall; [exact PE|]. apply (weights_ok_entries e). now rewrite E1, E2.
    + rewrite RS. unfold tst_in. apply Forall_map, Forall_forall. intros [m u] I. apply xr_good_player. intros Z. apply D. apply Exists_exists. eauto.
    + cbn [ts_cfg ts_dynamics_factor ts_beta ts_draw_probability]. rewrite EQ. discriminate.
  - intros HC. apply K1. unfold ts_core. cbv zeta. destruct HC as [L1|EX].
    + destruct se as [|x [|? ?]]; cbn in LS; try lia. cbn [map]. now rewrite one_team_none.
    + rewrite RS. rewrite schedule_bad_player; [reflexivity|]. now apply EXE.
Qed.
Lemma C52_total_proof : forall l ws dp beta tau,
  (2 <= length l)%nat -> Forall (fun x => Forall (fun p => 0 < snd p) (fst x)) l -> weights_ok (fun w => w < 0) (map fst l) ws ->
  exists r, trueskill_multi_team (map tsr_in l) (ts_cfg dp beta tau) (Some (map (map Fin) ws)) = Ok r.
Proof.
  intros l ws dp beta tau H2 HP HW.
  destruct (existsb (fun x : list (R * R) * N => is_empty (fst x)) l) eqn:EX.
  - eexists. apply C52_empty_proof. left. apply existsb_exists in EX as (x & I & E). apply Exists_exists. exists (tsr_in x). split; [now apply in_map|].
    cbn. destruct (fst x); [reflexivity|discriminate].
  - assert (HF : Forall (fun x => fst x <> []) l).
    { clear -EX. induction l as [|[t k] l IH]; constructor; cbn in *; apply orb_false_iff in EX as [E1 E2]; auto. destruct t; [discriminate|congruence]. }
    assert (NE : l <> []) by (intros ->; cbn in H2; lia).
    destruct (trueskill_multi_team (map tsr_in l) (ts_cfg dp beta tau) (Some (map (map Fin) ws))) as [r|e|] eqn:E; [eauto| |].
    + exfalso. destruct (C49_rate_proof XR _ (map tsr_in l) (ts_cfg dp beta tau) (map (map Fin) ws)) as (_ & K & _).
      * destruct l; [congruence|discriminate].
      * apply Forall_map. eapply Forall_impl; [|exact HF]. cbn. intros x Hx Z. apply Hx. destruct (fst x); [auto|discriminate].
      * apply (proj1 K); [eauto|]. rewrite map_map. replace (map (fun x => fst (tsr_in x)) l) with (map tst_in (map fst l)) by (rewrite map_map; reflexivity). now apply weights_ok_real.
    + exfalso. apply C52_panic_proof in E; auto. destruct E as [E|E]; [lia|]. apply Exists_exists in E as (x & I & X). apply Exists_exists in X as (p & Ip & X).
      rewrite Forall_forall in HP. specialize (HP x I). rewrite Forall_forall in HP. specialize (HP p Ip). lra.
Qed.
Lemma C52_one_team_proof : forall (F : Type) (A : Arith F) (t : list (TrueSkillRating F)) k cfg, t <> [] ->
  trueskill_multi_team [(t, mto_new k)] cfg None = Panic.
Proof.
  intros F A t k cfg H. unfold trueskill_multi_team. cbn [is_empty existsb fst]. destruct t as [|p t]; [congruence|].
  cbn [is_empty orb map fst get_weights enumerate combine length seq sort_by_key insert_by_key snd].
  cbv zeta. cbn [enumerate combine length seq sort_by_key insert_by_key map fst snd]. now rewrite one_team_none.
Qed.
