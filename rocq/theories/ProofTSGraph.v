(** Proofs about [trueskill_multi_team]: shape of the result, order of the
    teams, absence of panics. *)
From Coq Require Import ZArith NArith List Bool Lia Arith.PeanoNat Permutation Sorted Reals Lra.
From Verif Require Import Arith XR ModelLib ModelWengLin ModelTS ModelTSGraph Spec SpecTS SpecInTS ProofTS.
Import ListNotations.

(** ** Sorting by key *)
Section Sort.
  Context {X : Type} (key : X -> N).
  Lemma insert_perm x l : Permutation (x :: l) (insert_by_key key x l).
  Proof.
    induction l as [|y l IH]; cbn [insert_by_key]; auto. destruct (key x <=? key y)%N; auto.
    eapply perm_trans; [apply perm_swap|]. now constructor.
  Qed.
  Lemma sort_perm l : Permutation l (sort_by_key key l).
  Proof. induction l as [|x l IH]; cbn [sort_by_key]; auto. eapply perm_trans; [|apply insert_perm]. now constructor. Qed.
  Definition keyle x y := (key x <= key y)%N.
  Lemma insert_sorted x l : StronglySorted keyle l -> StronglySorted keyle (insert_by_key key x l).
  Proof.
    induction 1 as [|y l S IH H]; cbn [insert_by_key].
    - repeat constructor.
    - destruct (N.leb_spec (key x) (key y)) as [L|L].
      + constructor; [constructor; auto|]. constructor; [exact L|]. eapply Forall_impl; [|exact H]. unfold keyle. cbn. lia.
      + constructor; auto. eapply Permutation_Forall; [apply insert_perm|]. constructor; auto. unfold keyle. lia.
  Qed.
  Lemma sort_sorted l : StronglySorted keyle (sort_by_key key l).
  Proof. induction l; cbn [sort_by_key]; [constructor|]. now apply insert_sorted. Qed.
  Lemma sorted_unique l l' : StronglySorted keyle l -> StronglySorted keyle l' -> Permutation l l' ->
    NoDup (map key l) -> l = l'.
  Proof.
    intros S. revert l'. induction S as [|x l S IH H]; intros l' S' P ND.
    - apply Permutation_nil in P. auto.
    - destruct l' as [|y l']; [apply Permutation_sym, Permutation_nil in P; discriminate|].
      assert (x = y).
      { cbn [map] in ND. inversion ND as [|? ? N1 N2]; subst.
        inversion S' as [|? ? S1 H1]; subst.
        assert (In x (y :: l')) as [->|Ix] by (eapply Permutation_in; [exact P|now left]); auto.
        assert (In y (x :: l)) as [->|Iy] by (eapply Permutation_in; [apply Permutation_sym; exact P|now left]); auto.
        exfalso. rewrite Forall_forall in H, H1. apply H in Iy as L1. apply H1 in Ix as L2. unfold keyle in *.
        assert (E : key x = key y) by lia. apply N1. rewrite E. now apply in_map. }
      subst y. f_equal. apply IH.
      + now inversion S'.
      + now apply Permutation_cons_inv in P.
      + now inversion ND.
  Qed.
  Lemma sort_unique l l' : Permutation l l' -> NoDup (map key l) -> sort_by_key key l = sort_by_key key l'.
  Proof.
    intros P ND. apply sorted_unique; try apply sort_sorted.
    - eapply perm_trans; [apply Permutation_sym, sort_perm|]. eapply perm_trans; [exact P|apply sort_perm].
    - eapply Permutation_NoDup; [|exact ND]. apply Permutation_map, sort_perm.
  Qed.
  Lemma sort_of_sorted l : StronglySorted keyle l -> NoDup (map key l) -> sort_by_key key l = l.
  Proof. intros S ND. symmetry. apply sorted_unique; auto; [apply sort_sorted|apply sort_perm]. Qed.
End Sort.
Lemma sort_map {X Y} (f : X -> Y) (k : Y -> N) l : map f (sort_by_key (fun x => k (f x)) l) = sort_by_key k (map f l).
Proof.
  assert (I : forall x l, map f (insert_by_key (fun x => k (f x)) x l) = insert_by_key k (f x) (map f l)).
  { intros x l0. induction l0 as [|y l0 IH]; cbn; auto. destruct (_ <=? _)%N; cbn; auto. now rewrite IH. }
  induction l as [|x l IH]; cbn; auto. now rewrite I, IH.
Qed.
Lemma enumerate_fst {X} (l : list X) : map fst (enumerate l) = seq 0 (length l).
Proof.
  unfold enumerate. generalize 0%nat. induction l as [|x l IH]; intros k; cbn; auto. now rewrite IH.
Qed.
Lemma enumerate_snd {X} (l : list X) : map snd (enumerate l) = l.
Proof. unfold enumerate. generalize 0%nat. induction l as [|x l IH]; intros k; cbn; auto. now rewrite IH. Qed.
Lemma enumerate_in {X} (d : X) (l : list X) i x : In (i, x) (enumerate l) -> (i < length l)%nat /\ x = nth i l d.
Proof.
  rewrite (enumerate_nth d). intros H. apply in_map_iff in H as (j & E & H). apply in_seq in H. injection E as -> ->. split; [lia|auto].
Qed.
Lemma map_fst_combine {X Y} (a : list X) (b : list Y) : length a = length b -> map fst (combine a b) = a.
Proof. revert b. induction a as [|x a IH]; intros [|y b] H; try discriminate; cbn; auto. f_equal. apply IH. cbn in H. lia. Qed.
Lemma map_snd_combine {X Y} (a : list X) (b : list Y) : length a = length b -> map snd (combine a b) = b.
Proof. revert b. induction a as [|x a IH]; intros [|y b] H; try discriminate; cbn; auto. f_equal. apply IH. cbn in H. lia. Qed.
Lemma combine_split' {X Y} (l : list (X * Y)) : combine (map fst l) (map snd l) = l.
Proof. induction l as [|[x y] l IH]; cbn; auto. now rewrite IH. Qed.
Lemma seq_sorted_N k n : NoDup (map N.of_nat (seq k n)).
Proof. apply FinFun.Injective_map_NoDup; [intros x y; apply Nnat.Nat2N.inj|apply seq_NoDup]. Qed.
(** Restoring the original order. *)
Lemma unsort_spec {X} (idx : list nat) (gs : list X) : length idx = length gs -> Permutation (seq 0 (length gs)) idx ->
  let l := sort_by_key (fun v : nat * X => N.of_nat (fst v)) (combine idx gs) in
  Permutation (combine idx gs) l /\ map fst l = seq 0 (length gs).
Proof.
  intros L P l. split; [apply sort_perm|].
  transitivity (sort_by_key N.of_nat idx).
  - unfold l. rewrite (sort_map fst N.of_nat). f_equal. now apply map_fst_combine.
  - rewrite <- (sort_unique N.of_nat _ _ P) by apply seq_sorted_N.
    apply sort_of_sorted; [|apply seq_sorted_N].
    clear. generalize 0%nat. induction (length gs) as [|n IH]; intros k; cbn [seq]; constructor; auto.
    apply Forall_forall. intros i Hi. apply in_seq in Hi. unfold keyle. lia.
Qed.

(** ** Shape *)
Section Shape.
  Context {F : Type} {A : Arith F}.
  Implicit Types (trs : list (list (TrueSkillRating F) * MultiTeamOutcome)).
  Lemma map_m_length {X Y} (l : list X) (body : X -> M F Y) s s' ys : map_m l body s = Some (s', ys) -> length ys = length l.
  Proof.
    revert s ys. induction l as [|x l IH]; intros s ys; cbn [map_m].
    - unfold ret. intros [= _ <-]. reflexivity.
    - unfold bind. destruct (body x s) as [[s1 y]|]; [|discriminate]. destruct (map_m l body s1) as [[s2 ys']|] eqn:E; [|discriminate].
      unfold ret. intros [= -> <-]. cbn. f_equal. eauto.
  Qed.
  (** The players and new teams of the sorted list. *)
  Definition ts_core (cfg : TrueSkillConfig F) (l : list (list (TrueSkillRating F) * MultiTeamOutcome * list F))
    : option (list (list (TrueSkillRating F))) :=
    let sizes := team_sizes (map fst (map fst l)) in
    match run_schedule sizes (map fst l) (concat (map fst (map fst l))) (concat (map snd l))
            (ts_dynamics_factor cfg) (ts_beta cfg) (ts_draw_probability cfg) ts_min_delta (fun _ => var_new) with
    | None => None
    | Some (s, layer) => Some (read_groups s layer sizes)
    end.
  Definition trank (x : list (TrueSkillRating F) * MultiTeamOutcome * list F) : N := mto_rank (snd (fst x)).
  Lemma multi_core trs cfg ws wl : trs <> [] -> Forall (fun x => fst x <> []) trs -> get_weights (map fst trs) ws = Ok wl ->
    let sorted := sort_by_key (fun v => trank (snd v)) (enumerate (combine trs wl)) in
    trueskill_multi_team trs cfg ws =
      match ts_core cfg (map snd sorted) with
      | None => Panic
      | Some gs => Ok (map snd (sort_by_key (fun v : nat * list (TrueSkillRating F) => N.of_nat (fst v)) (combine (map fst sorted) gs)))
      end.
  Proof.
    intros H1 H2 HW sorted. unfold trueskill_multi_team. rewrite (nonempty_existsb trs H2).
    destruct trs as [|t0 trs0]; [congruence|]. cbn [is_empty]. rewrite HW. cbv zeta.
    unfold ts_core. rewrite !map_map. unfold sorted, trank. destruct (run_schedule _ _ _ _ _ _ _ _ _) as [[s layer]|]; reflexivity.
  Qed.
  Lemma team_sizes_from_length a l : length (team_sizes_from a l) = length l.
  Proof. revert a. induction l; intros; cbn; auto. Qed.
  Lemma team_sizes_nth a l t : (t < length l)%nat -> nth t (team_sizes_from a l) O = (a + list_sum (firstn (S t) l))%nat.
  Proof.
    revert a t. induction l as [|k l IH]; intros a t H; [cbn in H; lia|]. destruct t as [|t].
    - cbn. lia.
    - cbn [team_sizes_from nth]. rewrite IH by (cbn in H; lia). rewrite (firstn_cons (S t)). unfold list_sum. cbn [fold_right]. lia.
  Qed.
  Lemma firstn_S_sum l t : (t < length l)%nat -> list_sum (firstn (S t) l) = (list_sum (firstn t l) + nth t l O)%nat.
  Proof.
    revert t. induction l as [|k l IH]; intros t H; [cbn in H; lia|]. destruct t as [|t].
    - cbn. lia.
    - rewrite (firstn_cons (S t)), (firstn_cons t). cbn [nth]. specialize (IH t). unfold list_sum in *. cbn [fold_right]. rewrite IH by (cbn in H; lia). lia.
  Qed.
  Lemma firstn_sum_le l t : (list_sum (firstn t l) <= list_sum l)%nat.
  Proof. rewrite <- (firstn_skipn t l) at 2. rewrite list_sum_app. lia. Qed.
  Lemma team_start_sum l t : (t <= length l)%nat -> team_start (team_sizes_from 0 l) t = list_sum (firstn t l).
  Proof. destruct t as [|t]; intros H; [reflexivity|]. cbn [team_start]. now rewrite team_sizes_nth by lia. Qed.
  Lemma slice_length {X} (l : list X) a b : (b <= length l)%nat -> length (slice l a b) = (b - a)%nat.
  Proof. intros H. unfold slice. rewrite firstn_length, skipn_length. lia. Qed.
  Lemma concat_length' {X} (l : list (list X)) : length (concat l) = list_sum (map (@length _) l).
  Proof. induction l; cbn; auto. rewrite app_length. unfold list_sum in *. cbn. lia. Qed.
  Lemma slice_team_length {X Y} (l : list X) (ts : list (list Y)) t : length l = list_sum (map (@length _) ts) -> (t < length ts)%nat ->
    length (slice l (team_start (team_sizes_from 0 (map (@length _) ts)) t) (nth t (team_sizes_from 0 (map (@length _) ts)) O)) = length (nth t ts []).
  Proof.
    intros L H. assert (H' : (t < length (map (@length Y) ts))%nat) by (rewrite map_length; auto).
    rewrite slice_length; rewrite team_sizes_nth by auto; [|rewrite L; apply firstn_sum_le].
    rewrite team_start_sum by lia. rewrite firstn_S_sum by auto. rewrite <- (map_nth (@length Y) ts [] t). cbn [length]. lia.
  Qed.
  Lemma schedule_layer_length sizes trs rs ws tau beta dp md s s' layer :
    run_schedule sizes trs rs ws tau beta dp md s = Some (s', layer) -> length layer = length rs.
  Proof.
    unfold run_schedule, bind at 1. destruct (build_rating_layer rs tau 0 s) as [[s1 l1]|] eqn:E; [|discriminate].
    intros H. assert (layer = l1).
    { revert H. cbv zeta. clear E. 
      repeat (unfold bind at 1; match goal with |- context [match ?m with Some _ => _ | None => None end] => destruct m as [[? ?]|]; [|discriminate] end).
      unfold ret. congruence. }
    subst layer. unfold build_rating_layer in E. apply map_m_length in E. rewrite E. unfold enumerate. rewrite combine_length, seq_length. lia.
  Qed.
  Lemma core_shape cfg l gs : ts_core cfg l = Some gs -> Forall2 (fun g x => length g = length (fst (fst x))) gs l.
  Proof.
    unfold ts_core. destruct (run_schedule _ _ _ _ _ _ _ _ _) as [[s layer]|] eqn:E; [|discriminate]. intros [= <-].
    apply schedule_layer_length in E. rewrite concat_length' in E. unfold read_groups, team_sizes. rewrite team_sizes_from_length, !map_length.
    set (P := fun (g : list (TrueSkillRating F)) (x : list (TrueSkillRating F) * MultiTeamOutcome * list F) => length g = length (fst (fst x))).
    assert (K : forall (d : list (TrueSkillRating F) * MultiTeamOutcome * list F) k l', (forall j, (j < length l')%nat -> nth j l' d = nth (k + j) l d) -> (k + length l' <= length l)%nat ->
      Forall2 P (map (fun t => map (fun f => mkTS (g_mu (v_gaussian (s (pf_variable f)))) (g_sigma (v_gaussian (s (pf_variable f)))))
          (slice layer (team_start (team_sizes_from 0 (map (@length _) (map fst (map fst l)))) t) (nth t (team_sizes_from 0 (map (@length _) (map fst (map fst l)))) O))) (seq k (length l'))) l').
    { intros d k l'. revert k. induction l' as [|x l' IH]; intros k Hn Hk; cbn [length seq map]; constructor.
      - unfold P. rewrite map_length, slice_team_length; auto; [|rewrite !map_length; cbn in Hk; lia].
        rewrite map_map. rewrite (nth_indep _ [] (fst (fst d))) by (rewrite map_length; cbn in Hk; lia).
        rewrite (map_nth (fun x => fst (fst x)) l d k). rewrite <- (Nat.add_0_r k), <- (Hn O) by (cbn; lia). reflexivity.
      - apply IH; [|cbn in Hk; lia]. intros j Hj. specialize (Hn (S j)). cbn [nth length] in Hn. rewrite Hn by lia. f_equal. lia. }
    destruct l as [|x l]; [constructor|]. apply (K x 0%nat); auto.
  Qed.
  (** Result list for a result of the core. *)
  Lemma multi_ok trs cfg ws wl r : trs <> [] -> Forall (fun x => fst x <> []) trs -> get_weights (map fst trs) ws = Ok wl ->
    trueskill_multi_team trs cfg ws = Ok r -> length wl = length trs ->
    let sorted := sort_by_key (fun v => trank (snd v)) (enumerate (combine trs wl)) in
    exists gs, ts_core cfg (map snd sorted) = Some gs /\ length r = length trs /\ length gs = length trs /\
      Permutation (combine (map fst sorted) gs) (combine (seq 0 (length trs)) r) /\ Forall2 (fun g v => length g = length (fst (fst (snd v)))) gs sorted.
  Proof.
    intros H1 H2 HW HR HL sorted. rewrite (multi_core trs cfg ws wl H1 H2 HW) in HR. cbv zeta in HR. fold sorted in HR.
    destruct (ts_core cfg (map snd sorted)) as [gs|] eqn:E; [|discriminate]. injection HR as <-. exists gs. split; auto.
    pose proof (core_shape _ _ _ E) as SH.
    assert (SL : length sorted = length trs).
    { unfold sorted. rewrite <- (Permutation_length (sort_perm _ _)). unfold enumerate. rewrite combine_length, seq_length, combine_length. lia. }
    assert (GL : length gs = length trs).
    { rewrite <- SL, <- (map_length snd sorted). clear -SH. induction SH; cbn; congruence. }
    assert (PI : Permutation (seq 0 (length gs)) (map fst sorted)).
    { rewrite GL. replace (length trs) with (length (combine trs wl)) by (rewrite combine_length; lia). rewrite <- enumerate_fst.
      apply Permutation_map, sort_perm. }
    destruct (unsort_spec (map fst sorted) gs) as [U1 U2]; [rewrite map_length; lia|auto|]. cbv zeta in U1, U2.
    set (L := sort_by_key (fun v : nat * list (TrueSkillRating F) => N.of_nat (fst v)) (combine (map fst sorted) gs)) in *.
    split; [rewrite map_length, <- (map_length fst L), U2, seq_length; auto|]. split; auto. split.
    - rewrite <- GL, <- U2, combine_split'. exact U1.
    - clearbody sorted. clear -SH. remember (map snd sorted) as m eqn:E. revert sorted E. induction SH; intros [|v sorted] E; try discriminate; constructor.
      + injection E as -> ->. auto.
      + injection E as -> ->. auto.
  Qed.
  Lemma get_weights_len trs ws wl : get_weights (map fst trs) ws = Ok wl -> length wl = length trs.
  Proof.
    destruct ws as [ws|].
    - destruct (get_weights_cases (map fst trs) ws) as [[E OK]|[e E]]; rewrite E; [|discriminate]. intros [= <-].
      apply weights_ok_length in OK. now rewrite map_length in OK.
    - cbn [get_weights]. intros [= <-]. now rewrite !map_length.
  Qed.
  Lemma seq_combine_nth {X} k (r : list X) i x : In (i, x) (combine (seq k (length r)) r) -> nth_error r (i - k) = Some x /\ (k <= i)%nat.
  Proof.
    revert k. induction r as [|y r IH]; intros k; cbn; [tauto|]. intros [[= -> ->]|H].
    - rewrite Nat.sub_diag. auto.
    - apply IH in H as [H1 H2]. replace (i - k)%nat with (S (i - S k)) by lia. split; auto; lia.
  Qed.
End Shape.

Lemma C52_shape_proof : forall (F : Type) (A : Arith F) (trs : list (list (TrueSkillRating F) * MultiTeamOutcome)) cfg ws r,
  trueskill_multi_team trs cfg ws = Ok r ->
  Forall2 (fun new old => length new = length (fst old)) r trs.
Proof.
  intros F A trs cfg ws r H.
  destruct (list_eq_dec (fun (x y : unit) => left (match x, y with tt, tt => eq_refl end)) (map (fun _ => tt) trs) []) as [E|NE].
  { destruct trs; [|discriminate]. cbn in H. injection H as <-. constructor. }
  assert (NE' : trs <> []) by (intros ->; now apply NE).
  destruct (existsb (fun t => is_empty (fst t)) trs) eqn:EX.
  { unfold trueskill_multi_team in H. rewrite EX in H. assert (E : map fst trs = r) by (destruct trs; [congruence|]; cbn [is_empty] in H; congruence).
    subst r. clear. induction trs; constructor; auto. }
  assert (HF : Forall (fun x => fst x <> []) trs).
  { clear -EX. induction trs as [|[t k] l IH]; constructor; cbn in *; apply orb_false_iff in EX as [E1 E2]; auto. destruct t; [discriminate|congruence]. }
  destruct (get_weights (map fst trs) ws) as [wl|e|] eqn:HW.
  2,3: unfold trueskill_multi_team in H; rewrite EX in H; destruct trs; [congruence|]; cbn [is_empty] in H; rewrite HW in H; discriminate.
  pose proof (get_weights_len _ _ _ HW) as WL.
  destruct (multi_ok trs cfg ws wl r NE' HF HW H WL) as (gs & EC & RL & GL & PM & SH). cbv zeta in *.
  set (sorted := sort_by_key _ _) in *.
  assert (SP : Permutation (enumerate (combine trs wl)) sorted) by apply sort_perm.
  (* every pair (position, group) has the size of the team at that position *)
  assert (K : Forall (fun p : nat * list (TrueSkillRating F) => exists t, nth_error trs (fst p) = Some t /\ length (snd p) = length (fst t)) (combine (map fst sorted) gs)).
  { assert (IN : forall v, In v sorted -> nth_error trs (fst v) = Some (fst (snd v))).
    { intros [i [t w]] Hv. apply (Permutation_in _ (Permutation_sym SP)) in Hv. 
      destruct trs as [|t0 trs0]; [congruence|]. destruct wl as [|w0 wl0]; [discriminate|].
      apply (enumerate_in (t0, w0)) in Hv as [L E]. rewrite combine_length in L. rewrite combine_nth in E by auto. assert (E' : t = nth i (t0 :: trs0) t0) by congruence.
      cbn [fst snd]. rewrite E'. apply nth_error_nth'. lia. }
    clearbody sorted. clear -SH IN. induction SH as [|g v gs sorted H _ IH]; cbn; constructor; auto with datatypes.
    exists (fst (snd v)). split; [apply IN; now left|exact H]. }
  eapply Permutation_Forall in K; [|exact PM].
  rewrite Forall_forall in K. clear -K RL.
  assert (G : forall k l', (forall j t, nth_error l' j = Some t -> nth_error trs (k + j) = Some t) -> length l' = length trs - k ->
     forall r', (forall j g, nth_error r' j = Some g -> nth_error r (k + j) = Some g) -> length r' = length r - k -> Forall2 (fun new old => length new = length (fst old)) r' l').
  { intros k l'. revert k. induction l' as [|t l' IH]; intros k H1 H2 r' H3 H4.
    - destruct r'; [constructor|]. cbn in *. lia.
    - destruct r' as [|g r']; [cbn in *; lia|]. constructor.
      + pose proof (H3 0%nat g eq_refl) as E. rewrite Nat.add_0_r in E. pose proof (H1 0%nat t eq_refl) as E'. rewrite Nat.add_0_r in E'.
        destruct (K (k, g)) as (t' & E1 & E2).
        * rewrite <- RL. clear -E. pose proof (nth_error_Some r k) as [L _]. rewrite E in L. specialize (L ltac:(discriminate)).
          replace (k, g) with (nth k (combine (seq 0 (length r)) r) (0%nat, g)).
          -- apply nth_In. rewrite combine_length, seq_length. lia.
          -- rewrite combine_nth by apply seq_length. rewrite seq_nth by auto. f_equal. now apply nth_error_nth.
        * cbn in E1, E2. congruence.
      + apply (IH (S k)); cbn in H2, H4; try lia.
        * intros j t' Hj. rewrite Nat.add_succ_l, <- Nat.add_succ_r. now apply H1.
        * intros j g' Hj. rewrite Nat.add_succ_l, <- Nat.add_succ_r. now apply H3. }
  apply (G 0%nat); auto; lia.
Qed.

Lemma C52_empty_proof : forall (F : Type) (A : Arith F) (trs : list (list (TrueSkillRating F) * MultiTeamOutcome)) cfg ws,
  Exists (fun x => fst x = []) trs \/ trs = [] -> trueskill_multi_team trs cfg ws = Ok (map fst trs).
Proof.
  intros F A trs cfg ws [H| ->]; [|reflexivity]. unfold trueskill_multi_team.
  assert (E : existsb (fun t => is_empty (fst t)) trs = true).
  { apply existsb_exists. apply Exists_exists in H as (x & I & H). exists x. split; auto. now rewrite H. }
  rewrite E. destruct H; reflexivity.
Qed.

(** ** The order of the input *)
Section Order.
  Context {F : Type} {A : Arith F}.
  Definition entry : Type := list (TrueSkillRating F) * MultiTeamOutcome * list F.
  Definition eteam (x : entry) := fst (fst x).
  Lemma weights_ok_entries (l : list entry) : weights_ok neg_weight (map fst (map fst l)) (map snd l) <->
    Forall (fun x => length (snd x) = length (eteam x) /\ Forall (fun w => ~ neg_weight w) (snd x)) l.
  Proof.
    unfold weights_ok. induction l as [|x l IH]; cbn [map]; split; intros H; try constructor; inversion H; subst; auto; apply IH; auto.
  Qed.
  Lemma combine_entries (l : list entry) : combine (map fst l) (map snd l) = l.
  Proof. apply combine_split'. Qed.
  Lemma sort_snd_enum (l : list entry) : map snd (sort_by_key (fun v => trank (snd v)) (enumerate l)) = sort_by_key trank l.
  Proof. rewrite (sort_map snd trank). now rewrite enumerate_snd. Qed.
  (** The result of a list of entries, team by team. *)
  Lemma multi_entries (l : list entry) cfg r : l <> [] -> Forall (fun x => eteam x <> []) l ->
    trueskill_multi_team (map fst l) cfg (Some (map snd l)) = Ok r ->
    exists gs, ts_core cfg (sort_by_key trank l) = Some gs /\
      Permutation (combine (map trank (sort_by_key trank l)) gs) (combine (map trank l) r).
  Proof.
    intros H1 H2 HR.
    assert (G1 : map fst l <> []) by (destruct l; [congruence|discriminate]).
    assert (G2 : Forall (fun x => fst x <> []) (map fst l)) by (apply Forall_map; exact H2).
    destruct (get_weights_cases (map fst (map fst l)) (map snd l)) as [[HW OK]|[e HW]].
    2: { unfold trueskill_multi_team in HR. rewrite (nonempty_existsb _ G2) in HR. destruct (map fst l) eqn:E; [congruence|]. cbn [is_empty] in HR. rewrite HW in HR. discriminate. }
    destruct (multi_ok (map fst l) cfg (Some (map snd l)) (map snd l) r G1 G2 HW HR) as (gs & E1 & E2 & E3 & E4 & E5); [now rewrite !map_length|].
    cbv zeta in *. rewrite combine_entries in *. rewrite sort_snd_enum in E1. exists gs. split; auto.
    assert (X0 : exists x0 : entry, True) by (destruct l as [|x l]; [congruence|now exists x]). destruct X0 as [x0 _].
    set (sorted := sort_by_key (fun v => trank (snd v)) (enumerate l)) in *.
    apply (Permutation_map (fun p : nat * list (TrueSkillRating F) => (trank (nth (fst p) l x0), snd p))) in E4.
    assert (C : forall (a : list nat) (b : list (list (TrueSkillRating F))), map (fun p => (trank (nth (fst p) l x0), snd p)) (combine a b) = combine (map (fun i => trank (nth i l x0)) a) b).
    { induction a as [|i a IH]; intros [|g b]; cbn; auto. now rewrite IH. }
    rewrite !C in E4. rewrite <- sort_snd_enum. fold sorted.
    replace (map trank (map snd sorted)) with (map (fun i => trank (nth i l x0)) (map fst sorted)).
    - replace (map trank l) with (map (fun i => trank (nth i l x0)) (seq 0 (length (map fst l)))); [exact E4|].
      rewrite map_length. transitivity (map trank (map snd (enumerate l))); [rewrite (enumerate_nth x0 l), !map_map; reflexivity|now rewrite enumerate_snd].
    - rewrite !map_map. apply map_ext_in. intros [i x] Hv. cbn. f_equal.
      apply (Permutation_in _ (Permutation_sym (sort_perm _ _))) in Hv. apply (enumerate_in x0) in Hv as [_ ->]. reflexivity.
  Qed.
  Lemma multi_entries_kind (l : list entry) cfg : l <> [] -> Forall (fun x => eteam x <> []) l ->
    (weights_ok neg_weight (map fst (map fst l)) (map snd l) -> ts_core cfg (sort_by_key trank l) = None -> trueskill_multi_team (map fst l) cfg (Some (map snd l)) = Panic) /\
    (weights_ok neg_weight (map fst (map fst l)) (map snd l) -> ts_core cfg (sort_by_key trank l) <> None -> exists r, trueskill_multi_team (map fst l) cfg (Some (map snd l)) = Ok r) /\
    (~ weights_ok neg_weight (map fst (map fst l)) (map snd l) -> exists e, trueskill_multi_team (map fst l) cfg (Some (map snd l)) = Err e).
  Proof.
    intros H1 H2.
    assert (G1 : map fst l <> []) by (destruct l; [congruence|discriminate]).
    assert (G2 : Forall (fun x => fst x <> []) (map fst l)) by (apply Forall_map; exact H2).
    repeat match goal with |- _ /\ _ => split end.
    - intros OK E. rewrite (multi_core _ _ _ _ G1 G2 (get_weights_ok _ _ OK)), combine_entries, sort_snd_enum, E. reflexivity.
    - intros OK E. rewrite (multi_core _ _ _ _ G1 G2 (get_weights_ok _ _ OK)), combine_entries, sort_snd_enum. destruct (ts_core _ _); [eauto|congruence].
    - intros N. destruct (get_weights_cases (map fst (map fst l)) (map snd l)) as [[_ OK]|[e E]]; [contradiction|]. exists e.
      unfold trueskill_multi_team. rewrite (nonempty_existsb _ G2). destruct (map fst l) eqn:El; [congruence|]. cbn [is_empty]. now rewrite E.
  Qed.
End Order.

Lemma C83_proof : forall (F : Type) (A : Arith F) (l l' : list (list (TrueSkillRating F) * MultiTeamOutcome * list F)) cfg,
  Permutation l l' -> NoDup (map (fun x => mto_rank (snd (fst x))) l) ->
  let rate l := trueskill_multi_team (map fst l) cfg (Some (map snd l)) in
  let by_rank (l : list (list (TrueSkillRating F) * MultiTeamOutcome * list F)) (r : list (list (TrueSkillRating F))) :=
    combine (map (fun x => mto_rank (snd (fst x))) l) r in
  match rate l, rate l' with
  | Ok r, Ok r' => Permutation (by_rank l r) (by_rank l' r')
  | Err _, Err _ => True
  | Panic, Panic => True
  | _, _ => False
  end.
Proof.
  intros F A l l' cfg P ND rate by_rank.
  destruct l as [|x0 l0] eqn:El.
  { apply Permutation_nil in P. subst l'. cbn. constructor. }
  assert (N1 : l <> []) by (subst; discriminate). rewrite <- El in *. clear El x0 l0.
  assert (N2 : l' <> []) by (intros ->; apply Permutation_sym, Permutation_nil in P; congruence).
  destruct (existsb (fun x => is_empty (fst (fst x))) l) eqn:EX.
  - assert (U : forall m : list (list (TrueSkillRating F) * MultiTeamOutcome * list F), existsb (fun x => is_empty (fst (fst x))) m = true -> rate m = Ok (map fst (map fst m))).
    { intros m E. unfold rate. rewrite C52_empty_proof; auto. left. apply existsb_exists in E as (x & I & E). apply Exists_exists. exists (fst x). split; [now apply in_map|].
      destruct (fst (fst x)); [auto|discriminate]. }
    rewrite (U l EX). assert (EX' : existsb (fun x => is_empty (fst (fst x))) l' = true).
    { apply existsb_exists in EX as (x & I & E). apply existsb_exists. exists x. split; auto. eapply Permutation_in; eauto. }
    rewrite (U l' EX'). unfold by_rank.
    assert (C : forall m : list (list (TrueSkillRating F) * MultiTeamOutcome * list F), combine (map (fun x => mto_rank (snd (fst x))) m) (map fst (map fst m)) = map (fun x => (mto_rank (snd (fst x)), fst (fst x))) m).
    { induction m as [|x m IH]; cbn; auto. now rewrite IH. }
    rewrite !C. now apply Permutation_map.
  - assert (HF : forall m : list (list (TrueSkillRating F) * MultiTeamOutcome * list F), existsb (fun x => is_empty (fst (fst x))) m = false -> Forall (fun x => eteam x <> []) m).
    { induction m as [|x m IH]; cbn [existsb]; intros E; constructor; apply orb_false_iff in E as [E1 E2]; auto. unfold eteam. destruct (fst (fst x)); [discriminate|congruence]. }
    pose proof (HF l EX) as F1. assert (F2 : Forall (fun x => eteam x <> []) l') by (eapply Permutation_Forall; eauto).
    assert (WE : weights_ok neg_weight (map fst (map fst l)) (map snd l) <-> weights_ok neg_weight (map fst (map fst l')) (map snd l')).
    { rewrite (weights_ok_entries l), (weights_ok_entries l'). split; apply Permutation_Forall; auto using Permutation_sym. }
    pose proof (sort_unique trank l l' P ND) as SE.
    destruct (multi_entries_kind l cfg N1 F1) as (A1 & A2 & A3). destruct (multi_entries_kind l' cfg N2 F2) as (B1 & B2 & B3). fold (rate l) in A1, A2, A3. fold (rate l') in B1, B2, B3.
    destruct (get_weights_cases (map fst (map fst l)) (map snd l)) as [[_ OK]|[e HW]].
    + pose proof (proj1 WE OK) as OK'. destruct (ts_core cfg (sort_by_key trank l)) as [gs|] eqn:EC.
      * destruct (A2 OK ltac:(discriminate)) as [r E]. rewrite <- SE in *. destruct (B2 OK' ltac:(congruence)) as [r' E']. rewrite E, E'.
        destruct (multi_entries l cfg r N1 F1 E) as (g1 & G1 & P1). destruct (multi_entries l' cfg r' N2 F2 E') as (g2 & G2 & P2).
        rewrite <- SE in *. assert (g1 = g2) by congruence. subst g2. unfold by_rank. eapply perm_trans; [apply Permutation_sym; exact P1|exact P2].
      * rewrite A1, B1; auto. congruence.
    + assert (NOK : ~ weights_ok neg_weight (map fst (map fst l)) (map snd l)).
      { intros OK. rewrite (get_weights_ok _ _ OK) in HW. discriminate. }
      assert (NOK' : ~ weights_ok neg_weight (map fst (map fst l')) (map snd l')) by tauto.
      destruct (A3 NOK) as [? ->]. destruct (B3 NOK') as [? ->]. exact I.
Qed.
