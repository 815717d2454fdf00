(** Proofs about [trueskill_multi_team] with any number of teams: the theorems. *)
From Coq Require Import ZArith NArith List Bool Lia Arith.PeanoNat Permutation Sorted FunctionalExtensionality Reals Lra.
From Verif Require Import Arith XR Tac ModelLib ModelWengLin ModelTS ModelTSGraph Spec SpecTS SpecInTS SpecEP MathTS MathTSW ProofTS ProofTSGraph ProofTSSafe ProofTSTwo ProofTSTwoTop ProofTSMany.
Import ListNotations.
Local Open Scope R_scope.

(** ** Layout of the flattened teams *)
Definition offs {X} (ts : list (list X)) (t : nat) : nat := list_sum (firstn t (map (@length X) ts)).
Definition szs {X} (ts : list (list X)) (t : nat) : nat := length (nth t ts []).
Lemma offs_S {X} (ts : list (list X)) t : (t < length ts)%nat -> offs ts (S t) = (offs ts t + szs ts t)%nat.
Proof. intros H. unfold offs, szs. rewrite firstn_S_sum by (rewrite map_length; auto). f_equal. apply (map_nth (@length X) ts []). Qed.
Lemma offs_mono {X} (ts : list (list X)) t t' : (t < t')%nat -> (t' <= length ts)%nat -> (offs ts t + szs ts t <= offs ts t')%nat.
Proof.
  intros H. induction H as [|t' H IH]; intros L; [rewrite offs_S by lia; lia|]. rewrite offs_S by lia. specialize (IH ltac:(lia)). lia.
Qed.
Lemma offs_all {X} (ts : list (list X)) : offs ts (length ts) = length (concat ts).
Proof. unfold offs. rewrite firstn_all2 by (rewrite map_length; auto). symmetry. apply concat_length'. Qed.
Lemma offs_cons {X} (a : list X) ts t : offs (a :: ts) (S t) = (length a + offs ts t)%nat.
Proof. unfold offs. cbn [map]. rewrite firstn_cons. reflexivity. Qed.
Lemma lay1_ts {X} (ts : list (list X)) t k : (t < length ts)%nat -> (k < szs ts t)%nat -> (offs ts t + k < length (concat ts))%nat.
Proof. intros H K. rewrite <- offs_all. pose proof (offs_mono ts t (length ts) H (le_n _)). lia. Qed.
Lemma lay2_ts {X} (ts : list (list X)) t k t' k' : (t < length ts)%nat -> (k < szs ts t)%nat -> (t' < length ts)%nat -> (k' < szs ts t')%nat ->
  (offs ts t + k = offs ts t' + k')%nat -> t = t' /\ k = k'.
Proof.
  intros H K H' K' E. destruct (lt_eq_lt_dec t t') as [[L| -> ]|L]; [|split; lia|].
  - pose proof (offs_mono ts t t' L ltac:(lia)). lia.
  - pose proof (offs_mono ts t' t L ltac:(lia)). lia.
Qed.
Lemma lay3_ts {X} (ts : list (list X)) i : (i < length (concat ts))%nat -> exists t k, (t < length ts)%nat /\ (k < szs ts t)%nat /\ i = (offs ts t + k)%nat.
Proof.
  revert i. induction ts as [|a ts IH]; intros i Hi; [cbn in Hi; lia|]. cbn [concat] in Hi. rewrite app_length in Hi. destruct (Nat.lt_ge_cases i (length a)) as [L|L].
  - exists 0%nat, i. cbn. repeat split; auto; lia.
  - destruct (IH (i - length a)%nat ltac:(lia)) as (t & k & Ht & Hk & E). exists (S t), k. rewrite offs_cons. cbn [length]. split; [lia|]. split; [exact Hk|]. lia.
Qed.
Lemma nth_concat {X} (ts : list (list X)) d t k : (t < length ts)%nat -> (k < szs ts t)%nat -> nth (offs ts t + k) (concat ts) d = nth k (nth t ts []) d.
Proof.
  revert t. induction ts as [|a ts IH]; intros t Ht Hk; [cbn in Ht; lia|]. destruct t as [|t].
  - cbn [offs firstn nth concat]. unfold offs. cbn. rewrite app_nth1; auto.
  - rewrite offs_cons, <- Nat.add_assoc. cbn [concat]. rewrite app_nth2_plus. cbn [nth]. apply IH; [cbn in Ht; lia|exact Hk].
Qed.
Lemma slice_map {X} (l : list X) d a m : (a + m <= length l)%nat -> firstn m (skipn a l) = map (fun k => nth (a + k) l d) (seq 0 m).
Proof.
  revert a l. induction m as [|m IH]; intros a l H; [now rewrite firstn_O|]. revert l H. induction a as [|a IHa]; intros l H.
  - destruct l as [|x l]; [cbn in H; lia|]. rewrite skipn_O. cbn [firstn seq map nth Nat.add]. f_equal. rewrite <- seq_shift, map_map. apply (IH 0%nat l). cbn in H. lia.
  - destruct l as [|x l]; [cbn in H; lia|]. cbn [skipn Nat.add nth]. apply IHa. cbn in H. lia.
Qed.
Lemma slice_ts {X Y} (l : list X) d (ts : list (list Y)) t : length l = length (concat ts) -> (t < length ts)%nat ->
  slice l (team_start (team_sizes_from 0 (map (@length Y) ts)) t) (nth t (team_sizes_from 0 (map (@length Y) ts)) O) = map (fun k => nth (offs ts t + k) l d) (seq 0 (szs ts t)).
Proof.
  intros L H. unfold slice. assert (H' : (t < length (map (@length Y) ts))%nat) by (rewrite map_length; auto).
  rewrite team_start_sum, team_sizes_nth by lia. rewrite firstn_S_sum by auto. fold (offs ts t). cbn [Nat.add].
  replace (nth t (map (@length Y) ts) 0%nat) with (szs ts t) by (symmetry; apply (map_nth (@length Y) ts [])).
  replace (offs ts t + szs ts t - offs ts t)%nat with (szs ts t) by lia. apply slice_map. rewrite L, <- offs_all. apply offs_mono; auto.
Qed.
Lemma team_sizes_length a l : length (team_sizes_from a l) = length l.
Proof. revert a. induction l as [|k l IH]; intros a; cbn; auto. Qed.

Section Top.
  Variables (l : list (list wpl * N)) (dp beta tau : R).
  Let ts := map fst l.
  Let fl := concat ts.
  Let n := length fl.
  Let T := length l.
  Hypothesis HT : (2 <= T)%nat.
  Hypothesis HN : Forall (fun x : list wpl * N => fst x <> []) l.
  Hypothesis HP : Forall (fun x : wpl => 0 < snd (fst x) /\ 0 < snd x) (concat (map fst l)).
  Let off := offs ts.
  Let sz := szs ts.
  Let mi i := fst (fst (nth i fl pl_d)).
  Let ui i := snd (fst (nth i fl pl_d)).
  Let wi i := snd (nth i fl pl_d).
  Let Si i := ui i ^ 2 + tau ^ 2.
  Let B := beta * beta.
  Let trs := map (fun x : list wpl * N => tsr_in (map fst (fst x), snd x)) l.
  Let eps x := unit_margin dp * sqrt (INR (length (team_at l x) + length (team_at l (S x)))) * beta.
  Let draw x := N.eqb (rank_at l x) (rank_at l (S x)).
  Lemma LT : length ts = T. Proof. apply map_length. Qed.
  Lemma Fpos i : (i < n)%nat -> 0 < ui i /\ 0 < wi i.
  Proof. intros Hi. rewrite Forall_forall in HP. apply HP. apply nth_In. exact Hi. Qed.
  Lemma lay1' t k : (t < T)%nat -> (k < sz t)%nat -> (off t + k < n)%nat. Proof. rewrite <- LT. apply lay1_ts. Qed.
  Lemma lay2' t k t' k' : (t < T)%nat -> (k < sz t)%nat -> (t' < T)%nat -> (k' < sz t')%nat -> (off t + k = off t' + k')%nat -> t = t' /\ k = k'.
  Proof. rewrite <- LT. apply lay2_ts. Qed.
  Lemma lay3' i : (i < n)%nat -> exists t k, (t < T)%nat /\ (k < sz t)%nat /\ i = (off t + k)%nat.
  Proof. rewrite <- LT. apply lay3_ts. Qed.
  Lemma Si_pos' i : (i < n)%nat -> 0 < Si i.
  Proof. intros Hi. destruct (Fpos i Hi). unfold Si. assert (0 < ui i ^ 2) by now apply pow_lt. pose proof (pow2_ge_0 tau). lra. Qed.
  Lemma wi_pos' i : (i < n)%nat -> 0 < wi i. Proof. intros Hi. now destruct (Fpos i Hi). Qed.
  Lemma team_at_nth t : team_at l t = nth t ts []. Proof. unfold team_at, ts. symmetry. apply (map_nth fst l ([], 0%N)). Qed.
  Lemma sz_pos' t : (t < T)%nat -> (0 < sz t)%nat.
  Proof.
    intros Ht. unfold sz, szs. rewrite <- team_at_nth. rewrite Forall_forall in HN. unfold team_at. specialize (HN _ (nth_In l ([], 0%N) Ht)).
    destruct (fst (nth t l ([], 0%N))); [congruence|cbn; lia].
  Qed.
  Lemma Rsum_team_at (f : wpl -> R) t : Rsum (map (fun k => f (nth (off t + k) fl pl_d)) (seq 0 (sz t))) = Rsum (map f (team_at l t)).
  Proof.
    rewrite team_at_nth. destruct (Nat.lt_ge_cases t T) as [Ht|Ht].
    - f_equal. rewrite <- (map_nth_seq (nth t ts []) pl_d) at 1. rewrite map_map. apply map_ext_in. intros k Hk. apply in_seq in Hk.
      unfold off, fl. rewrite nth_concat; [reflexivity|now rewrite LT|]. exact (proj2 Hk).
    - unfold sz, szs. rewrite nth_overflow by (rewrite LT; exact Ht). reflexivity.
  Qed.
  Notation Mt' := (Mt off sz mi wi). Notation Vt' := (Vt off sz Si wi beta).
  Lemma Mt_eq' : Mt' = (fun t => w_mean (team_at l t)).
  Proof. apply functional_extensionality. intros t. unfold w_mean. rewrite <- Rsum_team_at. reflexivity. Qed.
  Lemma Vt_eq' : Vt' = (fun t => w_var beta tau (team_at l t)).
  Proof. apply functional_extensionality. intros t. unfold w_var. rewrite <- Rsum_team_at. unfold Vt. f_equal. apply map_ext. intros k. unfold Si, wi, ui. ring. Qed.
  Notation Sm' := (Sm n T off sz).
  Definition priorm i : PriorFactor (F:=XR) :=
    let p := ts_in (mi i, ui i) in
    mkPrior i i (mkG (fpowi (ts_uncertainty p) (-2)) (fmul (fpowi (ts_uncertainty p) (-2)) (ts_rating p))) (Fin tau).
  Notation prm' := (prm mi Si). Notation plm' := (plm mi Si beta). Notation ttm' := (ttm off sz mi Si wi beta).
  Lemma prior_value_m i : (i < n)%nat -> g_with_mu_sigma (g_mu (pf_val (priorm i))) (fhypot (g_sigma (pf_val (priorm i))) (pf_dynamic (priorm i))) = Some (fg (prm' i)).
  Proof.
    intros Hi. pose proof (Si_pos' i Hi) as SP. destruct (Fpos i Hi) as [Up _]. unfold priorm, prm. unfold Si in *. set (m := mi i) in *. set (u := ui i) in *.
    cbv zeta. cbn [ts_in ts_uncertainty ts_rating fst snd pf_val pf_dynamic]. rewrite xr_powim2, xr_mul by lra.
    assert (U : 0 < u * u) by nra. assert (IU : 0 < / (u * u)) by now apply Rinv_0_lt_compat.
    change (mkG (Fin (/ (u * u))) (Fin (/ (u * u) * m))) with (fg (/ (u * u), / (u * u) * m)). rewrite fg_mu, fg_sigma by (cbn [fst]; lra). cbn [fst snd].
    rewrite Rinv_inv, xr_hypot. rewrite sqrt_sqrt by lra.
    replace (u * u + tau * tau) with (u ^ 2 + tau ^ 2) by ring. set (S := u ^ 2 + tau ^ 2) in *.
    assert (0 < sqrt S) by now apply sqrt_lt_R0. unfold g_with_mu_sigma. rewrite xr_ofZ, xr_eqb, Reqb_false by lra. rewrite xr_powim2, xr_mul by lra.
    rewrite sqrt_sqrt by lra. unfold fg, nrm. cbn [fst snd]. do 2 f_equal. f_equal. field. lra.
  Qed.
  Lemma prior_down_m pr rl pl pt tt c dd s s' d i : Sm' pr rl pl pt tt c dd s -> (i < n)%nat -> rl i = (0, 0) ->
    prior_down (priorm i) s = Some (s', d) -> Sm' (upf pr i (prm' i)) rl pl pt tt c dd s'.
  Proof.
    intros H Hi E R. unfold prior_down in R. cbv zeta in R. rewrite prior_value_m in R by auto. apply bind_inv in R as (s1 & g & R1 & R).
    apply of_option_inv in R1 as [-> R1]. injection R1 as <-. apply update_value_inv in R. eapply Sm_pr; [exact lay1'|exact H|exact Hi|exact R|].
    rewrite E. unfold pad. cbn [fst snd]. rewrite !Rplus_0_r. now destruct (prm' i).
  Qed.
  Lemma Sm_init : let z := fun _ : nat => (0, 0) in Sm' z z z z z chain0 z (fun _ => var_new).
  Proof.
    cbv zeta. unfold Sm, Rb, Pb, Tb, Db, gauss, emsg, fg, pad, var_new, g_default, chain0. cbn [v_gaussian v_messages fst snd c_prev c_next c_res]. rewrite xr_ofZ, !Rplus_0_l. repeat split.
  Qed.
  Definition priors := map priorm (seq 0 n).
  Let sizes := team_sizes_from 0 (map (@length wpl) ts).
  Let rs := map ts_in (map fst fl).
  Let ws := map Fin (map snd fl).
  Lemma enumerate_rs : enumerate rs = map (fun i => (i, ts_in (mi i, ui i))) (seq 0 n).
  Proof.
    rewrite <- enumerate_map_seq. f_equal. unfold rs, n. rewrite <- (map_nth_seq fl pl_d) at 1. rewrite !map_map. apply map_ext. intros i. unfold mi, ui.
    destruct (nth i fl pl_d) as [[m u] w]. reflexivity.
  Qed.
  Notation teamm' := (teamm n off sz wi). Notation likm' := (likm n beta). Notation diffm' := (diffm n T). Notation truncm' := (truncm n T eps draw).
  Definition okt (s : Store XR) := exists c dd, Sm' prm' (fun _ => (0, 0)) plm' (fun _ => (0, 0)) ttm' c dd s.
  Ltac conv R Q :=
    lazymatch type of R with Sm _ _ _ _ _ _ _ _ _ _ _ ?s =>
      let R' := fresh in rename R into R'; assert (R : Q s); [eapply Sm_ext; [exact lay1'|exact R'| | |]; cbv beta; auto|clear R'] end.
  Lemma len_trs : length trs = T. Proof. apply map_length. Qed.
  Lemma nth_trs x : (x < T)%nat -> nth x trs (nil, mto_new 0) = tsr_in (map fst (team_at l x), rank_at l x).
  Proof.
    intros H. unfold trs. rewrite (nth_indep _ _ ((fun x : list wpl * N => tsr_in (map fst (fst x), snd x)) ([], 0%N))) by (rewrite map_length; exact H).
    rewrite (map_nth (fun x : list wpl * N => tsr_in (map fst (fst x), snd x))). reflexivity.
  Qed.
  Lemma run_pre_m s layer :
    run_schedule sizes trs rs ws (Fin tau) (Fin beta) (Fin dp) ts_min_delta (fun _ => var_new) = Some (s, layer) ->
    let z := fun _ : nat => (0, 0) in
    exists s1, Sm' prm' z plm' z ttm' chain0 z s1 /\
      (do _ <- iterate_sweeps 10 (map diffm' (seq 0 (T - 1))) (map truncm' (seq 0 (T - 1))) ts_min_delta;
       do _ <- sum_up (nth 0 (map diffm' (seq 0 (T - 1))) sum_default) 0;
       do _ <- sum_up (nth (length (map diffm' (seq 0 (T - 1))) - 1) (map diffm' (seq 0 (T - 1))) sum_default) 1;
       do _ <- for_each (map teamm' (seq 0 T)) (fun f => for_each (seq 0 (length (sf_terms f))) (fun x => sum_up f x));
       do _ <- for_each (map likm' (seq 0 n)) lik_up;
       ret priors) s1 = Some (s, layer).
  Proof.
    intros R z. pose proof Sm_init as S0. cbv zeta in S0. fold z in S0.
    assert (LR : length rs = n) by (unfold rs; now rewrite !map_length).
    unfold run_schedule in R. cbv zeta in R. rewrite LR, len_trs in R. cbn [Nat.add] in R.
    apply bind_inv in R as (s1 & ly & R1 & R). apply build_rating_inv in R1 as [E1 ->]. rewrite enumerate_rs, map_map in R. cbn [fst snd] in R.
    change (map (fun x => mkPrior x x (mkG (fpowi (ts_uncertainty (ts_in (mi x, ui x))) (-2)) (fmul (fpowi (ts_uncertainty (ts_in (mi x, ui x))) (-2)) (ts_rating (ts_in (mi x, ui x))))) (Fin tau)) (seq 0 n)) with priors in R.
    assert (LP : length priors = n) by (unfold priors; now rewrite map_length, seq_length). rewrite LP in R.
    apply (Sm_same _ _ _ _ _ _ _ _ _ _ _ _ _ S0) in E1. clear S0.
    apply bind_inv in R as (s2 & perf & R1 & R). apply build_perf_inv in R1 as [E2 ->]. apply (Sm_same _ _ _ _ _ _ _ _ _ _ _ _ _ E1) in E2. clear E1 s1.
    rewrite map_length, seq_length in R. change (map (fun i => mkLik (n + i) i (n + i) (fpowi (Fin beta) 2)) (seq 0 n)) with (map likm' (seq 0 n)) in R.
    apply bind_inv in R as (s1 & tms & R1 & R). apply build_team_inv in R1 as [E1 ->]. apply (Sm_same _ _ _ _ _ _ _ _ _ _ _ _ _ E2) in E1. clear E2 s2.
    assert (LS : length sizes = T) by (unfold sizes; rewrite team_sizes_length, map_length; apply LT).
    rewrite map_length, seq_length, LS in R.
    assert (TE : map (fun t => mkSum (n + n + t) (2 * n + t) (slice (seq n n) (team_start sizes t) (nth t sizes O)) (slice ws (team_start sizes t) (nth t sizes O))) (seq 0 T) = map teamm' (seq 0 T)).
    { apply map_ext_in. intros t Ht. apply in_seq in Ht. unfold sizes. rewrite (slice_ts (seq n n) 0%nat) by (rewrite ?seq_length, ?LT; auto; lia).
      rewrite (slice_ts ws (Fin 0)) by (unfold ws; rewrite ?map_length, ?LT; auto; lia). fold off sz. unfold teamm. f_equal; [lia| |].
      - apply map_ext_in. intros k Hk. apply in_seq in Hk. rewrite seq_nth; [reflexivity|]. apply lay1'; lia.
      - apply map_ext. intros k. unfold ws. rewrite (map_nth Fin). f_equal. apply (map_nth snd fl pl_d). }
    rewrite TE in R. clear TE.
    (* prior *)
    apply bind_inv in R as (s2 & u2 & R1 & R). unfold priors in R1.
    apply (for_each_seq (fun k s => Sm' (fun i => if Nat.ltb i k then prm' i else (0, 0)) z z z z chain0 z s)) in R1.
    2: { eapply Sm_ext; [exact lay1'|exact E1| | |]; cbv beta; auto. }
    2: { clear R. intros i s3 s4 y Hi I R. eapply prior_down_m in R; [|exact I|lia|reflexivity]. eapply Sm_ext; [exact lay1'|exact R| | |]; cbv beta; auto.
         intros j Hj. split; [|auto]. unfold upf. destruct (Nat.eqb_spec j i), (Nat.ltb_spec j i), (Nat.ltb_spec j (S i)); subst; auto; lia. }
    cbn [Nat.add] in R1. conv R1 (Sm' prm' z z z z chain0 z).
    { intros j Hj. rewrite (proj2 (Nat.ltb_lt j n)) by auto. auto. }
    clear E1 s1 u2. rename R1 into E2.
    (* likelihood down *)
    apply bind_inv in R as (s1 & u2 & R1 & R).
    apply (for_each_seq (fun k s => Sm' prm' z (fun i => if Nat.ltb i k then plm' i else (0, 0)) z z chain0 z s)) in R1.
    2: { eapply Sm_ext; [exact lay1'|exact E2| | |]; cbv beta; auto. }
    2: { clear R. intros i s3 s4 y Hi I R. eapply (lik_down_Sm n T off sz lay1' lay3') in R; [|exact I|lia|reflexivity|apply Si_pos'; lia]. eapply Sm_ext; [exact lay1'|exact R| | |]; cbv beta; auto.
         intros j Hj. split; [auto|]. split; [auto|]. split; [|auto]. unfold upf. destruct (Nat.eqb_spec j i), (Nat.ltb_spec j i), (Nat.ltb_spec j (S i)); subst; auto; lia. }
    cbn [Nat.add] in R1. conv R1 (Sm' prm' z plm' z z chain0 z).
    { intros j Hj. rewrite (proj2 (Nat.ltb_lt j n)) by auto. auto. }
    clear E2 s2 u2. rename R1 into E2.
    (* team sums *)
    apply bind_inv in R as (s2 & u2 & R1 & R).
    apply (for_each_seq (fun k s => Sm' prm' z plm' z (fun t => if Nat.ltb t k then ttm' t else (0, 0)) chain0 z s)) in R1.
    2: { eapply Sm_ext; [exact lay1'|exact E2| | |]; cbv beta; auto. }
    2: { clear R. intros i s3 s4 y Hi I R. eapply (team_down_Sm n T off sz lay1') in R; [|exact Si_pos'|exact wi_pos'|exact sz_pos'|exact I|lia|auto]. eapply Sm_ext; [exact lay1'|exact R| | |]; cbv beta; auto.
         intros j Hj. unfold upf. destruct (Nat.eqb_spec j i), (Nat.ltb_spec j i), (Nat.ltb_spec j (S i)); subst; auto; lia. }
    cbn [Nat.add] in R1. conv R1 (Sm' prm' z plm' z ttm' chain0 z).
    { intros t Ht. rewrite (proj2 (Nat.ltb_lt t T)) by auto. auto. }
    clear E2 s1 u2. rename R1 into E1.
    (* differences *)
    apply bind_inv in R as (s1 & dif & R1 & R). apply build_diff_inv in R1 as [E2 ->]. apply (Sm_same _ _ _ _ _ _ _ _ _ _ _ _ _ E1) in E2. clear E1 s2.
    rewrite map_length, seq_length in R.
    assert (DE : map (fun x => mkSum (n + n + T + x) (2 * n + T + x) [(2 * n + x)%nat; (2 * n + x + 1)%nat] [#1; #(-1)]%flt) (seq 0 (T - 1)) = map diffm' (seq 0 (T - 1))).
    { apply map_ext. intros x. unfold diffm. rewrite !xr_ofZ. f_equal; [lia|]. f_equal. f_equal. lia. }
    rewrite DE in R. clear DE.
    apply bind_inv in R as (s2 & tru & R1 & R). apply build_trunc_inv in R1 as [E1 ->]. apply (Sm_same _ _ _ _ _ _ _ _ _ _ _ _ _ E2) in E1. clear E2 s1.
    rewrite len_trs in R.
    match type of R with context[iterate_sweeps 10 _ (map ?f _)] => assert (DE : map f (seq 0 (T - 1)) = map truncm' (seq 0 (T - 1))) end.
    { apply map_ext_in. intros x Hx. apply in_seq in Hx. rewrite !nth_trs by lia. unfold truncm, tsr_in. cbn [fst snd]. f_equal; [lia|].
      unfold flen, tst_in. rewrite !map_length. rewrite !xr_ofZ. unfold fsum. cbn [fold_left].
      change (fsum0 : XR) with (Fin 0). rewrite !xr_add, <- !INR_IZR_INZ, Rplus_0_l, <- plus_INR. apply draw_margin_eval, pos_INR. }
    rewrite DE in R. clear DE. exists s2. split; [exact E1|]. rewrite map_length, seq_length. exact R.
  Qed.
  Notation Mf := (fun t => w_mean (team_at l t)). Notation Vf := (fun t => w_var beta tau (team_at l t)).
  Notation ptm' := (ptm T off sz mi Si wi beta). Notation rlm' := (rlm T off sz mi Si wi beta). Notation tm' := (tm T off sz).
  Lemma run_many c s layer : ep_run Mt' Vt' eps draw T = Some c ->
    run_schedule sizes trs rs ws (Fin tau) (Fin beta) (Fin dp) ts_min_delta (fun _ => var_new) = Some (s, layer) ->
    layer = priors /\ (forall t, (t < T)%nat -> 0 < fst (evidence c t)) /\ exists pl pt tt dd, Sm' prm' (rlm' c) pl pt tt c dd s.
  Proof.
    intros EC R. eapply run_pre_m in R. cbv zeta in R. set (z := fun _ : nat => (0, 0)) in *. destruct R as (s1 & R1 & R).
    apply bind_inv in R as (s2 & u1 & A1 & R). apply bind_inv in R as (s3 & u2 & A2 & R). apply bind_inv in R as (s4 & u3 & A3 & R).
    destruct (run_sim n T off sz lay1' mi Si wi beta Si_pos' wi_pos' sz_pos' eps draw HT prm' z plm' z _ _ eq_refl eq_refl c s1 s2 s3 s4 u1 u2 u3) as [(dd & S4) Hev]; auto.
    { exists z. exact R1. }
    clear A1 A2 A3 R1 s1 s2 s3 u1 u2 u3.
    (* team sums upwards *)
    apply bind_inv in R as (s2 & u4 & R2 & R).
    apply (for_each_seq (fun k s => Sm' prm' z plm' (fun i => if Nat.ltb (tm' i) k then ptm' c i else (0, 0)) ttm' c dd s)) in R2.
    2: { eapply Sm_ext; [exact lay1'|exact S4| | |]; cbv beta; auto. }
    2: { clear S4 R R2 s2. intros t s3 s5 y Ht I R. replace (length (sf_terms (teamm' t))) with (sz t) in R by (cbn [teamm sf_terms]; now rewrite map_length, seq_length).
         rewrite <- (map_id (seq 0 (sz t))) in R.
         apply (for_each_seq (fun k s => Sm' prm' z plm' (fun i => if (Nat.ltb (tm' i) t || (Nat.eqb (tm' i) t && Nat.ltb (i - off t) k))%bool then ptm' c i else (0, 0)) ttm' c dd s)) in R.
         - cbn [Nat.add] in R. eapply Sm_ext; [exact lay1'|exact R| | |]; cbv beta; auto. intros j Hj. split; [auto|]. split; [auto|]. split; [auto|].
           destruct (in_team n T off sz lay2' lay3' HT j Hj) as (k & Htj & Hk & Ej).
           destruct (Nat.ltb_spec (tm' j) t), (Nat.eqb_spec (tm' j) t), (Nat.ltb_spec (tm' j) (S t)), (Nat.ltb_spec (j - off t) (sz t)); cbn [orb andb]; auto; try lia. subst t. lia.
         - eapply Sm_ext; [exact lay1'|exact I| | |]; cbv beta; auto. intros j Hj. split; [auto|]. split; [auto|]. split; [auto|].
           change (Nat.ltb (j - off t) 0) with false. now rewrite andb_false_r, orb_false_r.
         - clear I R s3 s5. intros x s3 s5 y' Hx I R. assert (Ht' : (t < T)%nat) by lia. assert (Hx' : (x < sz t)%nat) by lia.
           eapply (team_up_Sm n T off sz lay1' lay2' mi Si wi beta Si_pos' wi_pos' HT c Hev) in R; [|exact I|exact Ht'|exact Hx'|auto]. eapply Sm_ext; [exact lay1'|exact R| | |]; cbv beta; auto.
           intros j Hj. split; [auto|]. split; [auto|]. split; [auto|]. unfold upf. pose proof (tm_spec T off sz lay2' HT t x Ht' Hx') as Tx. destruct (in_team n T off sz lay2' lay3' HT j Hj) as (k & Htj & Hk & Ej).
           destruct (Nat.eqb_spec j (off t + x)) as [->|N].
           + rewrite Tx, Nat.ltb_irrefl, Nat.eqb_refl. replace (off t + x - off t)%nat with x by lia. rewrite (proj2 (Nat.ltb_lt x (S x))) by lia. reflexivity.
           + destruct (Nat.ltb_spec (tm' j) t); cbn [orb]; auto. destruct (Nat.eqb_spec (tm' j) t) as [<-|]; cbn [andb]; auto.
             destruct (Nat.ltb_spec (j - off (tm' j)) x), (Nat.ltb_spec (j - off (tm' j)) (S x)); auto; lia. }
    cbn [Nat.add] in R2. conv R2 (Sm' prm' z plm' (ptm' c) ttm' c dd).
    { intros j Hj. destruct (in_team n T off sz lay2' lay3' HT j Hj) as (k & Htj & Hk & Ej). rewrite (proj2 (Nat.ltb_lt (tm' j) T)) by auto. auto. }
    (* likelihood up *)
    apply bind_inv in R as (s3 & u5 & R3 & R). apply ret_inv in R as [-> ->]. split; [reflexivity|]. split; [exact Hev|].
    apply (for_each_seq (fun k s => Sm' prm' (fun i => if Nat.ltb i k then rlm' c i else (0, 0)) plm' (ptm' c) ttm' c dd s)) in R3.
    2: { eapply Sm_ext; [exact lay1'|exact R2| | |]; cbv beta; auto. }
    2: { clear S4 R2 R3. intros i s5 s6 y Hi I R. assert (Hi' : (i < n)%nat) by lia.
         eapply (lik_up_Sm n T off sz lay1' lay3') in R; [|exact I|exact Hi'|reflexivity|exact (ptm_var n T off sz lay1' lay2' lay3' Si wi beta Si_pos' wi_pos' HT c Hev i Hi')].
         eapply Sm_ext; [exact lay1'|exact R| | |]; cbv beta; auto.
         intros j Hj. split; [auto|]. split; [|auto]. unfold upf. destruct (Nat.eqb_spec j i), (Nat.ltb_spec j i), (Nat.ltb_spec j (S i)); subst; auto; try lia.
         all: unfold rlm; f_equal; ring. }
    exists plm', (ptm' c), ttm', dd. cbn [Nat.add] in R3. eapply Sm_ext; [exact lay1'|exact R3| | |]; cbv beta; auto.
    intros j Hj. rewrite (proj2 (Nat.ltb_lt j n)) by auto. auto.
  Qed.
  Definition entry_in (x : list wpl * N) := (tsr_in (map fst (fst x), snd x), map Fin (map snd (fst x))).
  Lemma core_many c : ep_teams beta tau eps l = Some c ->
    ts_core (ts_cfg dp beta tau) (map entry_in l) =
    Some (map (fun t => map (ep_out tau (ep_shift Mf Vf c t) (ep_shrink Vf c t)) (team_at l t)) (seq 0 T)) /\
    forall t, (t < T)%nat -> 0 < fst (evidence c t).
  Proof.
    intros EC. unfold ep_teams in EC. fold draw T in EC. rewrite <- Mt_eq', <- Vt_eq' in *. unfold ts_core. cbn [ts_cfg ts_dynamics_factor ts_beta ts_draw_probability].
    rewrite !map_map. cbn [entry_in fst snd tsr_in]. change (map (fun x : list wpl * N => tsr_in (map fst (fst x), snd x)) l) with trs.
    assert (E1 : team_sizes (map (fun x : list wpl * N => tst_in (map fst (fst x))) l) = sizes).
    { unfold team_sizes, sizes, ts. f_equal. rewrite !map_map. apply map_ext. intros x. unfold tst_in. now rewrite !map_length. }
    assert (E2 : concat (map (fun x : list wpl * N => tst_in (map fst (fst x))) l) = rs).
    { unfold rs, fl, ts, tst_in. rewrite map_map, concat_map, map_map. f_equal. apply map_ext. intros x. now rewrite map_map. }
    assert (E3 : concat (map (fun x : list wpl * N => map Fin (map snd (fst x))) l) = ws).
    { unfold ws, fl, ts. rewrite map_map, concat_map, map_map. f_equal. apply map_ext. intros x. now rewrite map_map. }
    rewrite E1, E2, E3.
    destruct (safe_schedule (fun _ => var_new) sizes trs rs ws (Fin tau) (Fin beta) (Fin dp) ts_min_delta) as (s & layer & ER & _).
    { now rewrite len_trs. }
    { unfold ws, rs. now rewrite !map_length. }
    { unfold rs. apply Forall_map, Forall_forall. intros [m u] I. apply xr_good_player. apply in_map_iff in I as (x & E & I). rewrite Forall_forall in HP. apply HP in I as [I _]. rewrite E in I. cbn in I. lra. }
    rewrite ER. destruct (run_many c s layer EC ER) as (-> & Hev & pl & pt & tt & dd & ST). split; [|exact Hev]. f_equal.
    unfold read_groups. assert (LS : length sizes = T) by (unfold sizes; rewrite team_sizes_length, map_length; apply LT). rewrite LS. apply map_ext_in. intros t Ht. apply in_seq in Ht.
    assert (Ht' : (t < T)%nat) by lia. unfold sizes. rewrite (slice_ts priors (priorm 0)) by (unfold priors; rewrite ?map_length, ?seq_length, ?LT; auto).
    fold off sz. rewrite map_map. rewrite team_at_nth. rewrite <- (map_nth_seq (nth t ts []) pl_d). rewrite map_map. fold (szs ts t). fold sz.
    apply map_ext_in. intros k Hk. apply in_seq in Hk. assert (Hk' : (k < sz t)%nat) by lia. pose proof (lay1' t k Ht' Hk') as L. pose proof (tm_spec T off sz lay2' HT t k Ht' Hk') as TM.
    unfold priors. rewrite (map_nth priorm), seq_nth by auto. cbn [Nat.add priorm pf_variable].
    destruct ST as [ST _]. destruct (ST _ L) as [EG _]. unfold gauss in EG. rewrite EG.
    destruct (final_many n T off sz lay1' lay2' lay3' mi Si wi beta Si_pos' wi_pos' sz_pos' HT c Hev _ L) as [F1 F2]. rewrite F1, F2, TM.
    unfold ep_out. rewrite <- nth_concat by (rewrite ?LT; auto). reflexivity.
  Qed.
End Top.
(** ** Stable sorting *)
Section Stable.
  Context {X : Type} (key : X -> N).
  Definition lexle (v v' : nat * X) : Prop := (key (snd v) < key (snd v'))%N \/ (key (snd v) = key (snd v') /\ (fst v < fst v')%nat).
  Notation skey := (fun v : nat * X => key (snd v)).
  Lemma insert_stable v l : StronglySorted lexle l -> Forall (fun y => (fst v < fst y)%nat) l -> StronglySorted lexle (insert_by_key skey v l).
  Proof.
    induction 1 as [|y l S IH H]; intros HF; cbn [insert_by_key].
    - repeat constructor.
    - inversion HF as [|? ? Hy HF']; subst. destruct (N.leb_spec (key (snd v)) (key (snd y))) as [L|L].
      + assert (Q : lexle v y) by (unfold lexle; lia). constructor; [constructor; auto|]. constructor; [exact Q|].
        eapply Forall_impl; [|exact H]. unfold lexle in *. cbv beta. intros a Ha. lia.
      + constructor; [apply IH; auto|]. eapply Permutation_Forall; [apply insert_perm|]. constructor; auto. unfold lexle. lia.
  Qed.
  Lemma sort_stable l : StronglySorted (fun v v' : nat * X => (fst v < fst v')%nat) l -> StronglySorted lexle (sort_by_key skey l).
  Proof.
    induction 1 as [|v l S IH H]; cbn [sort_by_key]; [constructor|]. apply insert_stable; auto. eapply Permutation_Forall; [apply sort_perm|exact H].
  Qed.
  Lemma lex_unique l l' : StronglySorted lexle l -> StronglySorted lexle l' -> Permutation l l' -> l = l'.
  Proof.
    intros S. revert l'. induction S as [|x l S IH H]; intros l' S' P.
    - apply Permutation_nil in P. auto.
    - destruct l' as [|y l']; [apply Permutation_sym, Permutation_nil in P; discriminate|]. inversion S' as [|? ? S1 H1]; subst.
      assert (x = y).
      { assert (In x (y :: l')) as [->|Ix] by (eapply Permutation_in; [exact P|now left]); auto.
        assert (In y (x :: l)) as [->|Iy] by (eapply Permutation_in; [apply Permutation_sym; exact P|now left]); auto.
        exfalso. rewrite Forall_forall in H, H1. apply H in Iy. apply H1 in Ix. unfold lexle in *. lia. }
      subst y. f_equal. apply IH; auto. now apply Permutation_cons_inv in P.
  Qed.
End Stable.
Lemma seq_sorted k m : StronglySorted lt (seq k m).
Proof.
  revert k. induction m as [|m IH]; intros k; cbn [seq]; constructor; auto. apply Forall_forall. intros x Hx. apply in_seq in Hx. lia.
Qed.
Lemma map_sorted {X Y} (f : X -> Y) (P : Y -> Y -> Prop) (Q : X -> X -> Prop) l : StronglySorted Q l -> (forall x y, In x l -> In y l -> Q x y -> P (f x) (f y)) -> StronglySorted P (map f l).
Proof.
  induction 1 as [|x l S IH H]; intros K; cbn [map]; constructor.
  - apply IH. intros; apply K; auto; now right.
  - apply Forall_map. rewrite Forall_forall in H |- *. intros y Hy. apply K; auto; [now left|now right].
Qed.

(** ** The theorems *)
Definition pos_teams (l : list (list wpl * N)) : Prop :=
  Forall (fun x => fst x <> []) l /\ Forall (fun x : wpl => 0 < snd (fst x) /\ 0 < snd x) (concat (map fst l)).
Lemma weights_in l : pos_teams l -> get_weights (map fst (map fst (map entry_in l))) (Some (map snd (map entry_in l))) = Ok (map snd (map entry_in l)).
Proof.
  intros [_ H]. apply get_weights_ok. unfold weights_ok. rewrite !map_map. revert H. induction l as [|x l IH]; intros H; cbn [map]; constructor.
  - cbn [map concat] in H. apply Forall_app in H as [P _]. cbn [entry_in tsr_in fst snd]. unfold tst_in. rewrite !map_length. split; auto.
    rewrite map_map. apply Forall_map. eapply Forall_impl; [|exact P]. cbn beta. intros y [_ Hy]. unfold neg_weight.
    rewrite xr_ofZ, xr_ltb. intros Z. destruct (Rltb_spec (snd y) 0); [lra|discriminate].
  - apply IH. cbn [map concat] in H. now apply Forall_app in H.
Qed.
Lemma arrange_perm l p : Permutation p (seq 0 (length l)) -> Permutation (arrange l p) l.
Proof.
  intros P. unfold arrange. transitivity (map (fun i => nth i l ([], 0%N)) (seq 0 (length l))); [now apply Permutation_map|]. now rewrite map_nth_seq.
Qed.
Lemma pos_perm l l' : Permutation l l' -> pos_teams l -> pos_teams l'.
Proof.
  intros P [H1 H2]. split; [now apply (Permutation_Forall P)|]. rewrite Forall_forall in *. intros x Hx. apply H2. apply in_concat in Hx as (t & Ht & Hx). apply in_concat. exists t. split; auto.
  eapply Permutation_in; [|exact Ht]. now apply Permutation_sym, Permutation_map.
Qed.
Lemma sorted_entries l p : rank_order l p ->
  sort_by_key (fun v => trank (snd v)) (enumerate (map entry_in l)) = map (fun i => (i, entry_in (nth i l ([], 0%N)))) p.
Proof.
  intros [P S]. assert (EN : enumerate (map entry_in l) = map (fun i => (i, entry_in (nth i l ([], 0%N)))) (seq 0 (length l))).
  { rewrite <- (map_nth_seq l ([], 0%N)) at 1. rewrite map_map. apply (enumerate_map_seq (fun i => entry_in (nth i l ([], 0%N)))). }
  apply (lex_unique trank).
  - apply sort_stable. rewrite EN. eapply map_sorted; [apply seq_sorted|]. intros x y _ _ L. exact L.
  - eapply map_sorted; [exact S|]. intros i j _ _ L. unfold lexle, trank, mto_rank. cbn [fst snd entry_in tsr_in mto_rank_field]. exact L.
  - eapply perm_trans; [apply Permutation_sym, sort_perm|]. rewrite EN. apply Permutation_map. now apply Permutation_sym.
Qed.
Lemma C100_core l p dp beta tau ws : (2 <= length l)%nat -> pos_teams l -> rank_order l p ->
  get_weights (map fst (map fst (map entry_in l))) ws = Ok (map snd (map entry_in l)) ->
  let q := arrange l p in
  let M t := w_mean (team_at q t) in let V t := w_var beta tau (team_at q t) in
  let eps x := unit_margin dp * sqrt (INR (length (team_at q x) + length (team_at q (S x)))) * beta in
  forall c, ep_teams beta tau eps q = Some c ->
  exists r, trueskill_multi_team (map fst (map entry_in l)) (ts_cfg dp beta tau) ws = Ok r /\ length r = length l /\
    (forall k, (k < length l)%nat -> nth_error r (nth k p O) = Some (map (ep_out tau (ep_shift M V c k) (ep_shrink V c k)) (team_at q k))) /\
    (forall t, (t < length l)%nat -> 0 < fst (evidence c t)).
Proof.
  intros HT HP HR HW q M V eps c EC. destruct HR as [P S]. pose proof (arrange_perm l p P) as PQ. fold q in PQ. assert (LQ : length q = length l) by now apply Permutation_length.
  assert (LPp : length p = length l) by (apply Permutation_length in P; now rewrite seq_length in P).
  assert (N1 : map fst (map entry_in l) <> []) by (destruct l; [cbn in HT; lia|discriminate]).
  assert (N2 : Forall (fun x : list (TrueSkillRating XR) * MultiTeamOutcome => fst x <> []) (map fst (map entry_in l))).
  { rewrite map_map. apply Forall_map. destruct HP as [HN _]. eapply Forall_impl; [|exact HN]. cbn beta. intros [[|x t] k] H; [cbn in H; congruence|discriminate]. }
  pose proof (multi_core _ (ts_cfg dp beta tau) ws _ N1 N2 HW) as MC. cbv zeta in MC. rewrite combine_entries in MC.
  pose proof (sorted_entries l p (conj P S)) as SE. unfold entry in *. rewrite SE in MC. rewrite !map_map in MC. cbn [fst snd] in MC.
  assert (CQ : map (fun i => entry_in (nth i l ([], 0%N))) p = map entry_in q) by (unfold q, arrange; now rewrite map_map). rewrite CQ in MC.
  destruct (pos_perm l q (Permutation_sym PQ) HP) as [Q1 Q2]. assert (HTq : (2 <= length q)%nat) by lia.
  destruct (core_many q dp beta tau HTq Q1 Q2 c EC) as [CM Hev]. rewrite CM in MC. fold M V in MC.
  set (gs := map (fun t => map (ep_out tau (ep_shift M V c t) (ep_shrink V c t)) (team_at q t)) (seq 0 (length q))) in *.
  eexists. rewrite map_map. split; [exact MC|]. rewrite map_id in *.
  assert (LG : length gs = length l) by (unfold gs; now rewrite map_length, seq_length).
  destruct (unsort_spec p gs) as [U1 U2]; [lia|rewrite LG; now apply Permutation_sym|]. cbv zeta in U1, U2.
  set (L := sort_by_key (fun v : nat * list (TrueSkillRating XR) => N.of_nat (fst v)) (combine p gs)) in *.
  split; [rewrite map_length, <- (map_length fst L), U2, seq_length; exact LG|]. split; [|intros t Ht; apply Hev; now rewrite LQ].
  intros k Hk. assert (LL : length (map snd L) = length gs) by (rewrite map_length, <- (map_length fst L), U2, seq_length; reflexivity).
  assert (IN : In (nth k p O, nth k gs []) (combine (seq 0 (length (map snd L))) (map snd L))).
  { rewrite LL, <- U2, combine_split'. eapply Permutation_in; [exact U1|]. rewrite <- combine_nth by lia. apply nth_In. rewrite combine_length. lia. }
  apply seq_combine_nth in IN as [IN _]. rewrite Nat.sub_0_r in IN. rewrite IN. f_equal. unfold gs.
  rewrite (nth_indep _ _ (map (ep_out tau (ep_shift M V c 0) (ep_shrink V c 0)) (team_at q 0))) by (rewrite map_length, seq_length; lia).
  rewrite (map_nth (fun t => map (ep_out tau (ep_shift M V c t) (ep_shrink V c t)) (team_at q t))), seq_nth by lia. reflexivity.
Qed.
Lemma C100_proof : forall (l : list (list wpl * N)) p dp beta tau, (2 <= length l)%nat ->
  Forall (fun x => fst x <> []) l -> Forall (fun x : wpl => 0 < snd (fst x) /\ 0 < snd x) (concat (map fst l)) -> rank_order l p ->
  let q := arrange l p in
  let M t := w_mean (team_at q t) in let V t := w_var beta tau (team_at q t) in
  exists eps, (forall x, ts_draw_margin (Fin dp) (Fin beta) (Fin (INR (length (team_at q x) + length (team_at q (S x))))) = Fin (eps x)) /\
  forall c, ep_teams beta tau eps q = Some c ->
  exists r, trueskill_multi_team (map (fun x => tsr_in (map fst (fst x), snd x)) l) (ts_cfg dp beta tau) (Some (map (fun x => map Fin (map snd (fst x))) l)) = Ok r /\
    length r = length l /\
    forall k, (k < length l)%nat -> nth_error r (nth k p O) = Some (map (ep_out tau (ep_shift M V c k) (ep_shrink V c k)) (team_at q k)).
Proof.
  intros l p dp beta tau HT H1 H2 HR q M V. eexists. split; [intros x; apply draw_margin_eval, pos_INR|]. intros c EC.
  destruct (C100_core l p dp beta tau (Some (map snd (map entry_in l))) HT (conj H1 H2) HR (weights_in l (conj H1 H2)) c EC) as (r & E1 & E2 & E3 & _). exists r. rewrite !map_map in E1. auto.
Qed.
Lemma C100_default_proof : forall (l : list (list (R * R) * N)) p dp beta tau, (2 <= length l)%nat ->
  Forall (fun x => fst x <> []) l -> Forall (fun x : list (R * R) * N => Forall (fun y => 0 < snd y) (fst x)) l ->
  let lw := map (fun x => (map (fun y => (y, 1)) (fst x), snd x)) l in rank_order lw p ->
  let q := arrange lw p in
  let M t := w_mean (team_at q t) in let V t := w_var beta tau (team_at q t) in
  exists eps, (forall x, ts_draw_margin (Fin dp) (Fin beta) (Fin (INR (length (team_at q x) + length (team_at q (S x))))) = Fin (eps x)) /\
  forall c, ep_teams beta tau eps q = Some c ->
  exists r, trueskill_multi_team (map tsr_in l) (ts_cfg dp beta tau) None = Ok r /\ length r = length l /\
    forall k, (k < length l)%nat -> nth_error r (nth k p O) = Some (map (ep_out tau (ep_shift M V c k) (ep_shrink V c k)) (team_at q k)).
Proof.
  intros l p dp beta tau HT H1 H2 lw HR q M V. eexists. split; [intros x; apply draw_margin_eval, pos_INR|]. intros c EC.
  assert (LL : length lw = length l) by apply map_length. assert (HP : pos_teams lw).
  { split.
    - apply Forall_map. eapply Forall_impl; [|exact H1]. cbn [fst]. intros [t k] Ht. destruct t; [cbn in Ht; congruence|discriminate].
    - unfold lw. rewrite map_map. cbn [fst]. rewrite Forall_forall in *. intros x Hx. apply in_concat in Hx as (t & Ht & Hx). apply in_map_iff in Ht as (y & <- & Hy).
      apply in_map_iff in Hx as (z & <- & Hz). cbn [fst snd]. apply H2 in Hy. rewrite Forall_forall in Hy. apply Hy in Hz. lra. }
  assert (HT' : (2 <= length lw)%nat) by lia.
  assert (ET : map fst (map entry_in lw) = map tsr_in l).
  { unfold lw. rewrite !map_map. apply map_ext. intros [t k]. unfold entry_in, tsr_in, tst_in. cbn [fst snd]. rewrite !map_map. cbn [fst]. reflexivity. }
  assert (HG : get_weights (map fst (map fst (map entry_in lw))) None = Ok (map snd (map entry_in lw))).
  { rewrite ET. cbn [get_weights]. f_equal. unfold lw. rewrite !map_map. apply map_ext. intros [t k]. unfold entry_in, tsr_in, tst_in. cbn [fst snd]. rewrite !map_map. cbn [fst snd].
    rewrite ?map_length. clear. induction t as [|y t IH]; [reflexivity|]. cbn [length repeat map]. now rewrite IH. }
  destruct (C100_core lw p dp beta tau None HT' HP HR HG c EC) as (r & E1 & E2 & E3 & _). exists r. rewrite ET in E1. split; [exact E1|]. split; [exact (eq_trans E2 LL)|]. intros k Hk. apply E3. exact (Nat.lt_le_trans _ _ _ Hk (Nat.eq_le_incl _ _ (eq_sym LL))).
Qed.
(** Every list has a rank order. *)
Lemma rank_order_ex : forall l, exists p, rank_order l p.
Proof.
  intros l. set (s := sort_by_key (fun v : nat * (list wpl * N) => snd (snd v)) (enumerate l)). exists (map fst s).
  assert (P : Permutation (enumerate l) s) by apply sort_perm. split.
  - apply Permutation_sym. rewrite <- enumerate_fst. now apply Permutation_map.
  - eapply (map_sorted fst _ (lexle snd)).
    + apply (sort_stable snd). unfold enumerate. rewrite <- (map_nth_seq l ([], 0%N)) at 2. rewrite <- (map_id (seq 0 (length l))) at 1. rewrite combine_map. eapply map_sorted; [apply seq_sorted|]. intros x y _ _ L. exact L.
    + intros [i x] [j y] Hi Hj L. apply (Permutation_in _ (Permutation_sym P)) in Hi, Hj. apply (enumerate_in ([], 0%N)) in Hi as [_ ->], Hj as [_ ->]. exact L.
Qed.
(** ** Consequences *)
Lemma ep_out_range beta tau (t : list wpl) x d g : In x t -> Forall (fun x : wpl => 0 < snd (fst x) /\ 0 < snd x) t -> 0 < g ->
  exists u, ep_out tau d (/ (g + w_var beta tau t)) x = mkTS (Fin (fst (fst x) + snd x * (snd (fst x) ^ 2 + tau ^ 2) * d)) (Fin u) /\ 0 < u < sqrt (snd (fst x) ^ 2 + tau ^ 2).
Proof.
  intros I F G. unfold ep_out. eexists. split; [reflexivity|]. set (S := snd (fst x) ^ 2 + tau ^ 2). set (w := snd x).
  assert (PX : 0 < snd (fst x) /\ 0 < w) by (rewrite Forall_forall in F; apply F; auto). destruct PX as [P1 P2].
  assert (SP : 0 < S). { unfold S. assert (0 < snd (fst x) ^ 2) by now apply pow_lt. pose proof (pow2_ge_0 tau). lra. }
  assert (WV : w ^ 2 * S <= w_var beta tau t).
  { eapply Rle_trans; [|apply (in_le_sum (fun x : wpl => snd x ^ 2 * (snd (fst x) ^ 2 + tau ^ 2 + beta ^ 2)) t x); auto].
    - fold S w. pose proof (pow2_ge_0 beta). pose proof (pow2_ge_0 w). nra.
    - intros y _. apply Rmult_le_pos; [apply pow2_ge_0|]. pose proof (pow2_ge_0 beta). pose proof (pow2_ge_0 tau). pose proof (pow2_ge_0 (snd (fst y))). lra. }
  set (V := w_var beta tau t) in *. assert (W2 : 0 < w ^ 2 * S) by (apply Rmult_lt_0_compat; auto; now apply pow_lt).
  assert (K : 0 < (w * S) ^ 2 * / (g + V) < S).
  { split; [apply Rmult_lt_0_compat; [apply pow_lt; nra|apply Rinv_0_lt_compat; lra]|].
    apply (Rmult_lt_reg_r (g + V)); [lra|]. rewrite Rmult_assoc, Rinv_l, Rmult_1_r by lra. nra. }
  split; [apply sqrt_lt_R0; lra|apply sqrt_lt_1; lra].
Qed.
Lemma nth_order l p k : rank_order l p -> (k < length l)%nat -> team_at (arrange l p) k = team_at l (nth k p O) /\ In (team_at l (nth k p O)) (map fst l).
Proof.
  intros [P _] Hk. assert (LP : length p = length l) by (apply Permutation_length in P; now rewrite seq_length in P).
  assert (E : team_at (arrange l p) k = team_at l (nth k p O)).
  { unfold team_at, arrange. rewrite (nth_indep _ _ ((fun i => nth i l ([], 0%N)) O)) by (rewrite map_length; lia). rewrite (map_nth (fun i => nth i l ([], 0%N))). reflexivity. }
  split; auto. unfold team_at. apply (in_map fst). apply nth_In. assert (I : In (nth k p O) p) by (apply nth_In; lia). apply (Permutation_in _ P), in_seq in I. lia.
Qed.
Lemma C99_proof : forall (l : list (list wpl * N)) p dp beta tau, (2 <= length l)%nat ->
  Forall (fun x => fst x <> []) l -> Forall (fun x : wpl => 0 < snd (fst x) /\ 0 < snd x) (concat (map fst l)) -> rank_order l p ->
  let q := arrange l p in
  exists eps, (forall x, ts_draw_margin (Fin dp) (Fin beta) (Fin (INR (length (team_at q x) + length (team_at q (S x))))) = Fin (eps x)) /\
  (ep_teams beta tau eps q <> None ->
   exists r, trueskill_multi_team (map (fun x => tsr_in (map fst (fst x), snd x)) l) (ts_cfg dp beta tau) (Some (map (fun x => map Fin (map snd (fst x))) l)) = Ok r /\
   Forall2 (fun t g => exists d, Forall2 (fun x o => let S := snd (fst x) ^ 2 + tau ^ 2 in
     exists u, o = mkTS (Fin (fst (fst x) + snd x * S * d)) (Fin u) /\ 0 < u < sqrt S) t g) (map fst l) r).
Proof.
  intros l p dp beta tau HT H1 H2 HR q. eexists. split; [intros x; apply draw_margin_eval, pos_INR|]. intros EN.
  match type of EN with ?x <> None => destruct x as [c|] eqn:EC; [|congruence] end. clear EN.
  destruct (C100_core l p dp beta tau (Some (map snd (map entry_in l))) HT (conj H1 H2) HR (weights_in l (conj H1 H2)) c EC) as (r & E1 & E2 & E3 & Hev). exists r. rewrite !map_map in E1. split; [exact E1|].
  cbv zeta in E3. fold q in E3. pose proof HR as [P _]. assert (LP : length p = length l) by (apply Permutation_length in P; now rewrite seq_length in P).
  assert (G : forall i, (i < length l)%nat -> exists k, (k < length l)%nat /\ nth k p O = i).
  { intros i Hi. assert (I : In i p) by (apply (Permutation_in _ (Permutation_sym P)), in_seq; lia). apply (In_nth _ _ O) in I as (k & Hk & E). exists k. split; auto. lia. }
  assert (K : forall i t g, nth_error (map fst l) i = Some t -> nth_error r i = Some g -> exists d, Forall2 (fun (x : wpl) o => let S := snd (fst x) ^ 2 + tau ^ 2 in
     exists u, o = mkTS (Fin (fst (fst x) + snd x * S * d)) (Fin u) /\ 0 < u < sqrt S) t g).
  { intros i t g A1 A2. assert (Hi : (i < length l)%nat) by (rewrite <- (map_length fst l); apply nth_error_Some; congruence). destruct (G i Hi) as (k & Hk & <-).
    destruct (nth_order l p k HR Hk) as [TE TI]. fold q in TE. rewrite (E3 k Hk), TE in A2. injection A2 as <-.
    assert (TT : team_at l (nth k p O) = t). { unfold team_at. apply (nth_error_nth _ _ []) in A1. rewrite <- A1. symmetry. apply (map_nth fst l ([], 0%N)). } rewrite TT in *.
    set (d := ep_shift (fun t => w_mean (team_at q t)) (fun t => w_var beta tau (team_at q t)) c k). exists d.
    assert (FT : Forall (fun x : wpl => 0 < snd (fst x) /\ 0 < snd x) t). { rewrite Forall_forall in *. intros x Hx. apply H2. apply in_concat. eauto. }
    assert (QP : 0 < gvar (evidence c k)) by (apply Rinv_0_lt_compat, Hev; auto). unfold ep_shrink. rewrite TE.
    assert (SUB : forall t', (forall x, In x t' -> In x t) -> Forall2 (fun (x : wpl) o => let S := snd (fst x) ^ 2 + tau ^ 2 in
     exists u, o = mkTS (Fin (fst (fst x) + snd x * S * d)) (Fin u) /\ 0 < u < sqrt S) t' (map (ep_out tau d (/ (gvar (evidence c k) + w_var beta tau t))) t')).
    { induction t' as [|x t' IH]; intros SB; cbn [map]; constructor.
      - cbv zeta. apply ep_out_range; auto. apply SB. now left.
      - apply IH. intros; apply SB. now right. }
    apply SUB. auto. }
  assert (LE : length (map fst l) = length r) by (rewrite map_length; auto). clear -K LE. revert r LE K. generalize (map fst l) as ts. induction ts as [|t ts IH]; intros [|g r] LE K; try discriminate; constructor.
  - apply (K 0%nat); reflexivity.
  - apply IH; [cbn in LE; lia|]. intros i t' g' A1 A2. apply (K (S i)); auto.
Qed.

(** ** Three teams far apart: the reference is defined *)
Lemma vw_ratio t e : 0 <= t - e -> 0 < wwin t e < 1 /\ 0 < vwin t e /\ vwin t e / wwin t e = / (vwin t e + t - e).
Proof.
  intros H. pose proof (Phi_pos_ge (t - e) H) as PG. pose proof tiny_small. pose proof (wwin_range t e ltac:(lra)) as W. split; auto. unfold wwin, vwin in *. destruct (Rlt_dec _ _) as [L|_]; [lra|].
  pose proof (phi_pos (t - e)). assert (0 < phi (t - e) / Phi (t - e)) by (apply Rdiv_lt_0_compat; lra). split; auto.
  set (r := phi (t - e) / Phi (t - e)) in *. clearbody r. field. split; lra.
Qed.
Lemma blend M1 V p mu K : 0 < V -> 0 <= p <= / V -> Rabs (mu - M1) <= 2 * K ->
  let g := gprod (gau_of M1 V) (p, p * mu) in 0 < fst g /\ Rabs (gmean g - M1) <= K /\ 0 < gvar g <= V.
Proof.
  intros HV Hp Hm g. assert (IV : 0 < / V) by now apply Rinv_0_lt_compat. assert (P : 0 < fst g) by (unfold g, gprod, gau_of; cbn [fst]; lra). split; auto. split.
  - replace (gmean g - M1) with (p / (/ V + p) * (mu - M1)) by (unfold g, gmean, gprod, gau_of; cbn [fst snd]; field; split; [lra|]; apply Rgt_not_eq; nra).
    assert (L : 0 <= p / (/ V + p) <= 1 / 2).
    { split; [apply Rmult_le_pos; [lra|]; apply Rlt_le, Rinv_0_lt_compat; lra|]. apply (Rmult_le_reg_r (/ V + p)); [lra|]. unfold Rdiv. rewrite Rmult_assoc, Rinv_l by lra. lra. }
    rewrite Rabs_mult, (Rabs_pos_eq (p / (/ V + p))) by lra. pose proof (Rabs_pos (mu - M1)). nra.
  - split; [now apply Rinv_0_lt_compat|]. unfold gvar. rewrite <- (Rinv_inv V). apply Rinv_le_contravar; auto. unfold g, gprod, gau_of. cbn [fst]. lra.
Qed.
Section Three.
  Variables (M V eps : nat -> R) (draw : nat -> bool) (W K : R).
  Hypothesis HW : 0 < W.
  Hypothesis HK : 0 < K.
  Lemma compare_far c x : draw x = false -> 0 < gvar (hi M V c x) <= W -> 0 < gvar (lo M V c x) <= W -> 2 * W / K <= dmean M V c x - eps x ->
    0 < ep_w M V eps draw c x < 1 /\ exists dl, 0 < dl <= K /\ gmean (ep_msg M V eps draw c x) = dmean M V c x + dl /\ 0 < fst (ep_msg M V eps draw c x).
  Proof.
    intros Hd HA HB HG. set (m := dmean M V c x) in *. assert (SQ : dsd M V c x ^ 2 = gvar (hi M V c x) + gvar (lo M V c x)) by (unfold dsd; rewrite <- Rsqr_pow2; apply Rsqr_sqrt; lra).
    assert (SP : 0 < dsd M V c x) by (unfold dsd; apply sqrt_lt_R0; lra). set (s := dsd M V c x) in *.
    assert (GP : 0 < 2 * W / K) by (apply Rdiv_lt_0_compat; lra).
    assert (TE : m / s - eps x / s = (m - eps x) / s) by (unfold Rdiv; ring). assert (TP : 0 <= m / s - eps x / s) by (rewrite TE; apply Rlt_le, Rdiv_lt_0_compat; lra).
    destruct (vw_ratio _ _ TP) as (W1 & V1 & RT). unfold ep_msg, ep_w, ep_v, res_of. rewrite Hd. fold m s. cbn [ts_v ts_w]. set (v := vwin (m / s) (eps x / s)) in *. set (w := wwin (m / s) (eps x / s)) in *.
    split; auto. exists (s * (v / w)). rewrite RT. assert (DN : 0 < v + m / s - eps x / s) by lra. assert (S2 : 0 < s ^ 2) by now apply pow_lt. split; [split|split].
    - apply Rmult_lt_0_compat; auto. now apply Rinv_0_lt_compat.
    - apply (Rmult_le_reg_r (v + m / s - eps x / s)); auto. rewrite Rmult_assoc, Rinv_l, Rmult_1_r by lra.
      assert (KM : s <= K * ((m - eps x) / s)).
      { apply (Rmult_le_reg_r s); auto. replace (K * ((m - eps x) / s) * s) with (K * (m - eps x)) by (field; lra). replace (s * s) with (s ^ 2) by ring. rewrite SQ.
        assert (K * (2 * W / K) <= K * (m - eps x)) by (apply Rmult_le_compat_l; lra). replace (K * (2 * W / K)) with (2 * W) in * by (field; lra). lra. }
      replace (v + m / s - eps x / s) with (v + (m - eps x) / s) by (unfold Rdiv; ring). nra.
    - rewrite <- RT. unfold gmean, gquot, gau_of. cbn [fst snd]. 
      replace (/ (s ^ 2 * (1 - w)) - / s ^ 2) with (w / (s ^ 2 * (1 - w))) by (field; split; lra). field. repeat split; lra.
    - unfold gquot, gau_of. cbn [fst]. replace (/ (s ^ 2 * (1 - w)) - / s ^ 2) with (w / (s ^ 2 * (1 - w))) by (field; split; lra). apply Rdiv_lt_0_compat; [lra|]. apply Rmult_lt_0_compat; lra.
  Qed.
  Hypothesis HV : V 0%nat = W /\ V 1%nat = W /\ V 2%nat = W.
  Hypothesis Hdraw : draw 0%nat = false /\ draw 1%nat = false.
  Hypothesis Hgap : K + 2 * W / K <= M 0%nat - M 1%nat - eps 0%nat /\ K + 2 * W / K <= M 1%nat - M 2%nat - eps 1%nat.
  Definition near (g : gau) := exists p mu, g = (p, p * mu) /\ 0 <= p <= / W /\ Rabs (mu - M 1%nat) <= 2 * K.
  Definition J c := c_prev c 0 = (0, 0) /\ c_next c 2 = (0, 0) /\ near (c_next c 1).
  Lemma told_near m v g0 : 0 < v -> Rabs (m - M 1%nat) <= 2 * K -> 0 < g0 -> near (gau_of m (W + v)).
  Proof.
    intros Hv Hm _. exists (/ (W + v)), m. split; [unfold gau_of; f_equal; unfold Rdiv; ring|]. split; auto. split; [apply Rlt_le, Rinv_0_lt_compat; lra|]. apply Rinv_le_contravar; lra.
  Qed.
  Lemma prior_only m : gmean (gprod (gau_of m W) (0, 0)) = m /\ gvar (gprod (gau_of m W) (0, 0)) = W.
  Proof. unfold gmean, gvar, gprod, gau_of. cbn [fst snd]. rewrite !Rplus_0_r. split; [field; lra|apply Rinv_inv]. Qed.
  Lemma sweep_three c : J c -> exists c' d, ep_sweep M V eps draw 3 c = Some (c', d) /\ J c'.
  Proof.
    intros (J1 & J2 & (p & mu & J3 & J4 & J5)). destruct HV as (V0 & V1 & V2), Hdraw as [D0 D1], Hgap as [G0 G1].
    unfold ep_sweep. change (Nat.eqb 3 2) with false. change (3 - 2)%nat with 1%nat. cbn [seq rev app ep_pass].
    (* comparison 0 *)
    assert (H0 : hi M V c 0 = gprod (gau_of (M 0%nat) W) (0, 0)) by (unfold hi; now rewrite V0, J1).
    assert (L0 : lo M V c 0 = gprod (gau_of (M 1%nat) W) (p, p * mu)) by (unfold lo; now rewrite V1, J3).
    destruct (prior_only (M 0%nat)) as [P1 P2]. destruct (blend (M 1%nat) W p mu K HW J4 J5) as (B1 & B2 & B3). rewrite <- L0 in B1, B2, B3. rewrite <- H0 in P1, P2.
    assert (DM : dmean M V c 0 = M 0%nat - gmean (lo M V c 0)) by (unfold dmean; now rewrite P1).
    assert (AB : - K <= gmean (lo M V c 0) - M 1%nat <= K) by (clear -B2; unfold Rabs in *; destruct (Rcase_abs _); lra).
    destruct (compare_far c 0 D0) as (CW & dl & DL & ME & MP); [lra|lra|rewrite DM; lra|].
    unfold ep_compare at 1. destruct (Rlt_dec 0 (ep_w M V eps draw c 0)) as [_|Q]; [|exfalso; apply Q; apply CW]. destruct (Rlt_dec (ep_w M V eps draw c 0) 1) as [_|Q]; [|exfalso; apply Q; apply CW].
    set (c1 := mkChain (c_prev c) (c_next c) (fset (c_res c) 0 (ep_msg M V eps draw c 0))).
    assert (R0 : c_res c1 0 = ep_msg M V eps draw c 0) by reflexivity. assert (H0' : hi M V c1 0 = hi M V c 0) by reflexivity.
    set (c2 := tell_lower M V 0 c1).
    assert (N1 : near (c_prev c2 1)).
    { unfold c2, tell_lower. cbn [c_prev]. unfold fset at 1. cbn [Nat.eqb]. rewrite R0, H0', P1, P2, ME, DM. apply (told_near _ _ 1); [now apply Rinv_0_lt_compat| |lra].
      unfold Rabs. destruct (Rcase_abs _); lra. }
    assert (Z2 : c_next c2 2 = (0, 0)) by exact J2. assert (Z0 : c_prev c2 0 = (0, 0)) by exact J1.
    assert (X1 : c_next c2 1 = (p, p * mu)) by exact J3. clearbody c2. clear c1 R0 H0' H0 L0 P1 P2 B1 B2 B3 DM AB CW dl DL ME MP.
    destruct N1 as (p' & mu' & J3' & J4' & J5').
    (* comparison 1 *)
    assert (H0 : lo M V c2 1 = gprod (gau_of (M 2%nat) W) (0, 0)) by (unfold lo; now rewrite V2, Z2).
    assert (L0 : hi M V c2 1 = gprod (gau_of (M 1%nat) W) (p', p' * mu')) by (unfold hi; now rewrite V1, J3').
    destruct (prior_only (M 2%nat)) as [P1 P2]. destruct (blend (M 1%nat) W p' mu' K HW J4' J5') as (B1 & B2 & B3). rewrite <- L0 in B1, B2, B3. rewrite <- H0 in P1, P2.
    assert (DM : dmean M V c2 1 = gmean (hi M V c2 1) - M 2%nat) by (unfold dmean; now rewrite P1).
    assert (AB : - K <= gmean (hi M V c2 1) - M 1%nat <= K) by (clear -B2; unfold Rabs in *; destruct (Rcase_abs _); lra).
    destruct (compare_far c2 1 D1) as (CW & dl & DL & ME & MP); [lra|lra|rewrite DM; lra|].
    unfold ep_compare at 1. destruct (Rlt_dec 0 (ep_w M V eps draw c2 1)) as [_|Q]; [|exfalso; apply Q; apply CW]. destruct (Rlt_dec (ep_w M V eps draw c2 1) 1) as [_|Q]; [|exfalso; apply Q; apply CW].
    set (c1 := mkChain (c_prev c2) (c_next c2) (fset (c_res c2) 1 (ep_msg M V eps draw c2 1))).
    assert (R0 : c_res c1 1 = ep_msg M V eps draw c2 1) by reflexivity. assert (H0' : lo M V c1 1 = lo M V c2 1) by reflexivity.
    exists (tell_upper M V 1 c1). eexists. split; [reflexivity|]. split; [exact Z0|]. split; [exact Z2|].
    unfold tell_upper. cbn [c_next]. unfold fset at 1. cbn [Nat.eqb]. rewrite R0, H0', P1, P2, ME, DM. apply (told_near _ _ 1); [now apply Rinv_0_lt_compat| |lra].
    unfold Rabs. destruct (Rcase_abs _); lra.
  Qed.
  Lemma loop_three k : forall c, J c -> exists c', ep_loop M V eps draw k 3 c = Some c'.
  Proof.
    induction k as [|k IH]; intros c H; cbn [ep_loop]; [eauto|]. destruct (sweep_three c H) as (c' & d & -> & H'). destruct (Rle_dec d (1 / 10000)); eauto.
  Qed.
  Lemma run_three : exists c, ep_run M V eps draw 3 = Some c.
  Proof.
    unfold ep_run. destruct (loop_three 10 chain0) as (c & ->); [|eauto]. split; [reflexivity|]. split; [reflexivity|]. exists 0, (M 1%nat). cbn. split; [f_equal; ring|].
    split; [pose proof (Rinv_0_lt_compat _ HW); lra|]. rewrite Rminus_diag_eq, Rabs_R0 by auto. lra.
  Qed.
End Three.
Lemma three_case dp beta tau s : 0 < s -> exists g,
  let l := [([((g, s), 1)], 2%N); ([((0, s), 1)], 3%N); ([((2 * g, s), 1)], 1%N)] in
  let q := arrange l [2; 0; 1]%nat in
  (2 <= length l)%nat /\ Forall (fun x => fst x <> []) l /\ Forall (fun x : wpl => 0 < snd (fst x) /\ 0 < snd x) (concat (map fst l)) /\ rank_order l [2; 0; 1]%nat /\
  exists eps c, (forall x, ts_draw_margin (Fin dp) (Fin beta) (Fin (INR (length (team_at q x) + length (team_at q (S x))))) = Fin (eps x)) /\ ep_teams beta tau eps q = Some c.
Proof.
  intros Hs. set (W := s ^ 2 + tau ^ 2 + beta ^ 2). set (e := unit_margin dp * sqrt (INR 2) * beta). exists (1 + 2 * W / 1 + e). set (g := 1 + 2 * W / 1 + e). intros l q.
  assert (HW : 0 < W). { unfold W. assert (0 < s ^ 2) by now apply pow_lt. pose proof (pow2_ge_0 tau). pose proof (pow2_ge_0 beta). lra. }
  split; [cbn; lia|]. split; [repeat constructor; discriminate|]. split; [repeat constructor; cbn; lra|]. split.
  { split.
    - cbn. apply (perm_trans (perm_swap 0 2 [1])%nat). constructor. apply perm_swap.
    - repeat constructor; cbn; lia. }
  exists (fun x => unit_margin dp * sqrt (INR (length (team_at q x) + length (team_at q (S x)))) * beta).
  destruct (run_three (fun t => w_mean (team_at q t)) (fun t => w_var beta tau (team_at q t)) (fun x => unit_margin dp * sqrt (INR (length (team_at q x) + length (team_at q (S x)))) * beta)
    (fun x => N.eqb (rank_at q x) (rank_at q (S x))) W 1 HW) as (c & EC).
  - lra.
  - unfold q, arrange, l, team_at. cbn [map nth fst]. unfold w_var. cbn [map]. rewrite !Rsum_cons, Rsum_nil. cbn [fst snd]. repeat split; unfold W; ring.
  - cbn. auto.
  - unfold q, arrange, l, team_at. cbn [map nth fst length Nat.add]. fold e. unfold w_mean. cbn [map]. rewrite !Rsum_cons, Rsum_nil. cbn [fst snd]. unfold g. lra.
  - exists c. split; [intros x; apply draw_margin_eval, pos_INR|exact EC].
Qed.
