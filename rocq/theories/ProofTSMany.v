(** Proofs about [trueskill_multi_team] with any number of teams: the factor
    graph computes the reference of SpecEP.v. *)
From Coq Require Import ZArith NArith List Bool Lia Arith.PeanoNat Permutation Reals Lra.
From Verif Require Import Arith XR Tac ModelLib ModelWengLin ModelTS ModelTSGraph Spec SpecTS SpecInTS SpecEP ProofTS ProofTSGraph ProofTSSafe ProofTSTwo.
Import ListNotations.
Local Open Scope R_scope.

Lemma list_set_seq {X} (f : nat -> X) x y k0 K : list_set (map f (seq k0 K)) x y = map (fun k => if Nat.eqb k (k0 + x) then y else f k) (seq k0 K).
Proof.
  revert k0 x. induction K as [|K IH]; intros k0 x; cbn [seq map list_set]; [reflexivity|]. destruct x as [|x]; f_equal.
  - rewrite Nat.add_0_r, Nat.eqb_refl. reflexivity.
  - rewrite Nat.add_0_r. apply map_ext_in. intros k Hk. apply in_seq in Hk. rewrite (proj2 (Nat.eqb_neq k k0)) by lia. reflexivity.
  - rewrite (proj2 (Nat.eqb_neq k0 (k0 + S x))) by lia. reflexivity.
  - rewrite IH. now replace (S k0 + x)%nat with (k0 + S x)%nat by lia.
Qed.
Lemma seq_plus_map x k m : seq (x + k) m = map (fun j => (x + j)%nat) (seq k m).
Proof. revert k. induction m as [|m IH]; intros k; [reflexivity|]. cbn [seq map]. f_equal. rewrite <- IH. f_equal. lia. Qed.
Lemma nrm_self (p : gau) : fst p <> 0 -> nrm (gmean p) (gvar p) = p.
Proof. intros H. destruct p as [a b]. unfold nrm, gmean, gvar. cbn [fst snd] in *. f_equal; [apply Rinv_inv|field; auto]. Qed.
Lemma pad3_l p q r : g_div (fg (pad p (pad q r))) (fg p) = fg (pad q r).
Proof. apply fg_cav'. Qed.
Lemma pad3_m p q r : g_div (fg (pad p (pad q r))) (fg q) = fg (pad p r).
Proof. unfold g_div, fg, pad. cbn [g_pi g_tau fst snd]. rewrite !xr_sub. f_equal; f_equal; ring. Qed.
Lemma pad3_r p q r : g_div (fg (pad p (pad q r))) (fg r) = fg (pad p q).
Proof. unfold g_div, fg, pad. cbn [g_pi g_tau fst snd]. rewrite !xr_sub. f_equal; f_equal; ring. Qed.
Lemma pad_swap p q r : pad (pad p r) q = pad p (pad q r).
Proof. unfold pad. cbn [fst snd]. f_equal; ring. Qed.
Lemma pad_assoc p q r : pad (pad p q) r = pad p (pad q r).
Proof. unfold pad. cbn [fst snd]. f_equal; ring. Qed.

Section Many.
  Variables (n T : nat) (off sz : nat -> nat).
  Hypothesis lay1 : forall t k, (t < T)%nat -> (k < sz t)%nat -> (off t + k < n)%nat.
  Hypothesis lay2 : forall t k t' k', (t < T)%nat -> (k < sz t)%nat -> (t' < T)%nat -> (k' < sz t')%nat -> (off t + k = off t' + k')%nat -> t = t' /\ k = k'.
  Hypothesis lay3 : forall i, (i < n)%nat -> exists t k, (t < T)%nat /\ (k < sz t)%nat /\ i = (off t + k)%nat.
  Variables (mi Si wi : nat -> R) (beta : R).
  Let B := beta * beta.
  Hypothesis Si_pos : forall i, (i < n)%nat -> 0 < Si i.
  Hypothesis wi_pos : forall i, (i < n)%nat -> 0 < wi i.
  Hypothesis sz_pos : forall t, (t < T)%nat -> (0 < sz t)%nat.
  Lemma Bnn : 0 <= B. Proof. unfold B. apply Rle_0_sqr. Qed.

  (** The state of the graph: all messages; a variable's value is the product
      of its messages. *)
  Definition Rb (pr rl : nat -> R * R) (s : Store XR) : Prop :=
    forall i, (i < n)%nat -> gauss s i = fg (pad (pr i) (rl i)) /\ emsg s i (n + i) = fg (rl i).
  Definition Pb (pl pt : nat -> R * R) (s : Store XR) : Prop :=
    forall t k, (t < T)%nat -> (k < sz t)%nat -> let i := (off t + k)%nat in
      gauss s (n + i) = fg (pad (pl i) (pt i)) /\ emsg s (n + i) (n + i) = fg (pl i) /\ emsg s (n + i) (2 * n + t) = fg (pt i).
  Definition Tb (tt fp fn : nat -> R * R) (s : Store XR) : Prop :=
    forall t, (t < T)%nat -> gauss s (2 * n + t) = fg (pad (tt t) (pad (fp t) (fn t))) /\ emsg s (2 * n + t) (2 * n + t) = fg (tt t) /\
      (forall x, t = S x -> emsg s (2 * n + t) (2 * n + T + x) = fg (fp t)) /\ (emsg s (2 * n + t) (2 * n + T + t) = fg (fn t)).
  Definition Db (dd du : nat -> R * R) (s : Store XR) : Prop :=
    forall x, (S x < T)%nat -> gauss s (2 * n + T + x) = fg (pad (dd x) (du x)) /\ emsg s (2 * n + T + x) (2 * n + T + x) = fg (dd x) /\
      emsg s (2 * n + T + x) (2 * n + T + (T - 1) + x) = fg (du x).
  Definition Sm (pr rl pl pt tt : nat -> R * R) (c : chain) (dd : nat -> R * R) (s : Store XR) : Prop :=
    Rb pr rl s /\ Pb pl pt s /\ Tb tt (c_prev c) (c_next c) s /\ Db dd (c_res c) s.
  Ltac stays H C4 := unfold gauss, emsg in *; intros; rewrite ?C4 by lia; apply H; auto.
  Lemma Rb_frame pr rl s s' v id G m : Rb pr rl s -> chg s s' v id G m -> (n <= v)%nat -> Rb pr rl s'.
  Proof. intros H (C1 & C2 & C3 & C4) L i Hi. unfold gauss, emsg in *. rewrite C4 by lia. now apply H. Qed.
  Lemma Pb_frame pl pt s s' v id G m : Pb pl pt s -> chg s s' v id G m -> (v < n \/ 2 * n <= v)%nat -> Pb pl pt s'.
  Proof. intros H (C1 & C2 & C3 & C4) L t k Ht Hk i. pose proof (lay1 t k Ht Hk) as LI. fold i in LI. unfold gauss, emsg in *. rewrite C4 by lia. now apply H. Qed.
  Lemma Tb_frame tt fp fn s s' v id G m : Tb tt fp fn s -> chg s s' v id G m -> (v < 2 * n \/ 2 * n + T <= v)%nat -> Tb tt fp fn s'.
  Proof. intros H (C1 & C2 & C3 & C4) L t Ht. unfold gauss, emsg in *. rewrite C4 by lia. now apply H. Qed.
  Lemma Db_frame dd du s s' v id G m : Db dd du s -> chg s s' v id G m -> (v < 2 * n + T)%nat -> Db dd du s'.
  Proof. intros H (C1 & C2 & C3 & C4) L t Ht. unfold gauss, emsg in *. rewrite C4 by lia. now apply H. Qed.
  Lemma Sm_same pr rl pl pt tt c dd s s' : Sm pr rl pl pt tt c dd s -> same s s' -> Sm pr rl pl pt tt c dd s'.
  Proof.
    intros (H1 & H2 & H3 & H4) E.
    assert (G : forall v, gauss s' v = gauss s v) by (intros; apply E). assert (K : forall v id, emsg s' v id = emsg s v id) by (intros; apply E).
    split; [|split; [|split]].
    - intros i Hi. rewrite !G, !K. now apply H1.
    - intros t k Ht Hk. cbv zeta. rewrite !G, !K. now apply H2.
    - intros t Ht. rewrite !G, !K. destruct (H3 t Ht) as (A1 & A2 & A3 & A4). repeat split; auto. intros x Hx. rewrite K. now apply A3.
    - intros x Hx. rewrite !G, !K. now apply H4.
  Qed.
  Lemma Sm_pr pr rl pl pt tt c dd s s' i x G m : Sm pr rl pl pt tt c dd s -> (i < n)%nat ->
    chg s s' i i G m -> G = fg (pad x (rl i)) -> Sm (upf pr i x) rl pl pt tt c dd s'.
  Proof.
    intros (H1 & H2 & H3 & H4) Hi C ->. split; [|split; [|split]].
    - destruct C as (C1 & C2 & C3 & C4). intros j Hj. unfold upf. destruct (Nat.eqb_spec j i) as [->|N].
      + split; [auto|]. rewrite C3 by lia. now apply H1.
      + unfold gauss, emsg in *. rewrite C4 by lia. now apply H1.
    - eapply Pb_frame; eauto.
    - eapply Tb_frame; eauto. lia.
    - eapply Db_frame; eauto. lia.
  Qed.
  Lemma Sm_rl pr rl pl pt tt c dd s s' i x G : Sm pr rl pl pt tt c dd s -> (i < n)%nat ->
    chg s s' i (n + i) G (fg x) -> G = fg (pad (pr i) x) -> Sm pr (upf rl i x) pl pt tt c dd s'.
  Proof.
    intros (H1 & H2 & H3 & H4) Hi C ->. split; [|split; [|split]].
    - destruct C as (C1 & C2 & C3 & C4). intros j Hj. unfold upf. destruct (Nat.eqb_spec j i) as [->|N]; [auto|].
      unfold gauss, emsg in *. rewrite C4 by lia. now apply H1.
    - eapply Pb_frame; eauto.
    - eapply Tb_frame; eauto. lia.
    - eapply Db_frame; eauto. lia.
  Qed.
  Lemma Sm_pl pr rl pl pt tt c dd s s' i x G : Sm pr rl pl pt tt c dd s -> (i < n)%nat ->
    chg s s' (n + i) (n + i) G (fg x) -> G = fg (pad x (pt i)) -> Sm pr rl (upf pl i x) pt tt c dd s'.
  Proof.
    intros (H1 & H2 & H3 & H4) Hi C ->. split; [|split; [|split]].
    - eapply Rb_frame; eauto. lia.
    - destruct C as (C1 & C2 & C3 & C4). intros t k Ht Hk j. pose proof (lay1 t k Ht Hk) as LJ. fold j in LJ. unfold upf. specialize (H2 t k Ht Hk). cbv zeta in H2. fold j in H2.
      destruct (Nat.eqb_spec j i) as [E|N].
      + rewrite E in *. split; [auto|]. split; [auto|]. rewrite C3 by lia. apply H2.
      + unfold gauss, emsg in *. rewrite C4 by lia. exact H2.
    - eapply Tb_frame; eauto. lia.
    - eapply Db_frame; eauto. lia.
  Qed.
  Lemma Sm_pt pr rl pl pt tt c dd s s' t k x G : Sm pr rl pl pt tt c dd s -> (t < T)%nat -> (k < sz t)%nat -> let i := (off t + k)%nat in
    chg s s' (n + i) (2 * n + t) G (fg x) -> G = fg (pad (pl i) x) -> Sm pr rl pl (upf pt i x) tt c dd s'.
  Proof.
    intros (H1 & H2 & H3 & H4) Ht Hk i C ->. pose proof (lay1 t k Ht Hk) as LI. fold i in LI. split; [|split; [|split]].
    - eapply Rb_frame; eauto. lia.
    - destruct C as (C1 & C2 & C3 & C4). intros t' k' Ht' Hk' j. pose proof (lay1 t' k' Ht' Hk') as LJ. fold j in LJ. unfold upf. pose proof (H2 t' k' Ht' Hk') as K2. cbv zeta in K2. fold j in K2.
      destruct (Nat.eqb_spec j i) as [E|N].
      + destruct (lay2 t' k' t k Ht' Hk' Ht Hk E) as [-> ->]. fold i in j. rewrite E in *. split; [auto|]. split; [|auto]. rewrite C3 by lia. apply K2.
      + unfold gauss, emsg in *. rewrite C4 by lia. exact K2.
    - eapply Tb_frame; eauto. lia.
    - eapply Db_frame; eauto. lia.
  Qed.
  Lemma Sm_tt pr rl pl pt tt c dd s s' t x G : Sm pr rl pl pt tt c dd s -> (t < T)%nat ->
    chg s s' (2 * n + t) (2 * n + t) G (fg x) -> G = fg (pad x (pad (c_prev c t) (c_next c t))) -> Sm pr rl pl pt (upf tt t x) c dd s'.
  Proof.
    intros (H1 & H2 & H3 & H4) Ht C ->. split; [|split; [|split]].
    - eapply Rb_frame; eauto. lia.
    - eapply Pb_frame; eauto. lia.
    - destruct C as (C1 & C2 & C3 & C4). intros j Hj. destruct (H3 j Hj) as (A1 & A2 & A3 & A4). unfold upf. destruct (Nat.eqb_spec j t) as [->|N].
      + split; [auto|]. split; [auto|]. split; [intros y Hy|]; rewrite C3 by lia; auto.
      + unfold gauss, emsg in *. rewrite C4 by lia. auto.
    - eapply Db_frame; eauto. lia.
  Qed.
  Lemma Sm_prev pr rl pl pt tt c dd s s' t y x G : Sm pr rl pl pt tt c dd s -> (t < T)%nat -> t = S y ->
    chg s s' (2 * n + t) (2 * n + T + y) G (fg x) -> G = fg (pad (tt t) (pad x (c_next c t))) -> Sm pr rl pl pt tt (mkChain (fset (c_prev c) t x) (c_next c) (c_res c)) dd s'.
  Proof.
    intros (H1 & H2 & H3 & H4) Ht Et C ->. split; [|split; [|split]].
    - eapply Rb_frame; eauto. lia.
    - eapply Pb_frame; eauto. lia.
    - cbn [c_prev c_next]. destruct C as (C1 & C2 & C3 & C4). intros j Hj. destruct (H3 j Hj) as (A1 & A2 & A3 & A4). unfold fset. destruct (Nat.eqb_spec j t) as [->|N].
      + split; [auto|]. split; [rewrite C3 by lia; auto|]. split; [|rewrite C3 by lia; auto]. intros z Hz. assert (z = y) by lia. subst z. auto.
      + unfold gauss, emsg in *. rewrite C4 by lia. auto.
    - eapply Db_frame; eauto. lia.
  Qed.
  Lemma Sm_next pr rl pl pt tt c dd s s' t x G : Sm pr rl pl pt tt c dd s -> (t < T)%nat ->
    chg s s' (2 * n + t) (2 * n + T + t) G (fg x) -> G = fg (pad (tt t) (pad (c_prev c t) x)) -> Sm pr rl pl pt tt (mkChain (c_prev c) (fset (c_next c) t x) (c_res c)) dd s'.
  Proof.
    intros (H1 & H2 & H3 & H4) Ht C ->. split; [|split; [|split]].
    - eapply Rb_frame; eauto. lia.
    - eapply Pb_frame; eauto. lia.
    - cbn [c_prev c_next]. destruct C as (C1 & C2 & C3 & C4). intros j Hj. destruct (H3 j Hj) as (A1 & A2 & A3 & A4). unfold fset. destruct (Nat.eqb_spec j t) as [->|N].
      + split; [auto|]. split; [rewrite C3 by lia; auto|]. split; [|auto]. intros z Hz. rewrite C3 by lia. auto.
      + unfold gauss, emsg in *. rewrite C4 by lia. auto.
    - eapply Db_frame; eauto. lia.
  Qed.
  Lemma Sm_dd pr rl pl pt tt c dd s s' y x G : Sm pr rl pl pt tt c dd s -> (S y < T)%nat ->
    chg s s' (2 * n + T + y) (2 * n + T + y) G (fg x) -> G = fg (pad x (c_res c y)) -> Sm pr rl pl pt tt c (upf dd y x) s'.
  Proof.
    intros (H1 & H2 & H3 & H4) Hy C ->. split; [|split; [|split]].
    - eapply Rb_frame; eauto. lia.
    - eapply Pb_frame; eauto. lia.
    - eapply Tb_frame; eauto. lia.
    - destruct C as (C1 & C2 & C3 & C4). intros j Hj. destruct (H4 j Hj) as (A1 & A2 & A3). unfold upf. destruct (Nat.eqb_spec j y) as [->|N].
      + split; [auto|]. split; [auto|]. rewrite C3 by lia. auto.
      + unfold gauss, emsg in *. rewrite C4 by lia. auto.
  Qed.
  Lemma Sm_res pr rl pl pt tt c dd s s' y x G m : Sm pr rl pl pt tt c dd s -> (S y < T)%nat ->
    chg s s' (2 * n + T + y) (2 * n + T + (T - 1) + y) G m -> m = fg x -> G = fg (pad (dd y) x) -> Sm pr rl pl pt tt (mkChain (c_prev c) (c_next c) (fset (c_res c) y x)) dd s'.
  Proof.
    intros (H1 & H2 & H3 & H4) Hy C -> ->. split; [|split; [|split]].
    - eapply Rb_frame; eauto. lia.
    - eapply Pb_frame; eauto. lia.
    - eapply Tb_frame; eauto. lia.
    - cbn [c_res]. destruct C as (C1 & C2 & C3 & C4). intros j Hj. destruct (H4 j Hj) as (A1 & A2 & A3). unfold fset. destruct (Nat.eqb_spec j y) as [->|N].
      + split; [auto|]. split; [|auto]. rewrite C3 by lia. auto.
      + unfold gauss, emsg in *. rewrite C4 by lia. auto.
  Qed.

  Lemma Sm_ext pr rl pl pt tt c dd pr' rl' pl' pt' tt' dd' s : Sm pr rl pl pt tt c dd s ->
    (forall i, (i < n)%nat -> pr i = pr' i /\ rl i = rl' i /\ pl i = pl' i /\ pt i = pt' i) -> (forall t, (t < T)%nat -> tt t = tt' t) -> (forall x, (S x < T)%nat -> dd x = dd' x) ->
    Sm pr' rl' pl' pt' tt' c dd' s.
  Proof.
    intros (H1 & H2 & H3 & H4) E1 E2 E3. split; [|split; [|split]].
    - intros i Hi. destruct (E1 i Hi) as (<- & <- & _). now apply H1.
    - intros t k Ht Hk. cbv zeta. destruct (E1 _ (lay1 t k Ht Hk)) as (_ & _ & <- & <-). now apply H2.
    - intros t Ht. rewrite <- (E2 t Ht). now apply H3.
    - intros x Hx. rewrite <- (E3 x Hx). now apply H4.
  Qed.

  (** *** Likelihood factors *)
  Definition likm i : LikelihoodFactor (F:=XR) := mkLik (n + i) i (n + i) (fpowi (Fin beta) 2).
  Lemma lik_step (x : R * R) i : B * fst x + 1 <> 0 ->
    mkG (fmul (lik_calc_a (likm i) (fg x)) (g_pi (fg x))) (fmul (lik_calc_a (likm i) (fg x)) (g_tau (fg x))) = fg (/ (B * fst x + 1) * fst x, / (B * fst x + 1) * snd x).
  Proof.
    intros H. replace (lik_calc_a (likm i) (fg x)) with (Fin (/ (B * fst x + 1))); [reflexivity|]. unfold lik_calc_a, fg, likm. cbn [lf_variance g_pi].
    rewrite xr_ofZ, xr_powi2, xr_fma. fold B. now rewrite xr_recip.
  Qed.
  Lemma lik_nrm mu V : 0 < V -> B * fst (nrm mu V) + 1 <> 0 /\ (/ (B * fst (nrm mu V) + 1) * fst (nrm mu V), / (B * fst (nrm mu V) + 1) * snd (nrm mu V)) = nrm mu (V + B).
  Proof.
    intros HV. pose proof Bnn. unfold nrm. cbn [fst snd]. assert (0 < / V) by now apply Rinv_0_lt_compat. split; [nra|]. f_equal; field; lra.
  Qed.
  Lemma lik_down_Sm pr rl pl pt tt c dd s s' d i mu V : Sm pr rl pl pt tt c dd s -> (i < n)%nat ->
    lik_down (likm i) s = Some (s', d) -> pr i = nrm mu V -> 0 < V -> Sm pr rl (upf pl i (nrm mu (V + B))) pt tt c dd s'.
  Proof.
    intros H Hi R E HV. unfold lik_down in R. apply bind_inv in R as (s1 & g & R1 & R). apply cavity_inv in R1 as [-> ->].
    change (lf_mean (likm i)) with i in R. change (lf_id (likm i)) with (n + i)%nat in R. change (lf_value (likm i)) with (n + i)%nat in R.
    pose proof H as (H1 & H2 & H3 & H4). destruct (H1 i Hi) as [G1 G2]. rewrite G1, G2, fg_cav, E in R. cbv zeta in R.
    destruct (lik_nrm mu V HV) as [N1 N2]. rewrite lik_step, N2 in R by auto.
    apply update_message_inv in R. destruct (lay3 i Hi) as (t & k & Ht & Hk & Ei). destruct (H2 t k Ht Hk) as (P1 & P2 & P3). rewrite <- Ei in *. rewrite P1, P2, fg_cav' in R.
    eapply Sm_pl; [exact H|exact Hi|exact R|]. rewrite fg_mul. now rewrite pad_comm.
  Qed.
  Lemma lik_up_Sm pr rl pl pt tt c dd s s' d i mu V : Sm pr rl pl pt tt c dd s -> (i < n)%nat ->
    lik_up (likm i) s = Some (s', d) -> pt i = nrm mu V -> 0 < V -> Sm pr (upf rl i (nrm mu (V + B))) pl pt tt c dd s'.
  Proof.
    intros H Hi R E HV. unfold lik_up in R. apply bind_inv in R as (s1 & g & R1 & R). apply cavity_inv in R1 as [-> ->].
    change (lf_mean (likm i)) with i in R. change (lf_id (likm i)) with (n + i)%nat in R. change (lf_value (likm i)) with (n + i)%nat in R.
    pose proof H as (H1 & H2 & H3 & H4). destruct (lay3 i Hi) as (t & k & Ht & Hk & Ei). destruct (H2 t k Ht Hk) as (P1 & P2 & P3). rewrite <- Ei in *.
    rewrite P1, P2, fg_cav', E in R. cbv zeta in R. destruct (lik_nrm mu V HV) as [N1 N2]. rewrite lik_step, N2 in R by auto.
    apply update_message_inv in R. destruct (H1 i Hi) as [G1 G2]. rewrite G1, G2, fg_cav in R.
    eapply Sm_rl; [exact H|exact Hi|exact R|]. now rewrite fg_mul.
  Qed.

  (** *** Team sums *)
  Definition Mt t := Rsum (map (fun k => wi (off t + k) * mi (off t + k)) (seq 0 (sz t))).
  Definition Vt t := Rsum (map (fun k => wi (off t + k) ^ 2 * (Si (off t + k) + B)) (seq 0 (sz t))).
  Lemma Vt_pos t : (t < T)%nat -> 0 < Vt t.
  Proof.
    intros Ht. unfold Vt. apply ProofTSTwo.Rsum_pos.
    - pose proof (sz_pos t Ht). destruct (sz t); [lia|discriminate].
    - intros k Hk. apply in_seq in Hk. assert (L : (off t + k < n)%nat) by (apply lay1; lia). pose proof (Si_pos _ L). pose proof (wi_pos _ L). pose proof Bnn.
      apply Rmult_lt_0_compat; [now apply pow_lt|lra].
  Qed.
  Definition plm i := nrm (mi i) (Si i + B).
  Definition ttm t := nrm (Mt t) (Vt t).
  Definition teamm (t : nat) : SumFactor (F:=XR) :=
    mkSum (2 * n + t) (2 * n + t) (map (fun k => (n + (off t + k))%nat) (seq 0 (sz t))) (map (fun k => Fin (wi (off t + k))) (seq 0 (sz t))).
  Lemma team_down_Sm pr rl pl pt tt c dd s s' d t : Sm pr rl pl pt tt c dd s -> (t < T)%nat ->
    (forall i, (i < n)%nat -> pl i = plm i) ->
    sum_down (teamm t) s = Some (s', d) -> Sm pr rl pl pt (upf tt t (ttm t)) c dd s'.
  Proof.
    intros H Ht Hpl R. unfold sum_down in R. cbn [teamm sf_id sf_sum sf_terms sf_coeffs] in R. pose proof H as (H1 & H2 & H3 & H4).
    apply (sum_update_nrm _ _ _ _ _ _ _ (seq 0 (sz t)) (fun k => (n + (off t + k))%nat) (fun k => mi (off t + k)) (fun k => Si (off t + k) + B) (fun k => wi (off t + k))) in R; auto.
    - destruct (H3 t Ht) as (T1 & T2 & T3). rewrite T1, T2, pad3_l in R. eapply Sm_tt; [exact H|exact Ht|exact R|]. rewrite fg_mul. now rewrite pad_comm.
    - intros k Hk. apply in_seq in Hk. assert (L : (off t + k < n)%nat) by (apply lay1; lia). destruct (H2 t k Ht ltac:(lia)) as (P1 & P2 & P3). rewrite P1, P3, fg_cav, Hpl by auto.
      split; [reflexivity|]. pose proof (Si_pos _ L). pose proof Bnn. lra.
    - pose proof (Vt_pos t Ht) as V. unfold Vt in V. lra.
  Qed.

  (** *** Comparisons *)
  Variables (eps : nat -> R) (draw : nat -> bool).
  (** All messages have a non-negative precision. *)
  Definition okc (c : chain) : Prop := forall t, 0 <= fst (c_prev c t) /\ 0 <= fst (c_next c t).
  Notation hi' := (hi Mt Vt). Notation lo' := (lo Mt Vt).
  Lemma hi_pos c x : okc c -> (x < T)%nat -> 0 < fst (hi' c x).
  Proof. intros H Hx. unfold hi, gprod, gau_of. cbn [fst]. pose proof (Rinv_0_lt_compat _ (Vt_pos x Hx)). destruct (H x). lra. Qed.
  Lemma lo_pos c x : okc c -> (S x < T)%nat -> 0 < fst (lo' c x).
  Proof. intros H Hx. unfold lo, gprod, gau_of. cbn [fst]. pose proof (Rinv_0_lt_compat _ (Vt_pos _ Hx)). destruct (H (S x)). lra. Qed.
  Lemma var_pos g : 0 < fst g -> 0 < gvar g. Proof. apply Rinv_0_lt_compat. Qed.
  Definition diffm x : SumFactor (F:=XR) := mkSum (2 * n + T + x) (2 * n + T + x) [(2 * n + x)%nat; (2 * n + S x)%nat] [Fin 1; Fin (-1)].
  Lemma cav_hi pr rl pl pt tt c dd s x : Sm pr rl pl pt tt c dd s -> (forall t, (t < T)%nat -> tt t = ttm t) -> okc c -> (S x < T)%nat ->
    g_div (gauss s (2 * n + x)) (emsg s (2 * n + x) (2 * n + T + x)) = fg (nrm (gmean (hi' c x)) (gvar (hi' c x))) /\ 0 < gvar (hi' c x).
  Proof.
    intros (H1 & H2 & H3 & H4) Htt Hc Hx. destruct (H3 x ltac:(lia)) as (T1 & T2 & T3 & T4). rewrite T1, T4, pad3_r, Htt by lia.
    assert (HP : 0 < fst (hi' c x)) by (apply hi_pos; auto; lia). rewrite nrm_self by lra. split; [reflexivity|now apply var_pos].
  Qed.
  Lemma cav_lo pr rl pl pt tt c dd s x : Sm pr rl pl pt tt c dd s -> (forall t, (t < T)%nat -> tt t = ttm t) -> okc c -> (S x < T)%nat ->
    g_div (gauss s (2 * n + S x)) (emsg s (2 * n + S x) (2 * n + T + x)) = fg (nrm (gmean (lo' c x)) (gvar (lo' c x))) /\ 0 < gvar (lo' c x).
  Proof.
    intros (H1 & H2 & H3 & H4) Htt Hc Hx. destruct (H3 (S x) ltac:(lia)) as (T1 & T2 & T3 & T4). rewrite T1, (T3 x), pad3_m, Htt by (auto; lia).
    assert (HP : 0 < fst (lo' c x)) by (apply lo_pos; auto). rewrite nrm_self by lra. split; [reflexivity|now apply var_pos].
  Qed.
  Notation dmean' := (dmean Mt Vt). Notation dsd' := (dsd Mt Vt).
  Definition ddm c x := nrm (dmean' c x) (dsd' c x ^ 2).
  Lemma dsd_pos c x : okc c -> (S x < T)%nat -> 0 < dsd' c x /\ dsd' c x ^ 2 = gvar (hi' c x) + gvar (lo' c x).
  Proof.
    intros Hc Hx. pose proof (var_pos _ (hi_pos c x Hc ltac:(lia))). pose proof (var_pos _ (lo_pos c x Hc Hx)). unfold dsd. split; [apply sqrt_lt_R0; lra|].
    rewrite <- Rsqr_pow2. apply Rsqr_sqrt. lra.
  Qed.
  Lemma diff_down_Sm pr rl pl pt tt c dd s s' d x : Sm pr rl pl pt tt c dd s -> (forall t, (t < T)%nat -> tt t = ttm t) -> okc c -> (S x < T)%nat ->
    sum_down (diffm x) s = Some (s', d) -> Sm pr rl pl pt tt c (upf dd x (ddm c x)) s'.
  Proof.
    intros H Htt Hc Hx R. unfold sum_down in R. cbn [diffm sf_id sf_sum sf_terms sf_coeffs] in R. pose proof H as (H1 & H2 & H3 & H4).
    destruct (cav_hi _ _ _ _ _ _ _ _ x H Htt Hc Hx) as [CH VH]. destruct (cav_lo _ _ _ _ _ _ _ _ x H Htt Hc Hx) as [CL VL]. destruct (dsd_pos c x Hc Hx) as [SP SQ].
    apply (sum_update_nrm _ _ _ _ _ _ _ (seq 0 2) (fun k => (2 * n + (k + x))%nat) (fun k => match k with O => gmean (hi' c x) | _ => gmean (lo' c x) end)
       (fun k => match k with O => gvar (hi' c x) | _ => gvar (lo' c x) end) (fun k => match k with O => 1 | _ => -1 end)) in R; auto.
    - cbn [seq map] in R. rewrite !Rsum_cons, Rsum_nil in R. destruct (H4 x Hx) as (T1 & T2 & T3). rewrite T1, T2, fg_cav' in R.
      match type of R with chg _ _ _ _ (g_mul _ (fg (nrm ?m ?v))) _ => replace m with (dmean' c x) in R by (unfold dmean; ring); replace v with (dsd' c x ^ 2) in R by (rewrite SQ; ring) end.
      eapply Sm_dd; [exact H|exact Hx|exact R|]. rewrite fg_mul. now rewrite pad_comm.
    - intros k Hk. apply in_seq in Hk. destruct k as [|[|k]]; [auto|auto|lia].
    - cbn [seq map]. rewrite !Rsum_cons, Rsum_nil. nra.
  Qed.
  Notation ep_v' := (ep_v Mt Vt eps draw). Notation ep_w' := (ep_w Mt Vt eps draw). Notation ep_msg' := (ep_msg Mt Vt eps draw).
  Definition truncm x : TruncateFactor (F:=XR) := mkTrunc (2 * n + T + (T - 1) + x) (2 * n + T + x) (draw x) (Fin (eps x)).
  Lemma msg_pos c x : okc c -> (S x < T)%nat -> 0 < ep_w' c x < 1 -> 0 < fst (ep_msg' c x).
  Proof.
    intros Hc Hx W. destruct (dsd_pos c x Hc Hx) as [SP SQ]. unfold ep_msg, gquot, gau_of. cbn [fst]. set (s := dsd' c x) in *. set (w := ep_w' c x) in *.
    assert (0 < s ^ 2) by now apply pow_lt.
    replace (/ (s ^ 2 * (1 - w)) - / s ^ 2) with (w / (s ^ 2 * (1 - w))) by (field; split; lra). apply Rdiv_lt_0_compat; [lra|]. apply Rmult_lt_0_compat; lra.
  Qed.
  Lemma trunc_up_Sm pr rl pl pt tt c dd s s' d x : Sm pr rl pl pt tt c dd s -> dd x = ddm c x -> okc c -> (S x < T)%nat -> 0 < ep_w' c x < 1 ->
    trunc_up (truncm x) s = Some (s', d) ->
    Sm pr rl pl pt tt (mkChain (c_prev c) (c_next c) (fset (c_res c) x (ep_msg' c x))) dd s' /\ d = Fin (change (c_res c x) (ep_msg' c x)).
  Proof.
    intros H Hdd Hc Hx W R. unfold trunc_up in R. apply bind_inv in R as (s1 & g & R1 & R). apply cavity_inv in R1 as [-> ->]. pose proof H as (H1 & H2 & H3 & H4).
    destruct (H4 x Hx) as (T1 & T2 & T3). destruct (dsd_pos c x Hc Hx) as [SP SQ].
    change (tf_variable (truncm x)) with (2 * n + T + x)%nat in R. change (tf_id (truncm x)) with (2 * n + T + (T - 1) + x)%nat in R.
    change (tf_draw (truncm x)) with (draw x) in R. change (tf_draw_margin (truncm x)) with (Fin (eps x)) in R.
    rewrite T1, T3, fg_cav, Hdd in R. cbv zeta in R. unfold ddm, nrm, fg in R. cbn [g_pi g_tau fst snd] in R.
    set (m := dmean' c x) in *. set (sd := dsd' c x) in *. set (vv := ep_v' c x) in *. set (ww := ep_w' c x) in *.
    assert (S2 : 0 < sd ^ 2) by now apply pow_lt. assert (IC : 0 < / sd ^ 2) by now apply Rinv_0_lt_compat. assert (Ic : 0 < / sd) by now apply Rinv_0_lt_compat.
    rewrite xr_sqrt in R by lra. replace (sqrt (/ sd ^ 2)) with (/ sd) in R by (rewrite sqrt_inv; rewrite sqrt_pow2 by lra; reflexivity).
    rewrite xr_mul in R.
    assert (E1 : m / sd ^ 2 / / sd = m / sd) by (field; lra). assert (E2 : eps x * / sd ^ 2 / / sd = eps x / sd) by (field; lra).
    assert (EV : (if draw x then v_draw (Fin (m / sd ^ 2)) (Fin (eps x * / sd ^ 2)) (Fin (/ sd)) else v_non_draw (Fin (m / sd ^ 2)) (Fin (eps x * / sd ^ 2)) (Fin (/ sd))) = Fin vv).
    { unfold vv, ep_v, res_of. fold m sd. destruct (draw x); [rewrite v_draw_eval by auto|rewrite v_non_draw_eval by auto]; now rewrite E1, E2. }
    assert (EW : (if draw x then w_draw (Fin (m / sd ^ 2)) (Fin (eps x * / sd ^ 2)) (Fin (/ sd)) else w_non_draw (Fin (m / sd ^ 2)) (Fin (eps x * / sd ^ 2)) (Fin (/ sd))) = Fin ww).
    { unfold ww, ep_w, res_of. fold m sd. destruct (draw x); [rewrite w_draw_eval by auto|rewrite w_non_draw_eval by auto]; now rewrite E1, E2. }
    rewrite EV, EW, xr_ofZ, xr_sub, xr_fma in R. rewrite !xr_div in R by lra.
    pose proof (update_value_delta _ _ _ _ _ _ R) as DE. apply update_value_inv in R. rewrite T1, T3 in R. rewrite Hdd in R.
    assert (GE : mkG (Fin (/ sd ^ 2 / (1 - ww))) (Fin ((/ sd * vv + m / sd ^ 2) / (1 - ww))) = fg (pad (ddm c x) (ep_msg' c x))).
    { unfold fg, pad, ddm, ep_msg, nrm, gquot, gau_of. cbn [fst snd]. fold m sd vv ww. f_equal; f_equal; field; split; lra. }
    rewrite GE in R, DE. split.
    - eapply Sm_res; [exact H|exact Hx|exact R| |now rewrite Hdd].
      unfold g_div, g_mul, fg, pad. cbn [g_pi g_tau fst snd]. rewrite !xr_add, !xr_sub. f_equal; f_equal; ring.
    - rewrite DE. unfold var_delta. fold (gauss s (2 * n + T + x)). rewrite T1, Hdd. unfold fg, pad. cbn [g_pi g_tau fst snd]. rewrite !xr_sub, !xr_abs.
      change (fis_inf (Fin ?q)) with false. cbv iota.
      rewrite xr_sqrt by apply Rabs_pos. rewrite xr_max. unfold change. f_equal. f_equal; [|f_equal]; rewrite Rabs_minus_sym; f_equal; ring.
  Qed.
  Lemma diff_up0_Sm pr rl pl pt tt c dd s s' d x : Sm pr rl pl pt tt c dd s -> (forall t, (t < T)%nat -> tt t = ttm t) -> okc c -> (S x < T)%nat -> 0 < fst (c_res c x) ->
    sum_up (diffm x) 0 s = Some (s', d) -> Sm pr rl pl pt tt (tell_upper Mt Vt x c) dd s'.
  Proof.
    intros H Htt Hc Hx HR R. pose proof H as (H1 & H2 & H3 & H4). destruct (H4 x Hx) as (D1 & D2 & D3). destruct (cav_lo _ _ _ _ _ _ _ _ x H Htt Hc Hx) as [CL VL].
    destruct (H3 x ltac:(lia)) as (T1 & T2 & T3 & T4). pose proof (var_pos _ HR) as QP.
    assert (CO : g_div (gauss s (2 * n + T + x)) (emsg s (2 * n + T + x) (2 * n + T + x)) = fg (nrm (gmean (c_res c x)) (gvar (c_res c x)))) by (rewrite D1, D2, fg_cav', nrm_self by lra; reflexivity).
    unfold sum_up in R. apply bind_inv in R as (s1 & co & R1 & R). apply of_option_inv in R1 as [-> R1]. apply bind_inv in R as (s1 & va & R2 & R). apply of_option_inv in R2 as [-> R2].
    cbn [diffm sf_coeffs sf_terms sf_id sf_sum nth_error list_set] in *. apply Some_inj in R1, R2. subst co va.
    unfold sum_up_coeffs in R. cbn [enumerate combine length seq map fst snd Nat.eqb] in R. rewrite !xr_ofZ, !xr_eqb, !(Reqb_false 1 0) in R by lra.
    rewrite xr_recip, xr_neg, xr_div in R by lra.
    apply (sum_update_nrm _ _ _ _ _ _ _ (seq 0 2) (fun k => match k with O => (2 * n + T + x)%nat | _ => (2 * n + S x)%nat end) (fun k => match k with O => gmean (c_res c x) | _ => gmean (lo' c x) end)
       (fun k => match k with O => gvar (c_res c x) | _ => gvar (lo' c x) end) (fun k => match k with O => / 1 | _ => - (-1) / 1 end)) in R; auto.
    - cbn [seq map] in R. rewrite !Rsum_cons, Rsum_nil in R. rewrite T1, T4, pad3_r in R. rewrite fg_mul in R.
      match type of R with chg _ _ _ _ _ (fg (nrm ?m ?v)) => replace m with (gmean (lo' c x) + gmean (c_res c x)) in R by field; replace v with (gvar (lo' c x) + gvar (c_res c x)) in R by field end.
      eapply Sm_next; [exact H|lia|exact R|]. now rewrite pad_assoc.
    - intros k Hk. apply in_seq in Hk. destruct k as [|k]; auto.
    - cbn [seq map]. rewrite !Rsum_cons, Rsum_nil. match goal with |- ?a <> 0 => replace a with (gvar (lo' c x) + gvar (c_res c x)) by field end. lra.
  Qed.
  Lemma diff_up1_Sm pr rl pl pt tt c dd s s' d x : Sm pr rl pl pt tt c dd s -> (forall t, (t < T)%nat -> tt t = ttm t) -> okc c -> (S x < T)%nat -> 0 < fst (c_res c x) ->
    sum_up (diffm x) 1 s = Some (s', d) -> Sm pr rl pl pt tt (tell_lower Mt Vt x c) dd s'.
  Proof.
    intros H Htt Hc Hx HR R. pose proof H as (H1 & H2 & H3 & H4). destruct (H4 x Hx) as (D1 & D2 & D3). destruct (cav_hi _ _ _ _ _ _ _ _ x H Htt Hc Hx) as [CL VL].
    destruct (H3 (S x) ltac:(lia)) as (T1 & T2 & T3 & T4). pose proof (var_pos _ HR) as QP. specialize (T3 x eq_refl).
    assert (CO : g_div (gauss s (2 * n + T + x)) (emsg s (2 * n + T + x) (2 * n + T + x)) = fg (nrm (gmean (c_res c x)) (gvar (c_res c x)))) by (rewrite D1, D2, fg_cav', nrm_self by lra; reflexivity).
    unfold sum_up in R. apply bind_inv in R as (s1 & co & R1 & R). apply of_option_inv in R1 as [-> R1]. apply bind_inv in R as (s1 & va & R2 & R). apply of_option_inv in R2 as [-> R2].
    cbn [diffm sf_coeffs sf_terms sf_id sf_sum nth_error list_set] in *. apply Some_inj in R1, R2. subst co va.
    unfold sum_up_coeffs in R. cbn [enumerate combine length seq map fst snd Nat.eqb] in R. rewrite !xr_ofZ, !xr_eqb, !(Reqb_false (-1) 0) in R by lra.
    rewrite xr_recip, xr_neg, xr_div in R by lra.
    apply (sum_update_nrm _ _ _ _ _ _ _ (seq 0 2) (fun k => match k with O => (2 * n + x)%nat | _ => (2 * n + T + x)%nat end) (fun k => match k with O => gmean (hi' c x) | _ => gmean (c_res c x) end)
       (fun k => match k with O => gvar (hi' c x) | _ => gvar (c_res c x) end) (fun k => match k with O => - (1) / -1 | _ => / -1 end)) in R; auto.
    - cbn [seq map] in R. rewrite !Rsum_cons, Rsum_nil in R. rewrite T1, T3, pad3_m in R. rewrite fg_mul in R.
      match type of R with chg _ _ _ _ _ (fg (nrm ?m ?v)) => replace m with (gmean (hi' c x) - gmean (c_res c x)) in R by field; replace v with (gvar (hi' c x) + gvar (c_res c x)) in R by field end.
      eapply Sm_prev; [exact H|lia|reflexivity|exact R|]. now rewrite pad_swap.
    - intros k Hk. apply in_seq in Hk. destruct k as [|k]; auto.
    - cbn [seq map]. rewrite !Rsum_cons, Rsum_nil. match goal with |- ?a <> 0 => replace a with (gvar (hi' c x) + gvar (c_res c x)) by field end. lra.
  Qed.

  (** *** Sweeps *)
  Notation tell_lower' := (tell_lower Mt Vt). Notation tell_upper' := (tell_upper Mt Vt).
  Notation ep_compare' := (ep_compare Mt Vt eps draw).
  Definition tell (b : bool) : nat -> chain -> chain := if b then tell_upper' else tell_lower'.
  Lemma compare_inv x c c1 d : ep_compare' x c = Some (c1, d) ->
    0 < ep_w' c x < 1 /\ c1 = mkChain (c_prev c) (c_next c) (fset (c_res c) x (ep_msg' c x)) /\ d = change (c_res c x) (ep_msg' c x).
  Proof.
    unfold ep_compare. destruct (Rlt_dec 0 (ep_w' c x)); [|discriminate]. destruct (Rlt_dec (ep_w' c x) 1); [|discriminate]. intros E. injection E as <- <-. auto.
  Qed.
  (** What is positive stays positive. *)
  Definition keeps (c c' : chain) : Prop :=
    (forall x, 0 < fst (c_res c x) -> 0 < fst (c_res c' x)) /\ (forall t, 0 < fst (c_next c t) -> 0 < fst (c_next c' t)).
  Lemma keeps_refl c : keeps c c. Proof. split; auto. Qed.
  Lemma keeps_trans c1 c2 c3 : keeps c1 c2 -> keeps c2 c3 -> keeps c1 c3.
  Proof. intros [A1 A2] [B1 B2]. split; auto. Qed.
  Lemma compare_ok x c c1 d : okc c -> (S x < T)%nat -> ep_compare' x c = Some (c1, d) -> okc c1 /\ keeps c c1 /\ 0 < fst (c_res c1 x).
  Proof.
    intros Hc Hx E. apply compare_inv in E as (W & -> & _). pose proof (msg_pos c x Hc Hx W) as P. cbn [c_res].
    split; [exact Hc|]. split; [|unfold fset; now rewrite Nat.eqb_refl]. split; cbn [c_res c_next]; auto. intros y Hy. unfold fset. destruct (Nat.eqb y x); auto.
  Qed.
  Lemma tell_ok b x c : okc c -> (S x < T)%nat -> 0 < fst (c_res c x) -> okc (tell b x c) /\ keeps c (tell b x c) /\ 0 < fst (if b then c_next (tell b x c) x else c_prev (tell b x c) (S x)).
  Proof.
    intros Hc Hx P. pose proof (var_pos _ P) as VP. destruct b; cbn [tell]; unfold tell_upper, tell_lower, keeps, okc; cbn [c_prev c_next c_res].
    - pose proof (var_pos _ (lo_pos c x Hc Hx)) as VL. assert (G : forall m, 0 < fst (gau_of m (gvar (lo' c x) + gvar (c_res c x)))) by (intros m; apply Rinv_0_lt_compat; lra).
      split; [|split; [split; auto|unfold fset; rewrite Nat.eqb_refl; apply G]].
      + intros t. unfold fset. destruct (Hc t) as [H1 H2]. destruct (Nat.eqb t x); split; auto. apply Rlt_le, G.
      + intros t Ht. unfold fset. destruct (Nat.eqb t x); auto.
    - assert (Hx' : (x < T)%nat) by lia. pose proof (var_pos _ (hi_pos c x Hc Hx')) as VL. assert (G : forall m, 0 < fst (gau_of m (gvar (hi' c x) + gvar (c_res c x)))) by (intros m; apply Rinv_0_lt_compat; lra).
      split; [|split; [split; auto|unfold fset; rewrite Nat.eqb_refl; apply G]].
      intros t. unfold fset. destruct (Hc t) as [H1 H2]. destruct (Nat.eqb t (S x)); split; auto. apply Rlt_le, G.
  Qed.
  Notation ep_pass' := (ep_pass Mt Vt eps draw).
  Lemma pass_ok b l : Forall (fun x => (S x < T)%nat) l -> forall c d c' d', okc c -> ep_pass' (tell b) l c d = Some (c', d') ->
    okc c' /\ keeps c c' /\ (forall x, In x l -> 0 < fst (c_res c' x)) /\ (b = true -> forall x, In x l -> 0 < fst (c_next c' x)).
  Proof.
    induction l as [|y l IH]; intros HF c d c' d' Hc E; cbn [ep_pass] in E.
    - injection E as <- <-. split; auto. split; [apply keeps_refl|]. split; [|intros _]; intros x [].
    - pose proof (Forall_inv HF) as Hy. pose proof (Forall_inv_tail HF) as HF'. destruct (ep_compare' y c) as [[c1 d1]|] eqn:EC; [|discriminate].
      destruct (compare_ok _ _ _ _ Hc Hy EC) as (O1 & K1 & P1). destruct (tell_ok b y c1 O1 Hy P1) as (O2 & K2 & P2).
      destruct (IH HF' _ _ _ _ O2 E) as (O3 & K3 & P3 & P4). split; auto. split; [eauto using keeps_trans|]. split.
      + intros x [->|I]; auto. apply K3, K2, P1.
      + intros -> x [->|I]; auto. apply K3, P2.
  Qed.
  Hypothesis HT : (2 <= T)%nat.
  Section Sweeps.
  Variables (pr rl pl pt : nat -> R * R).
  Definition Sc c s := exists dd, Sm pr rl pl pt ttm c dd s.
  Variables (diffs : list (SumFactor (F:=XR))) (truncs : list (TruncateFactor (F:=XR))).
  Hypothesis Hdiffs : diffs = map diffm (seq 0 (T - 1)).
  Hypothesis Htruncs : truncs = map truncm (seq 0 (T - 1)).
  Lemma nth_diff x : (S x < T)%nat -> nth x diffs sum_default = diffm x.
  Proof. intros H. rewrite Hdiffs, (nth_indep _ _ (diffm 0)) by (rewrite map_length, seq_length; lia). rewrite map_nth, seq_nth by lia. reflexivity. Qed.
  Lemma nth_trunc x : (S x < T)%nat -> nth x truncs trunc_default = truncm x.
  Proof. intros H. rewrite Htruncs, (nth_indep _ _ (truncm 0)) by (rewrite map_length, seq_length; lia). rewrite map_nth, seq_nth by lia. reflexivity. Qed.
  Lemma compare_sim x c c1 d1 s s1 s2 u d : Sc c s -> okc c -> (S x < T)%nat -> ep_compare' x c = Some (c1, d1) ->
    sum_down (diffm x) s = Some (s1, u) -> trunc_up (truncm x) s1 = Some (s2, d) -> Sc c1 s2 /\ d = Fin d1.
  Proof.
    intros (dd & H) Hc Hx E R1 R2. apply compare_inv in E as (W & -> & ->). eapply diff_down_Sm in R1; [|exact H|auto|exact Hc|exact Hx].
    eapply trunc_up_Sm in R2; [|exact R1|unfold upf; now rewrite Nat.eqb_refl|exact Hc|exact Hx|exact W]. destruct R2 as [R2 ->]. split; [|reflexivity]. eexists. exact R2.
  Qed.
  Lemma tell_sim (b : bool) x c s s' u : Sc c s -> okc c -> (S x < T)%nat -> 0 < fst (c_res c x) -> sum_up (diffm x) (if b then 0 else 1)%nat s = Some (s', u) -> Sc (tell b x c) s'.
  Proof.
    intros (dd & H) Hc Hx P R. exists dd. destruct b; cbn [tell].
    - eapply diff_up0_Sm; eauto.
    - eapply diff_up1_Sm; eauto.
  Qed.
  Lemma pass_sim (b : bool) l : Forall (fun x => (S x < T)%nat) l -> forall c d c' d' s s' r, Sc c s -> okc c -> ep_pass' (tell b) l c d = Some (c', d') ->
    for_fold l (fun delta x =>
        do _ <- sum_down (nth x diffs sum_default);
        do d <- trunc_up (nth x truncs trunc_default);
        do _ <- sum_up (nth x diffs sum_default) (if b then 0 else 1)%nat;
        ret (fmax delta d)) (Fin d) s = Some (s', r) -> Sc c' s' /\ r = Fin d'.
  Proof.
    induction l as [|y l IH]; intros HF c d c' d' s s' r H Hc E R; cbn [ep_pass for_fold] in E, R.
    - injection E as <- <-. apply ret_inv in R as [-> ->]. auto.
    - pose proof (Forall_inv HF) as Hy. pose proof (Forall_inv_tail HF) as HF'. destruct (ep_compare' y c) as [[c1 d1]|] eqn:EC; [|discriminate].
      destruct (compare_ok _ _ _ _ Hc Hy EC) as (O1 & K1 & P1). destruct (tell_ok b y c1 O1 Hy P1) as (O2 & K2 & P2).
      apply bind_inv in R as (s1 & acc & R1 & R). rewrite nth_diff, nth_trunc in R1 by auto. apply bind_inv in R1 as (s2 & u2 & R1 & R2). apply bind_inv in R2 as (s3 & u3 & R2 & R3).
      destruct (compare_sim _ _ _ _ _ _ _ _ _ H Hc Hy EC R1 R2) as [S3 ->]. apply bind_inv in R3 as (s4 & u4 & R3 & R4). apply ret_inv in R4 as [-> ->]. rewrite xr_max in R.
      eapply tell_sim in R3; eauto.
  Qed.
  Notation ep_sweep' := (ep_sweep Mt Vt eps draw).
  (** What a sweep leaves behind. *)
  Definition swept (c : chain) : Prop := 0 < fst (c_res c 0) /\ 0 < fst (c_res c (T - 2)) /\ forall t, (1 <= t <= T - 2)%nat -> 0 < fst (c_next c t).
  Lemma seq_down : Forall (fun x => (S x < T)%nat) (seq 0 (T - 2)).
  Proof. apply Forall_forall. intros x Hx. apply in_seq in Hx. lia. Qed.
  Lemma seq_up : Forall (fun x => (S x < T)%nat) (rev (seq 1 (T - 2))).
  Proof. apply Forall_forall. intros x Hx. apply in_rev, in_seq in Hx. lia. Qed.
  Lemma sweep_ok c c' d : okc c -> ep_sweep' T c = Some (c', d) -> okc c' /\ swept c'.
  Proof.
    intros Hc E. unfold ep_sweep in E. destruct (Nat.eqb_spec T 2) as [E2|N2].
    - destruct (compare_ok 0 c c' d Hc ltac:(lia) E) as (O & _ & P). split; auto. unfold swept. replace (T - 2)%nat with 0%nat by lia. split; auto. split; auto. intros t Ht. lia.
    - destruct (ep_pass' tell_lower' (seq 0 (T - 2)) c 0) as [[c1 d1]|] eqn:E1; [|discriminate].
      destruct (pass_ok false _ seq_down _ _ _ _ Hc E1) as (O1 & K1 & P1 & _). destruct (pass_ok true _ seq_up _ _ _ _ O1 E) as (O2 & K2 & P2 & Q2). split; auto. split; [|split].
      + apply K2, P1, in_seq. lia.
      + apply P2, in_rev. rewrite rev_involutive. apply in_seq. lia.
      + intros t Ht. apply Q2; auto. apply in_rev. rewrite rev_involutive. apply in_seq. lia.
  Qed.
  Lemma sweep_sim c c' d s s' r : Sc c s -> okc c -> ep_sweep' T c = Some (c', d) -> sweep diffs truncs s = Some (s', r) -> Sc c' s' /\ r = Fin d.
  Proof.
    intros H Hc E R. unfold ep_sweep in E. unfold sweep in R. assert (LD : length diffs = (T - 1)%nat) by (rewrite Hdiffs, map_length, seq_length; reflexivity). rewrite LD in R.
    destruct (Nat.eqb_spec T 2) as [E2|N2].
    - replace (T - 1)%nat with 1%nat in R by lia. rewrite nth_diff, nth_trunc in R by lia. apply bind_inv in R as (s1 & u & R1 & R). exact (compare_sim 0 _ _ _ _ _ _ _ _ H Hc ltac:(lia) E R1 R).
    - assert (EK : exists k, (T - 1)%nat = S (S k)) by (exists (T - 3)%nat; lia). destruct EK as (k & ET). rewrite ET in R. replace (S k) with (T - 2)%nat in R by lia.
      destruct (ep_pass' tell_lower' (seq 0 (T - 2)) c 0) as [[c1 d1]|] eqn:E1; [|discriminate].
      apply bind_inv in R as (s1 & acc & R1 & R). rewrite xr_ofZ in R1.
      destruct (pass_sim false _ seq_down _ _ _ _ _ _ _ H Hc E1 R1) as [S1 ->]. destruct (pass_ok false _ seq_down _ _ _ _ Hc E1) as (O1 & _).
      exact (pass_sim true _ seq_up _ _ _ _ _ _ _ S1 O1 E R).
  Qed.
  Lemma loop_sim k : forall c c' s s' u, Sc c s -> okc c -> ep_loop Mt Vt eps draw k T c = Some c' ->
    iterate_sweeps k diffs truncs ts_min_delta s = Some (s', u) -> Sc c' s' /\ okc c' /\ (swept c \/ (0 < k)%nat -> swept c').
  Proof.
    induction k as [|k IH]; intros c c' s s' u H Hc E R; cbn [ep_loop iterate_sweeps] in E, R.
    - injection E as <-. apply ret_inv in R as [-> _]. split; auto. split; auto. intros [?|?]; [auto|lia].
    - destruct (ep_sweep' T c) as [[c1 d]|] eqn:ES; [|discriminate]. apply bind_inv in R as (s1 & r & R1 & R).
      destruct (sweep_sim _ _ _ _ _ _ H Hc ES R1) as [S1 ->]. destruct (sweep_ok _ _ _ Hc ES) as [O1 W1].
      unfold ts_min_delta in R. rewrite xr_lit, xr_leb in R. unfold Rleb in R. destruct (Rle_dec d (1 / 10000)) as [L|L].
      + injection E as <-. apply ret_inv in R as [-> _]. auto.
      + destruct (IH _ _ _ _ _ S1 O1 E R) as (A1 & A2 & A3). auto.
  Qed.
  Lemma okc0 : okc chain0. Proof. intros t. cbn. lra. Qed.
  Lemma run_sim c s s1 s2 s3 u1 u2 u3 : Sc chain0 s -> ep_run Mt Vt eps draw T = Some c ->
    iterate_sweeps 10 diffs truncs ts_min_delta s = Some (s1, u1) -> sum_up (nth 0 diffs sum_default) 0 s1 = Some (s2, u2) ->
    sum_up (nth (length diffs - 1) diffs sum_default) 1 s2 = Some (s3, u3) ->
    Sc c s3 /\ forall t, (t < T)%nat -> 0 < fst (evidence c t).
  Proof.
    intros H E R1 R2 R3. unfold ep_run in E. destruct (ep_loop Mt Vt eps draw 10 T chain0) as [c1|] eqn:E1; [|discriminate]. injection E as <-.
    destruct (loop_sim 10 _ _ _ _ _ H okc0 E1 R1) as (S1 & O1 & W1). destruct W1 as (W1 & W2 & W3); [right; lia|].
    rewrite nth_diff in R2 by lia. assert (LD : length diffs = (T - 1)%nat) by (rewrite Hdiffs, map_length, seq_length; reflexivity). rewrite LD in R3. rewrite nth_diff in R3 by lia.
    replace (T - 1 - 1)%nat with (T - 2)%nat in R3 by lia.
    assert (Z0 : (1 < T)%nat) by lia. assert (Z1 : (S (T - 2) < T)%nat) by lia.
    apply (tell_sim true 0 _ _ _ _ S1 O1 Z0 W1) in R2. destruct (tell_ok true 0 c1 O1 Z0 W1) as (O2 & K2 & P2). cbn [tell] in *.
    pose proof (proj1 K2 _ W2) as W2'. apply (tell_sim false (T - 2) _ _ _ _ R2 O2 Z1 W2') in R3. destruct (tell_ok false (T - 2) _ O2 Z1 W2') as (O3 & K3 & P3). cbn [tell] in *.
    split; [exact R3|]. intros t Ht. unfold evidence, gprod. cbn [fst]. destruct (O3 t) as [G1 G2].
    destruct (Nat.eq_dec t 0) as [->|N0]; [pose proof (proj2 K3 _ P2); lra|]. destruct (Nat.eq_dec t (T - 1)) as [->|N1].
    - replace (S (T - 2)) with (T - 1)%nat in P3 by lia. lra.
    - assert (I : (1 <= t <= T - 2)%nat) by lia. pose proof (proj2 K3 _ (proj2 K2 _ (W3 t I))). lra.
  Qed.
  End Sweeps.

  (** *** Back to the players *)
  Variable c : chain.
  Hypothesis Hev : forall t, (t < T)%nat -> 0 < fst (evidence c t).
  Definition Em t := gmean (evidence c t).
  Definition Qv t := gvar (evidence c t).
  Definition tm (i : nat) : nat :=
    match find (fun t => Nat.leb (off t) i && Nat.ltb i (off t + sz t))%bool (seq 0 T) with Some t => t | None => O end.
  Lemma tm_spec t k : (t < T)%nat -> (k < sz t)%nat -> tm (off t + k) = t.
  Proof.
    intros Ht Hk. unfold tm. destruct (find _ _) as [u|] eqn:E.
    - apply find_some in E as [Hu E]. apply in_seq in Hu. apply andb_prop in E as [E1 E2]. apply Nat.leb_le in E1. apply Nat.ltb_lt in E2.
      destruct (lay2 u (off t + k - off u) t k) as [-> _]; auto; lia.
    - apply (find_none _ _ E t) in Ht || (assert (I : In t (seq 0 T)) by (apply in_seq; lia); apply (find_none _ _ E) in I).
      apply andb_false_iff in I as [I|I]; [apply Nat.leb_gt in I|apply Nat.ltb_ge in I]; lia.
  Qed.
  Lemma in_team i : (i < n)%nat -> exists k, (tm i < T)%nat /\ (k < sz (tm i))%nat /\ i = (off (tm i) + k)%nat.
  Proof. intros Hi. destruct (lay3 i Hi) as (t & k & Ht & Hk & ->). rewrite tm_spec by auto. eauto. Qed.
  Definition ptm i := nrm (mi i + (Em (tm i) - Mt (tm i)) / wi i) ((Qv (tm i) + Vt (tm i)) / wi i ^ 2 - (Si i + B)).
  Definition rlm i := nrm (mi i + (Em (tm i) - Mt (tm i)) / wi i) ((Qv (tm i) + Vt (tm i)) / wi i ^ 2 - Si i).
  Lemma team_up_Sm pr rl pl pt tt dd s s' d t x : Sm pr rl pl pt tt c dd s -> (t < T)%nat -> (x < sz t)%nat ->
    (forall i, (i < n)%nat -> pl i = plm i) ->
    sum_up (teamm t) x s = Some (s', d) -> Sm pr rl pl (upf pt (off t + x) (ptm (off t + x))) tt c dd s'.
  Proof.
    intros H Ht Hx Hpl R. pose proof H as (H1 & H2 & H3 & H4). unfold sum_up in R. apply bind_inv in R as (s1 & co & R1 & R). apply of_option_inv in R1 as [-> R1].
    apply bind_inv in R as (s1 & va & R2 & R). apply of_option_inv in R2 as [-> R2].
    cbn [teamm sf_id sf_sum sf_terms sf_coeffs] in R, R1, R2. apply nth_error_map_seq in R1 as [_ ->]. apply nth_error_map_seq in R2 as [_ ->].
    pose proof (Hev t Ht) as EP. pose proof (var_pos _ EP) as TP. fold (Qv t) in TP. pose proof (lay1 t x Ht Hx) as Lx. pose proof (tm_spec t x Ht Hx) as Tx.
    pose proof (wi_pos _ Lx) as Wx.
    unfold sum_up_coeffs in R. rewrite enumerate_map_seq, map_map in R. rewrite list_set_seq in R. cbn [fst snd Nat.add] in R.
    apply (sum_update_nrm _ _ _ _ _ _ _ (seq 0 (sz t)) (fun k => if Nat.eqb k x then (2 * n + t)%nat else (n + (off t + k))%nat)
       (fun k => if Nat.eqb k x then Em t else mi (off t + k)) (fun k => if Nat.eqb k x then Qv t else Si (off t + k) + B)
       (fun k => if Nat.eqb k x then / wi (off t + x) else - wi (off t + k) / wi (off t + x))) in R; auto.
    - cbv zeta in R. destruct (H2 t x Ht Hx) as (P1 & P2 & P3).
      eapply (Sm_pt _ _ _ _ _ _ _ _ _ t x); [exact H|exact Ht|exact Hx| |reflexivity].
      rewrite P1, P3, fg_cav, fg_mul in R.
      match type of R with chg _ _ _ _ (fg (pad _ ?m)) _ => assert (EM : m = ptm (off t + x)) end.
      { unfold ptm. rewrite Tx.
        rewrite (map_ext _ (fun k => if Nat.eqb k x then / wi (off t + x) * Em t else - wi (off t + k) / wi (off t + x) * mi (off t + k))) by (intros k; destruct (Nat.eqb k x); reflexivity).
        rewrite (map_ext (fun k => (if Nat.eqb k x then _ else _) ^ 2 * _) (fun k => if Nat.eqb k x then (/ wi (off t + x)) ^ 2 * Qv t else (- wi (off t + k) / wi (off t + x)) ^ 2 * (Si (off t + k) + B))) by (intros k; destruct (Nat.eqb k x); reflexivity).
        rewrite !Rsum_if by auto.
        rewrite (map_ext (fun k => - wi (off t + k) / wi (off t + x) * mi (off t + k)) (fun k => (- / wi (off t + x)) * (wi (off t + k) * mi (off t + k)))) by (intros k; field; lra).
        rewrite (map_ext (fun k => (- wi (off t + k) / wi (off t + x)) ^ 2 * (Si (off t + k) + B)) (fun k => (/ wi (off t + x)) ^ 2 * (wi (off t + k) ^ 2 * (Si (off t + k) + B)))) by (intros k; field; lra).
        rewrite (Rsum_map_scal (- / wi (off t + x)) (fun k => wi (off t + k) * mi (off t + k))).
        rewrite (Rsum_map_scal ((/ wi (off t + x)) ^ 2) (fun k => wi (off t + k) ^ 2 * (Si (off t + k) + B))).
        fold (Mt t) (Vt t).
        f_equal; field; lra. }
      rewrite EM in R. exact R.
    - apply map_ext_in. intros k Hk. rewrite xr_ofZ, xr_eqb, Reqb_false by lra. destruct (Nat.eqb k x); [now rewrite xr_recip by lra|]. now rewrite xr_neg, xr_div by lra.
    - intros k Hk. apply in_seq in Hk. destruct (Nat.eqb_spec k x) as [->|N].
      + split; [|lra]. destruct (H3 t Ht) as (T1 & T2 & T3). rewrite T1, T2, pad3_l. f_equal. symmetry. apply (nrm_self (evidence c t)). lra.
      + assert (Hk' : (k < sz t)%nat) by lia. pose proof (lay1 t k Ht Hk') as L. destruct (H2 t k Ht Hk') as (P1 & P2 & P3). rewrite P1, P3, fg_cav, Hpl by auto.
        split; [reflexivity|]. pose proof (Si_pos _ L). pose proof Bnn. lra.
    - assert (IX : 0 < / wi (off t + x)) by now apply Rinv_0_lt_compat. apply Rgt_not_eq.
      rewrite (map_ext (fun k => (if Nat.eqb k x then _ else _) ^ 2 * _) (fun k => if Nat.eqb k x then (/ wi (off t + x)) ^ 2 * Qv t else (- wi (off t + k) / wi (off t + x)) ^ 2 * (Si (off t + k) + B))) by (intros k; destruct (Nat.eqb k x); reflexivity).
      rewrite Rsum_if by auto.
      assert (G : (- wi (off t + x) / wi (off t + x)) ^ 2 * (Si (off t + x) + B) <= Rsum (map (fun k => (- wi (off t + k) / wi (off t + x)) ^ 2 * (Si (off t + k) + B)) (seq 0 (sz t)))).
      { pose proof (Rsum_if (fun k => (- wi (off t + k) / wi (off t + x)) ^ 2 * (Si (off t + k) + B)) x 0 _ Hx) as Q. cbv beta in Q.
        match type of Q with ?l = _ => assert (0 <= l) end; [|lra]. apply Rsum_nonneg. intros y Hy. apply in_map_iff in Hy as (k & <- & Hk). destruct (Nat.eqb k x); [lra|].
        apply in_seq in Hk. assert (L : (off t + k < n)%nat) by (apply lay1; auto; lia). pose proof (Si_pos _ L). pose proof Bnn. apply Rmult_le_pos; [apply pow2_ge_0|lra]. }
      assert (0 < (/ wi (off t + x)) ^ 2 * Qv t) by (apply Rmult_lt_0_compat; auto; now apply pow_lt). lra.
  Qed.
  Lemma ptm_var i : (i < n)%nat -> 0 < (Qv (tm i) + Vt (tm i)) / wi i ^ 2 - (Si i + B).
  Proof.
    intros Hi. pose proof (wi_pos _ Hi) as W. pose proof (Si_pos _ Hi) as SP. pose proof Bnn as BP. destruct (in_team i Hi) as (k & Ht & Hk & E).
    pose proof (var_pos _ (Hev _ Ht)) as TP. fold (Qv (tm i)) in TP.
    assert (V : wi i ^ 2 * (Si i + B) <= Vt (tm i)).
    { pose proof (Rsum_if (fun k => wi (off (tm i) + k) ^ 2 * (Si (off (tm i) + k) + B)) k 0 _ Hk) as R. cbv beta in R. rewrite <- E in R. fold (Vt (tm i)) in R.
      assert (0 <= Rsum (map (fun j => if Nat.eqb j k then 0 else wi (off (tm i) + j) ^ 2 * (Si (off (tm i) + j) + B)) (seq 0 (sz (tm i))))); [|lra].
      apply Rsum_nonneg. intros x Hx. apply in_map_iff in Hx as (j & <- & Hj). destruct (Nat.eqb j k); [lra|]. apply in_seq in Hj. assert (L : (off (tm i) + j < n)%nat) by (apply lay1; auto; lia).
      pose proof (Si_pos _ L). apply Rmult_le_pos; [apply pow2_ge_0|lra]. }
    replace ((Qv (tm i) + Vt (tm i)) / wi i ^ 2 - (Si i + B)) with ((Qv (tm i) + Vt (tm i) - wi i ^ 2 * (Si i + B)) / wi i ^ 2) by (field; lra).
    apply Rdiv_lt_0_compat; [lra|]. now apply pow_lt.
  Qed.
  Definition prm i := nrm (mi i) (Si i).
  Lemma final_many i : (i < n)%nat ->
    g_mu (fg (pad (prm i) (rlm i))) = Fin (mi i + wi i * Si i * ep_shift Mt Vt c (tm i)) /\
    g_sigma (fg (pad (prm i) (rlm i))) = Fin (sqrt (Si i - (wi i * Si i) ^ 2 * ep_shrink Vt c (tm i))).
  Proof.
    intros Hi. pose proof (wi_pos _ Hi) as W. pose proof (Si_pos _ Hi) as SP. pose proof (ptm_var _ Hi) as PP. pose proof Bnn as BP.
    destruct (in_team i Hi) as (k & Ht & Hk & E). pose proof (var_pos _ (Hev _ Ht)) as TP. fold (Qv (tm i)) in TP. pose proof (Vt_pos _ Ht) as VP.
    unfold ep_shift, ep_shrink. fold (Em (tm i)) (Qv (tm i)).
    assert (RV : 0 < (Qv (tm i) + Vt (tm i)) / wi i ^ 2 - Si i) by lra.
    set (C := Qv (tm i) + Vt (tm i)) in *. set (X := Em (tm i) - Mt (tm i)) in *. assert (CP : 0 < C) by (unfold C; lra).
    set (Q := C / wi i ^ 2 - Si i) in *.
    assert (EQ : fst (pad (prm i) (rlm i)) = / (Si i) + / Q) by reflexivity.
    assert (IS : 0 < / Si i) by now apply Rinv_0_lt_compat. assert (IQ : 0 < / Q) by now apply Rinv_0_lt_compat.
    rewrite fg_mu, fg_sigma by (rewrite EQ; lra). rewrite EQ. assert (ESQ : Si i + Q = C / wi i ^ 2) by (unfold Q; ring). assert (W2 : 0 < wi i ^ 2) by now apply pow_lt.
    split; f_equal.
    - replace (snd (pad (prm i) (rlm i))) with (mi i / Si i + (mi i + X / wi i) / Q) by reflexivity.
      replace ((mi i / Si i + (mi i + X / wi i) / Q) / (/ Si i + / Q)) with (mi i + X / wi i * (Si i / (Si i + Q))) by (field; repeat split; lra).
      rewrite ESQ. field. repeat split; lra.
    - f_equal. replace (/ (/ Si i + / Q)) with (Si i - Si i ^ 2 / (Si i + Q)) by (field; repeat split; lra). rewrite ESQ. field. split; lra.
  Qed.
End Many.
