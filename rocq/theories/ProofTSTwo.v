(** Proofs about [trueskill_multi_team]: exact result for two teams. *)
From Coq Require Import ZArith NArith List Bool Lia Arith.PeanoNat Permutation Reals Lra.
From Verif Require Import Arith XR Tac ModelLib ModelWengLin ModelTS ModelTSGraph Spec SpecTS SpecInTS ProofTS ProofTSGraph ProofTSSafe.
Import ListNotations.

(** ** What the primitive steps do *)
Section Inv.
  Context {F : Type} {A : Arith F}.
  Implicit Types (s : Store F).
  Definition gauss s v := v_gaussian (s v).
  (** A message that is not registered counts as the default one. *)
  Definition emsg s v id := match v_messages (s v) id with Some g => g | None => g_default end.
  Definition same s s' := forall v, gauss s' v = gauss s v /\ forall id, emsg s' v id = emsg s v id.
  Lemma same_refl s : same s s. Proof. split; auto. Qed.
  Lemma same_trans s s' s'' : same s s' -> same s' s'' -> same s s''.
  Proof. intros H K v. destruct (H v) as [H1 H2]. destruct (K v) as [K1 K2]. split; [congruence|]. intros id. now rewrite K2. Qed.
  Definition chg s s' v id (G m : Gaussian F) :=
    gauss s' v = G /\ emsg s' v id = m /\ (forall i, i <> id -> emsg s' v i = emsg s v i) /\ (forall u, u <> v -> s' u = s u).
  Lemma update_message_inv v id m s s' d : update_message v id m s = Some (s', d) ->
    chg s s' v id (g_mul (g_div (gauss s v) (emsg s v id)) m) m.
  Proof.
    unfold update_message, bind, get_var, of_option, put_var, ret, chg, gauss, emsg. destruct (v_messages (s v) id) as [g|] eqn:E; [|discriminate].
    intros [= <- _]. rewrite Nat.eqb_refl. cbn. unfold msg_set. rewrite Nat.eqb_refl. repeat split.
    - intros i H. now rewrite (proj2 (Nat.eqb_neq i id) H).
    - intros u H. now rewrite (proj2 (Nat.eqb_neq u v) H).
  Qed.
  Lemma update_value_inv v id x s s' d : update_value v id x s = Some (s', d) ->
    chg s s' v id x (g_div (g_mul x (emsg s v id)) (gauss s v)).
  Proof.
    unfold update_value, bind, get_var, of_option, put_var, ret, chg, gauss, emsg. destruct (v_messages (s v) id) as [g|] eqn:E; [|discriminate].
    intros [= <- _]. rewrite Nat.eqb_refl. cbn. unfold msg_set. rewrite Nat.eqb_refl. repeat split.
    - intros i H. now rewrite (proj2 (Nat.eqb_neq i id) H).
    - intros u H. now rewrite (proj2 (Nat.eqb_neq u v) H).
  Qed.
  Lemma update_value_delta v id x s s' d : update_value v id x s = Some (s', d) -> d = var_delta (s v) x.
  Proof.
    unfold update_value, bind, get_var, of_option, put_var, ret. destruct (v_messages (s v) id) as [g|] eqn:E; [|discriminate]. congruence.
  Qed.
  Lemma register_inv v id s s' u : register v id s = Some (s', u) -> same s s'.
  Proof.
    unfold register, bind, get_var, put_var. intros [= <- _] w. unfold gauss, emsg. destruct (Nat.eqb_spec w v) as [->|]; [|auto]. cbn.
    split; auto. intros i. destruct (Nat.eqb_spec i id) as [->|]; auto. destruct (v_messages (s v) id); auto.
  Qed.
  Lemma cavity_inv v id s s' g : var_cavity v id s = Some (s', g) -> s' = s /\ g = g_div (gauss s v) (emsg s v id).
  Proof.
    unfold var_cavity, bind, get_var, of_option, ret, gauss, emsg. destruct (v_messages (s v) id); [|discriminate]. intros [= -> <-]. auto.
  Qed.
  Lemma bind_inv {X Y} (m : M F X) (f : X -> M F Y) s s' y : bind m f s = Some (s', y) -> exists s1 x, m s = Some (s1, x) /\ f x s1 = Some (s', y).
  Proof. unfold bind. destruct (m s) as [[s1 x]|]; [|discriminate]. eauto. Qed.
  Lemma of_option_inv {X} (o : option X) s s' x : of_option (F:=F) o s = Some (s', x) -> s' = s /\ o = Some x.
  Proof. unfold of_option. destruct o; [|discriminate]. intros [= -> ->]. auto. Qed.
  Lemma ret_inv {X} (x : X) s s' y : ret (F:=F) x s = Some (s', y) -> s' = s /\ y = x.
  Proof. unfold ret. intros [= -> ->]. auto. Qed.
  Lemma map_m_cavity vals id s s' ds : map_m vals (fun v => var_cavity v id) s = Some (s', ds) ->
    s' = s /\ ds = map (fun v => g_div (gauss s v) (emsg s v id)) vals.
  Proof.
    revert s s' ds. induction vals as [|v vals IH]; intros s s' ds H; cbn [map_m] in H.
    - now apply ret_inv in H.
    - apply bind_inv in H as (s1 & g & H1 & H). apply cavity_inv in H1 as [-> ->]. apply bind_inv in H as (s2 & gs & H2 & H).
      apply IH in H2 as [-> ->]. now apply ret_inv in H.
  Qed.
  Lemma sum_update_inv id var vals cs s s' d : sum_update id var vals cs s = Some (s', d) ->
    let '(pi_inv, mu) := fold_left sum_step (combine (map (fun v => g_div (gauss s v) (emsg s v id)) vals) cs) (#0, #0)%flt in
    let pi := frecip pi_inv in let m := mkG pi (fmul pi mu) in
    chg s s' var id (g_mul (g_div (gauss s var) (emsg s var id)) m) m.
  Proof.
    unfold sum_update. intros H. apply bind_inv in H as (s1 & ds & H1 & H). apply map_m_cavity in H1 as [-> ->].
    destruct (fold_left _ _ _) as [pi mu]. cbv zeta in *. now apply update_message_inv in H.
  Qed.
  (** Loops over indices. *)
  Lemma for_each_seq {X Y} (Inv : nat -> Store F -> Prop) (mk : nat -> X) (body : X -> M F Y) k n s s' u :
    for_each (map mk (seq k n)) body s = Some (s', u) -> Inv k s ->
    (forall i s1 s2 y, k <= i < k + n -> Inv i s1 -> body (mk i) s1 = Some (s2, y) -> Inv (S i) s2) -> Inv (k + n) s'.
  Proof.
    revert k s. induction n as [|n IH]; intros k s H I0 St; cbn [seq map for_each] in H.
    - apply ret_inv in H as [-> _]. now rewrite Nat.add_0_r.
    - apply bind_inv in H as (s1 & y & H1 & H). rewrite Nat.add_succ_r, <- Nat.add_succ_l. eapply IH; [exact H| |].
      + eapply St; [|exact I0|exact H1]. lia.
      + intros. eapply St; eauto. lia.
  Qed.
  Lemma map_m_inv {X Y} (l : list X) (body : X -> M F Y) (f : X -> Y) s s' ys :
    map_m l body s = Some (s', ys) -> (forall x s1 s2 y, In x l -> body x s1 = Some (s2, y) -> same s1 s2 /\ y = f x) ->
    same s s' /\ ys = map f l.
  Proof.
    revert s s' ys. induction l as [|x l IH]; intros s s' ys H K; cbn [map_m] in H.
    - apply ret_inv in H as [-> ->]. split; [apply same_refl|reflexivity].
    - apply bind_inv in H as (s1 & y & H1 & H). apply K in H1 as [S1 ->]; [|now left]. apply bind_inv in H as (s2 & ys' & H2 & H).
      apply IH in H2 as [S2 ->]; [|intros; eapply K; eauto; now right]. apply ret_inv in H as [-> ->]. split; [eauto using same_trans|reflexivity].
  Qed.
  Lemma for_each_register l id s s' u : for_each l (fun c => register c id) s = Some (s', u) -> same s s'.
  Proof.
    revert s. induction l as [|x l IH]; intros s H; cbn [for_each] in H.
    - apply ret_inv in H as [-> _]. apply same_refl.
    - apply bind_inv in H as (s1 & y & H1 & H). apply register_inv in H1. apply IH in H. eauto using same_trans.
  Qed.
  (** The factors that are built. *)
  Lemma build_rating_inv rs tau s s' l : build_rating_layer rs tau 0 s = Some (s', l) ->
    same s s' /\ l = map (fun x : nat * TrueSkillRating F => mkPrior (fst x) (fst x) (mkG (fpowi (ts_uncertainty (snd x)) (-2)) (fmul (fpowi (ts_uncertainty (snd x)) (-2)) (ts_rating (snd x)))) tau) (enumerate rs).
  Proof.
    unfold build_rating_layer. intros H. apply (map_m_inv _ _ (fun x : nat * TrueSkillRating F => mkPrior (fst x) (fst x) (mkG (fpowi (ts_uncertainty (snd x)) (-2)) (fmul (fpowi (ts_uncertainty (snd x)) (-2)) (ts_rating (snd x)))) tau)) in H; auto.
    clear. intros [i p] s1 s2 y _ H. cbn [fst snd Nat.add] in *. apply bind_inv in H as (s3 & g & H1 & H). apply of_option_inv in H1 as [-> H1].
    apply bind_inv in H as (s4 & u & H2 & H). apply register_inv in H2. apply ret_inv in H as [-> ->]. split; auto.
    unfold g_with_mu_sigma in H1. destruct (feqb _ _); [discriminate|]. injection H1 as <-. reflexivity.
  Qed.
  Lemma build_perf_inv n beta k s s' l : build_perf_layer n beta k s = Some (s', l) ->
    same s s' /\ l = map (fun i => mkLik (k + i) i (n + i) (fpowi beta 2)) (seq 0 n).
  Proof.
    unfold build_perf_layer. cbv zeta. intros H. eapply (map_m_inv _ _ (fun i => mkLik (k + i) i (n + i) (fpowi beta 2))) in H; auto.
    clear. intros i s1 s2 y _ H. apply bind_inv in H as (s3 & g & H1 & H). apply register_inv in H1.
    apply bind_inv in H as (s4 & u & H2 & H). apply register_inv in H2. apply ret_inv in H as [-> ->]. eauto using same_trans.
  Qed.
  Lemma build_team_inv n ws sizes k s s' l : build_team_perf_layer n ws sizes k s = Some (s', l) ->
    same s s' /\ l = map (fun t => mkSum (k + t) (2 * n + t) (slice (seq n n) (team_start sizes t) (nth t sizes O)) (slice ws (team_start sizes t) (nth t sizes O))) (seq 0 (length sizes)).
  Proof.
    unfold build_team_perf_layer. cbv zeta. intros H.
    eapply (map_m_inv _ _ (fun t => mkSum (k + t) (2 * n + t) (slice (seq n n) (team_start sizes t) (nth t sizes O)) (slice ws (team_start sizes t) (nth t sizes O)))) in H; auto.
    clear. intros i s1 s2 y _ H. apply bind_inv in H as (s3 & g & H1 & H). apply register_inv in H1.
    apply bind_inv in H as (s4 & u & H2 & H). apply for_each_register in H2. apply ret_inv in H as [-> ->]. eauto using same_trans.
  Qed.
  Lemma build_diff_inv n T k s s' l : build_team_diff_layer n T k s = Some (s', l) ->
    same s s' /\ l = map (fun x => mkSum (k + x) (2 * n + T + x) [2 * n + x; 2 * n + x + 1] [#1; #(-1)]%flt) (seq 0 (T - 1)).
  Proof.
    unfold build_team_diff_layer. cbv zeta. intros H.
    eapply (map_m_inv _ _ (fun x => mkSum (k + x) (2 * n + T + x) [2 * n + x; 2 * n + x + 1] [#1; #(-1)]%flt)) in H; auto.
    clear. intros i s1 s2 y _ H. apply bind_inv in H as (s3 & g & H1 & H). apply register_inv in H1.
    apply bind_inv in H as (s4 & u & H2 & H). apply for_each_register in H2. apply ret_inv in H as [-> ->]. eauto using same_trans.
  Qed.
  Lemma build_trunc_inv n trs dp beta k s s' l : build_trunc_layer n trs dp beta k s = Some (s', l) ->
    same s s' /\ l = map (fun x => mkTrunc (k + x) (2 * n + length trs + x)
      (N.eqb (mto_rank (snd (nth x trs (nil, mto_new 0)))) (mto_rank (snd (nth (S x) trs (nil, mto_new 0)))))
      (ts_draw_margin dp beta (fsum [flen (fst (nth x trs (nil, mto_new 0))); flen (fst (nth (S x) trs (nil, mto_new 0)))]))) (seq 0 (length trs - 1)).
  Proof.
    unfold build_trunc_layer. cbv zeta. intros H.
    eapply (map_m_inv _ _ (fun x => mkTrunc (k + x) (2 * n + length trs + x)
      (N.eqb (mto_rank (snd (nth x trs (nil, mto_new 0)))) (mto_rank (snd (nth (S x) trs (nil, mto_new 0)))))
      (ts_draw_margin dp beta (fsum [flen (fst (nth x trs (nil, mto_new 0))); flen (fst (nth (S x) trs (nil, mto_new 0)))])))) in H; auto.
    clear. intros i s1 s2 y _ H. destruct (nth i trs _) as [t1 r1]. destruct (nth (S i) trs _) as [t2 r2].
    apply bind_inv in H as (s3 & g & H1 & H). apply register_inv in H1. apply ret_inv in H as [-> ->]. auto.
  Qed.
End Inv.

(** ** Real-valued Gaussians *)
Local Open Scope R_scope.
Definition pad (p q : R * R) : R * R := (fst p + fst q, snd p + snd q).
Definition fg (p : R * R) : Gaussian XR := mkG (Fin (fst p)) (Fin (snd p)).
(** Precision and precision-mean of a normal with mean [m], variance [V]. *)
Definition nrm (m V : R) : R * R := (/ V, m / V).
Lemma fg_cav p q : g_div (fg (pad p q)) (fg q) = fg p.
Proof. unfold g_div, fg, pad. cbn [g_pi g_tau fst snd]. rewrite !xr_sub. f_equal; f_equal; ring. Qed.
Lemma fg_cav' p q : g_div (fg (pad p q)) (fg p) = fg q.
Proof. unfold g_div, fg, pad. cbn [g_pi g_tau fst snd]. rewrite !xr_sub. f_equal; f_equal; ring. Qed.
Lemma fg_mul p q : g_mul (fg p) (fg q) = fg (pad p q).
Proof. reflexivity. Qed.
Lemma pad_comm p q : pad p q = pad q p.
Proof. unfold pad. f_equal; ring. Qed.
Lemma fg_mu p : fst p <> 0 -> g_mu (fg p) = Fin (snd p / fst p).
Proof. intros H. unfold g_mu, fg. cbn [g_pi g_tau]. rewrite xr_ofZ, xr_eqb, Reqb_false by auto. now rewrite xr_div. Qed.
Lemma fg_sigma p : 0 < fst p -> g_sigma (fg p) = Fin (sqrt (/ fst p)).
Proof.
  intros H. unfold g_sigma, fg. cbn [g_pi g_tau]. rewrite xr_ofZ, xr_eqb, Reqb_false by lra. rewrite xr_recip by lra. rewrite xr_sqrt; auto.
  apply Rlt_le, Rinv_0_lt_compat, H.
Qed.
Lemma sum_fold (l : list (R * R * R)) x y : Forall (fun k => fst (fst k) <> 0) l ->
  fold_left sum_step (map (fun k => (fg (fst k), Fin (snd k))) l) (Fin x, Fin y) =
  (Fin (x + Rsum (map (fun k => snd k ^ 2 / fst (fst k)) l)), Fin (y + Rsum (map (fun k => snd k * (snd (fst k) / fst (fst k))) l))).
Proof.
  intros H. revert x y. induction H as [|[g c] l H _ IH]; intros x y; cbn [map fold_left].
  - rewrite !Rsum_nil. f_equal; f_equal; ring.
  - cbn [fst snd] in *.
    assert (E : sum_step (Fin x, Fin y) (fg g, Fin c) = (Fin (x + c ^ 2 / fst g), Fin (y + c * (snd g / fst g)))).
    { unfold sum_step. rewrite fg_mu by auto. change (fis_inf (Fin x)) with false. cbv iota.
      unfold fg. cbn [g_pi]. rewrite !xr_ofZ, xr_eqb, Reqb_false by auto. rewrite xr_powi2, xr_div, !xr_mul, !xr_add by auto.
      f_equal. f_equal. field. auto. }
    rewrite E, IH, !Rsum_cons. cbn [fst snd]. f_equal; f_equal; ring.
Qed.
(** The message of a sum factor. *)
Definition sum_msg (l : list (R * R * R)) : R * R :=
  let V := Rsum (map (fun k => snd k ^ 2 / fst (fst k)) l) in
  nrm (Rsum (map (fun k => snd k * (snd (fst k) / fst (fst k))) l)) V.
Lemma sum_update_fin (id var : nat) vals cs s s' d (l : list (R * R * R)) :
  sum_update id var vals cs s = Some (s', d) ->
  combine (map (fun v => g_div (gauss s v) (emsg s v id)) vals) cs = map (fun k => (fg (fst k), Fin (snd k))) l ->
  Forall (fun k => fst (fst k) <> 0) l -> Rsum (map (fun k => snd k ^ 2 / fst (fst k)) l) <> 0 ->
  chg s s' var id (g_mul (g_div (gauss s var) (emsg s var id)) (fg (sum_msg l))) (fg (sum_msg l)).
Proof.
  intros H E H1 H2. apply sum_update_inv in H. rewrite E, xr_ofZ, sum_fold in H by auto. cbv zeta in H.
  rewrite xr_recip, xr_mul in H by lra. unfold sum_msg. cbv zeta. unfold nrm.
  set (V := Rsum (map (fun k => snd k ^ 2 / fst (fst k)) l)) in *. set (W := Rsum (map (fun k => snd k * (snd (fst k) / fst (fst k))) l)) in *.
  replace (fg (/ V, W / V)) with (mkG (Fin (/ (0 + V))) (Fin (/ (0 + V) * (0 + W)))); [exact H|].
  unfold fg. cbn [fst snd]. rewrite !Rplus_0_l. unfold Rdiv. now rewrite (Rmult_comm W).
Qed.

Definition upf {X} (f : nat -> X) k x := fun i => if Nat.eqb i k then x else f i.

Section Two.
  Variables (a b : nat) (ps : list (R * R)) (ws : list R) (tau beta : R).
  Let n := (a + b)%nat.
  Hypothesis Hps : length ps = n.
  Hypothesis Hws : length ws = n.
  Definition tm (i : nat) : nat := if Nat.ltb i a then 0%nat else 1%nat.
  (** The state of the graph: all messages; a variable's value is the product
      of its messages. *)
  Definition St (pr rl pl pt tt td : nat -> R * R) (dd du : R * R) (s : Store XR) : Prop :=
    (forall i, (i < n)%nat -> gauss s i = fg (pad (pr i) (rl i)) /\ emsg s i (n + i) = fg (rl i)) /\
    (forall i, (i < n)%nat -> gauss s (n + i) = fg (pad (pl i) (pt i)) /\ emsg s (n + i) (n + i) = fg (pl i) /\ emsg s (n + i) (2 * n + tm i) = fg (pt i)) /\
    (forall t, (t < 2)%nat -> gauss s (2 * n + t) = fg (pad (tt t) (td t)) /\ emsg s (2 * n + t) (2 * n + t) = fg (tt t) /\ emsg s (2 * n + t) (2 * n + 2) = fg (td t)) /\
    (gauss s (2 * n + 2) = fg (pad dd du) /\ emsg s (2 * n + 2) (2 * n + 2) = fg dd /\ emsg s (2 * n + 2) (2 * n + 3) = fg du).
  Lemma tm_le i : (tm i < 2)%nat. Proof. unfold tm. destruct (i <? a)%nat; lia. Qed.
  Lemma St_same pr rl pl pt tt td dd du s s' : St pr rl pl pt tt td dd du s -> same s s' -> St pr rl pl pt tt td dd du s'.
  Proof.
    intros (H1 & H2 & H3 & H4) E.
    assert (G : forall v, gauss s' v = gauss s v) by (intros; apply E). assert (K : forall v id, emsg s' v id = emsg s v id) by (intros; apply E).
    split; [|split; [|split]]; [intros i Hi; rewrite !G, !K; now apply H1|intros i Hi; rewrite !G, !K; now apply H2|intros i Hi; rewrite !G, !K; now apply H3|rewrite !G, !K; exact H4].
  Qed.
  Lemma St_ext pr rl pl pt tt td dd du pr' rl' pl' pt' tt' td' dd' du' s : St pr rl pl pt tt td dd du s ->
    (forall i, (i < n)%nat -> pr i = pr' i /\ rl i = rl' i /\ pl i = pl' i /\ pt i = pt' i) -> (forall t, (t < 2)%nat -> tt t = tt' t /\ td t = td' t) -> dd = dd' -> du = du' ->
    St pr' rl' pl' pt' tt' td' dd' du' s.
  Proof.
    intros (H1 & H2 & H3 & H4) E1 E2 <- <-. split; [|split; [|split; [|exact H4]]]; intros i Hi.
    - destruct (E1 i Hi) as (<- & <- & _). now apply H1.
    - destruct (E1 i Hi) as (_ & _ & <- & <-). now apply H2.
    - destruct (E2 i Hi) as (<- & <-). now apply H3.
  Qed.
  Ltac other H4 := unfold gauss, emsg; rewrite !H4 by lia.
  Lemma St_pr pr rl pl pt tt td dd du s s' i x G m : St pr rl pl pt tt td dd du s -> (i < n)%nat ->
    chg s s' i i G m -> G = fg (pad x (rl i)) -> St (upf pr i x) rl pl pt tt td dd du s'.
  Proof.
    intros (H1 & H2 & H3 & H4) Hi (C1 & C2 & C3 & C4) ->. split; [|split; [|split]].
    - intros j Hj. unfold upf. destruct (Nat.eqb_spec j i) as [->|N].
      + split; [auto|]. rewrite C3 by lia. now apply H1.
      + other C4. now apply H1.
    - intros j Hj. other C4. now apply H2.
    - intros t Ht. other C4. now apply H3.
    - other C4. exact H4.
  Qed.
  Lemma St_rl pr rl pl pt tt td dd du s s' i x G : St pr rl pl pt tt td dd du s -> (i < n)%nat ->
    chg s s' i (n + i) G (fg x) -> G = fg (pad (pr i) x) -> St pr (upf rl i x) pl pt tt td dd du s'.
  Proof.
    intros (H1 & H2 & H3 & H4) Hi (C1 & C2 & C3 & C4) ->. split; [|split; [|split]].
    - intros j Hj. unfold upf. destruct (Nat.eqb_spec j i) as [->|N]; [auto|]. other C4. now apply H1.
    - intros j Hj. other C4. now apply H2.
    - intros t Ht. other C4. now apply H3.
    - other C4. exact H4.
  Qed.
  Lemma St_pl pr rl pl pt tt td dd du s s' i x G : St pr rl pl pt tt td dd du s -> (i < n)%nat ->
    chg s s' (n + i) (n + i) G (fg x) -> G = fg (pad x (pt i)) -> St pr rl (upf pl i x) pt tt td dd du s'.
  Proof.
    intros (H1 & H2 & H3 & H4) Hi (C1 & C2 & C3 & C4) ->. split; [|split; [|split]].
    - intros j Hj. other C4. now apply H1.
    - intros j Hj. unfold upf. destruct (Nat.eqb_spec j i) as [->|N].
      + split; [auto|]. split; [auto|]. rewrite C3 by lia. now apply H2.
      + other C4. now apply H2.
    - intros t Ht. other C4. now apply H3.
    - other C4. exact H4.
  Qed.
  Lemma St_pt pr rl pl pt tt td dd du s s' i x G : St pr rl pl pt tt td dd du s -> (i < n)%nat ->
    chg s s' (n + i) (2 * n + tm i) G (fg x) -> G = fg (pad (pl i) x) -> St pr rl pl (upf pt i x) tt td dd du s'.
  Proof.
    intros (H1 & H2 & H3 & H4) Hi (C1 & C2 & C3 & C4) ->. split; [|split; [|split]].
    - intros j Hj. other C4. now apply H1.
    - intros j Hj. unfold upf. destruct (Nat.eqb_spec j i) as [->|N].
      + split; [auto|]. split; [|auto]. rewrite C3 by lia. now apply H2.
      + other C4. now apply H2.
    - intros t Ht. other C4. now apply H3.
    - other C4. exact H4.
  Qed.
  Lemma St_tt pr rl pl pt tt td dd du s s' t x G : St pr rl pl pt tt td dd du s -> (t < 2)%nat ->
    chg s s' (2 * n + t) (2 * n + t) G (fg x) -> G = fg (pad x (td t)) -> St pr rl pl pt (upf tt t x) td dd du s'.
  Proof.
    intros (H1 & H2 & H3 & H4) Ht (C1 & C2 & C3 & C4) ->. split; [|split; [|split]].
    - intros j Hj. other C4. now apply H1.
    - intros j Hj. other C4. now apply H2.
    - intros j Hj. unfold upf. destruct (Nat.eqb_spec j t) as [->|N].
      + split; [auto|]. split; [auto|]. rewrite C3 by lia. now apply H3.
      + other C4. now apply H3.
    - other C4. exact H4.
  Qed.
  Lemma St_td pr rl pl pt tt td dd du s s' t x G : St pr rl pl pt tt td dd du s -> (t < 2)%nat ->
    chg s s' (2 * n + t) (2 * n + 2) G (fg x) -> G = fg (pad (tt t) x) -> St pr rl pl pt tt (upf td t x) dd du s'.
  Proof.
    intros (H1 & H2 & H3 & H4) Ht (C1 & C2 & C3 & C4) ->. split; [|split; [|split]].
    - intros j Hj. other C4. now apply H1.
    - intros j Hj. other C4. now apply H2.
    - intros j Hj. unfold upf. destruct (Nat.eqb_spec j t) as [->|N].
      + split; [auto|]. split; [|auto]. rewrite C3 by lia. now apply H3.
      + other C4. now apply H3.
    - other C4. exact H4.
  Qed.
  Lemma St_dd pr rl pl pt tt td dd du s s' x G : St pr rl pl pt tt td dd du s ->
    chg s s' (2 * n + 2) (2 * n + 2) G (fg x) -> G = fg (pad x du) -> St pr rl pl pt tt td x du s'.
  Proof.
    intros (H1 & H2 & H3 & H4) (C1 & C2 & C3 & C4) ->. split; [|split; [|split; [|split; [|split]]]]; auto.
    - intros j Hj. other C4. now apply H1.
    - intros j Hj. other C4. now apply H2.
    - intros j Hj. other C4. now apply H3.
    - rewrite C3 by lia. apply H4.
  Qed.
  Lemma St_du pr rl pl pt tt td dd du s s' x G m : St pr rl pl pt tt td dd du s ->
    chg s s' (2 * n + 2) (2 * n + 3) G m -> m = fg x -> G = fg (pad dd x) -> St pr rl pl pt tt td dd x s'.
  Proof.
    intros (H1 & H2 & H3 & H4) (C1 & C2 & C3 & C4) -> ->. split; [|split; [|split; [|split; [|split]]]]; auto.
    - intros j Hj. other C4. now apply H1.
    - intros j Hj. other C4. now apply H2.
    - intros j Hj. other C4. now apply H3.
    - rewrite C3 by lia. apply H4.
  Qed.

  (** *** The messages *)
  Hypothesis Ha : (0 < a)%nat.
  Hypothesis Hb : (0 < b)%nat.
  Definition mi i := fst (nth i ps (0, 0)).
  Definition Si i := snd (nth i ps (0, 0)) ^ 2 + tau ^ 2.
  Definition wi i := nth i ws 0.
  Let B := beta * beta.
  Hypothesis HS : forall i, (i < n)%nat -> snd (nth i ps (0, 0)) <> 0.
  Hypothesis Hw : forall i, (i < n)%nat -> 0 <= wi i.
  Lemma Si_pos i : (i < n)%nat -> 0 < Si i.
  Proof. intros H. apply HS in H. unfold Si. assert (0 < snd (nth i ps (0, 0)) ^ 2) by (rewrite <- Rsqr_pow2; apply Rsqr_pos_lt; auto). assert (0 <= tau ^ 2) by apply pow2_ge_0. lra. Qed.
  Lemma B_nonneg : 0 <= B. Proof. unfold B. apply Rle_0_sqr. Qed.
  Definition off (t : nat) := match t with O => O | _ => a end.
  Definition sz (t : nat) := match t with O => a | _ => b end.
  Definition Mt t := Rsum (map (fun k => wi (off t + k) * mi (off t + k)) (seq 0 (sz t))).
  Definition Vt t := Rsum (map (fun k => wi (off t + k) ^ 2 * (Si (off t + k) + beta * beta)) (seq 0 (sz t))).
  Lemma off_sz t k : (t < 2)%nat -> (k < sz t)%nat -> (off t + k < n)%nat /\ tm (off t + k) = t.
  Proof.
    intros Ht Hk. unfold n, tm. destruct t as [|[|t]]; cbn [off sz Nat.add] in *; [| |lia].
    - split; [lia|]. destruct (Nat.ltb_spec k a); lia.
    - split; [lia|]. destruct (Nat.ltb_spec (a + k) a); lia.
  Qed.
  Lemma Rsum_pos {X} (f : X -> R) l : l <> [] -> (forall x, In x l -> 0 < f x) -> 0 < Rsum (map f l).
  Proof.
    induction l as [|x l IH]; [congruence|]. intros _ H. cbn [map]. rewrite Rsum_cons. assert (0 < f x) by (apply H; now left).
    destruct l as [|y l]; [cbn; lra|]. assert (0 < Rsum (map f (y :: l))) by (apply IH; [discriminate|intros; apply H; now right]). lra.
  Qed.
  Lemma seq_ne t : (t < 2)%nat -> seq 0 (sz t) <> [].
  Proof. intros Ht. destruct t as [|[|t]]; cbn; [destruct a; [lia|discriminate]|destruct b; [lia|discriminate]|lia]. Qed.
  Hypothesis Vt_pos : forall t, (t < 2)%nat -> 0 < Vt t.
  Definition pr0 i := nrm (mi i) (Si i).
  Definition pl0 i := nrm (mi i) (Si i + B).
  Definition tt0 t := nrm (Mt t) (Vt t).
  Definition Dif := Mt 0 - Mt 1.
  Definition Cq := Vt 0 + Vt 1.
  Definition cc := sqrt Cq.
  Definition dd0 := nrm Dif Cq.
  Lemma Cq_pos : 0 < Cq. Proof. unfold Cq. pose proof (Vt_pos 0 ltac:(lia)). pose proof (Vt_pos 1 ltac:(lia)). lra. Qed.
  Lemma cc_pos : 0 < cc. Proof. unfold cc. apply sqrt_lt_R0, Cq_pos. Qed.
  Lemma cc_sq : cc * cc = Cq. Proof. unfold cc. apply sqrt_sqrt, Rlt_le, Cq_pos. Qed.

  Lemma lik_msg mu V : 0 < V -> (/ (B * / V + 1) * / V, / (B * / V + 1) * (mu / V)) = nrm mu (V + B).
  Proof. intros HV. pose proof B_nonneg. unfold nrm. f_equal; field; lra. Qed.
  Lemma lik_a (x : R * R) : B * fst x + 1 <> 0 -> lik_calc_a (mkLik 0 0 0 (fmul (Fin beta) (Fin beta))) (fg x) = Fin (/ (B * fst x + 1)).
  Proof. intros H. unfold lik_calc_a, fg. cbn [lf_variance g_pi]. rewrite xr_ofZ, xr_mul, xr_fma. now rewrite xr_recip. Qed.
  Definition likf i : LikelihoodFactor (F:=XR) := mkLik (n + i) i (n + i) (fpowi (Fin beta) 2).
  Lemma lik_down_St pr rl pl pt tt td dd du s s' d i mu V : St pr rl pl pt tt td dd du s -> (i < n)%nat ->
    lik_down (likf i) s = Some (s', d) -> pr i = nrm mu V -> 0 < V -> St pr rl (upf pl i (nrm mu (V + B))) pt tt td dd du s'.
  Proof.
    intros H Hi R E HV. unfold lik_down in R. apply bind_inv in R as (s1 & g & R1 & R). apply cavity_inv in R1 as [-> ->].
    cbn [likf lf_mean lf_value lf_id] in R. destruct H as (H1 & H2 & H3 & H4). destruct (H1 i Hi) as [G1 G2]. rewrite G1, G2, fg_cav, E in R. cbv zeta in R.
    pose proof B_nonneg. assert (0 < / V) by now apply Rinv_0_lt_compat.
    change (lik_calc_a (likf i) (fg (nrm mu V))) with (lik_calc_a (mkLik 0 0 0 (fmul (Fin beta) (Fin beta))) (fg (nrm mu V))) in R.
    rewrite lik_a in R by (cbn [nrm fst]; nra). unfold fg in R at 1 2. cbn [g_pi g_tau] in R. rewrite !xr_mul in R. cbn [nrm fst snd] in R.
    apply update_message_inv in R. destruct (H2 i Hi) as (P1 & P2 & P3). rewrite P1, P2, fg_cav' in R.
    change (mkG (Fin (/ (B * / V + 1) * / V)) (Fin (/ (B * / V + 1) * (mu / V)))) with (fg (/ (B * / V + 1) * / V, / (B * / V + 1) * (mu / V))) in R.
    rewrite lik_msg in R by auto. eapply St_pl; [split; eauto| |exact R|]; auto. rewrite fg_mul. now rewrite pad_comm.
  Qed.
  Lemma lik_up_St pr rl pl pt tt td dd du s s' d i mu V : St pr rl pl pt tt td dd du s -> (i < n)%nat ->
    lik_up (likf i) s = Some (s', d) -> pt i = nrm mu V -> 0 < V -> St pr (upf rl i (nrm mu (V + B))) pl pt tt td dd du s'.
  Proof.
    intros H Hi R E HV. unfold lik_up in R. apply bind_inv in R as (s1 & g & R1 & R). apply cavity_inv in R1 as [-> ->].
    cbn [likf lf_mean lf_value lf_id] in R. destruct H as (H1 & H2 & H3 & H4). destruct (H2 i Hi) as (P1 & P2 & P3). rewrite P1, P2, fg_cav', E in R. cbv zeta in R.
    pose proof B_nonneg. assert (0 < / V) by now apply Rinv_0_lt_compat.
    change (lik_calc_a (likf i) (fg (nrm mu V))) with (lik_calc_a (mkLik 0 0 0 (fmul (Fin beta) (Fin beta))) (fg (nrm mu V))) in R.
    rewrite lik_a in R by (cbn [nrm fst]; nra). unfold fg in R at 1 2. cbn [g_pi g_tau] in R. rewrite !xr_mul in R. cbn [nrm fst snd] in R.
    apply update_message_inv in R. destruct (H1 i Hi) as (G1 & G2). rewrite G1, G2, fg_cav in R.
    change (mkG (Fin (/ (B * / V + 1) * / V)) (Fin (/ (B * / V + 1) * (mu / V)))) with (fg (/ (B * / V + 1) * / V, / (B * / V + 1) * (mu / V))) in R.
    rewrite lik_msg in R by auto. eapply St_rl; [split; eauto| |exact R|]; auto.
  Qed.
  Definition priorf i : PriorFactor (F:=XR) :=
    let p := ts_in (nth i ps (0, 0)) in
    mkPrior i i (mkG (fpowi (ts_uncertainty p) (-2)) (fmul (fpowi (ts_uncertainty p) (-2)) (ts_rating p))) (Fin tau).
  Lemma prior_value i : (i < n)%nat -> g_with_mu_sigma (g_mu (pf_val (priorf i))) (fhypot (g_sigma (pf_val (priorf i))) (pf_dynamic (priorf i))) = Some (fg (pr0 i)).
  Proof.
    intros Hi. pose proof (Si_pos i Hi) as SP. apply HS in Hi. unfold priorf, pr0, mi. destruct (nth i ps (0, 0)) as [m u] eqn:E. cbn [snd] in Hi.
    cbv zeta. cbn [ts_in ts_uncertainty ts_rating fst snd pf_val pf_dynamic]. rewrite xr_powim2, xr_mul by auto.
    assert (U : 0 < u * u) by nra. assert (IU : 0 < / (u * u)) by now apply Rinv_0_lt_compat.
    change (mkG (Fin (/ (u * u))) (Fin (/ (u * u) * m))) with (fg (/ (u * u), / (u * u) * m)). rewrite fg_mu, fg_sigma by (cbn [fst]; lra). cbn [fst snd].
    rewrite Rinv_inv, xr_hypot. rewrite sqrt_sqrt by lra.
    unfold Si in *. rewrite E in *. cbn [snd] in *. replace (u * u + tau * tau) with (u ^ 2 + tau ^ 2) by ring. set (S := u ^ 2 + tau ^ 2) in *.
    assert (0 < sqrt S) by now apply sqrt_lt_R0. unfold g_with_mu_sigma. rewrite xr_ofZ, xr_eqb, Reqb_false by lra. rewrite xr_powim2, xr_mul by lra.
    rewrite sqrt_sqrt by lra. unfold fg, nrm. cbn [fst snd]. do 2 f_equal. f_equal. field. lra.
  Qed.
  Lemma prior_down_St pr rl pl pt tt td dd du s s' d i : St pr rl pl pt tt td dd du s -> (i < n)%nat -> rl i = (0, 0) ->
    prior_down (priorf i) s = Some (s', d) -> St (upf pr i (pr0 i)) rl pl pt tt td dd du s'.
  Proof.
    intros H Hi E R. unfold prior_down in R. cbv zeta in R. rewrite prior_value in R by auto. apply bind_inv in R as (s1 & g & R1 & R).
    apply of_option_inv in R1 as [-> R1]. injection R1 as <-. apply update_value_inv in R. eapply St_pr; [exact H|exact Hi|exact R|].
    rewrite E. unfold pad. cbn [fst snd]. rewrite !Rplus_0_r. now destruct (pr0 i).
  Qed.

  (** *** Sum factors *)
  Lemma combine_map {X Y Z} (f : X -> Y) (g : X -> Z) l : combine (map f l) (map g l) = map (fun x => (f x, g x)) l.
  Proof. induction l; cbn; congruence. Qed.
  Lemma sum_msg_nrm {X} (mu v co : X -> R) l : (forall x, In x l -> v x <> 0) ->
    sum_msg (map (fun x => (nrm (mu x) (v x), co x)) l) = nrm (Rsum (map (fun x => co x * mu x) l)) (Rsum (map (fun x => co x ^ 2 * v x) l)).
  Proof.
    intros H. unfold sum_msg. cbv zeta. rewrite !map_map. unfold nrm. cbn [fst snd]. 
    assert (E1 : map (fun x => co x * (mu x / v x / / v x)) l = map (fun x => co x * mu x) l) by (apply map_ext_in; intros x Hx; field; auto).
    assert (E2 : map (fun x => co x ^ 2 / / v x) l = map (fun x => co x ^ 2 * v x) l) by (apply map_ext_in; intros x Hx; field; auto).
    now rewrite E1, E2.
  Qed.
  Lemma sum_update_nrm (id var : nat) vals cs s s' d {X} (l : list X) (val : X -> nat) (mu v co : X -> R) :
    sum_update id var vals cs s = Some (s', d) -> vals = map val l -> cs = map (fun x => Fin (co x)) l ->
    (forall x, In x l -> g_div (gauss s (val x)) (emsg s (val x) id) = fg (nrm (mu x) (v x)) /\ 0 < v x) ->
    Rsum (map (fun x => co x ^ 2 * v x) l) <> 0 ->
    let m := nrm (Rsum (map (fun x => co x * mu x) l)) (Rsum (map (fun x => co x ^ 2 * v x) l)) in
    chg s s' var id (g_mul (g_div (gauss s var) (emsg s var id)) (fg m)) (fg m).
  Proof.
    intros R E1 E2 H1 H2 m. unfold m. rewrite <- (sum_msg_nrm mu v co) by (intros x Hx; destruct (H1 x Hx); lra).
    eapply sum_update_fin; [exact R| | |].
    - subst. rewrite map_map, combine_map, map_map. apply map_ext_in. intros x Hx. destruct (H1 x Hx) as [-> _]. reflexivity.
    - apply Forall_map, Forall_forall. intros x Hx. cbn [fst nrm]. destruct (H1 x Hx) as [_ HV]. apply Rinv_neq_0_compat. lra.
    - rewrite map_map. cbn [fst snd nrm]. rewrite (map_ext_in _ (fun x => co x ^ 2 * v x)); auto. intros x Hx. destruct (H1 x Hx). field. lra.
  Qed.
  Definition teamf (t : nat) : SumFactor (F:=XR) :=
    mkSum (2 * n + t) (2 * n + t) (map (fun k => (n + (off t + k))%nat) (seq 0 (sz t))) (map (fun k => Fin (wi (off t + k))) (seq 0 (sz t))).
  Lemma team_down_St pr rl pl pt tt td dd du s s' d t : St pr rl pl pt tt td dd du s -> (t < 2)%nat ->
    (forall i, (i < n)%nat -> pl i = pl0 i) ->
    sum_down (teamf t) s = Some (s', d) -> St pr rl pl pt (upf tt t (tt0 t)) td dd du s'.
  Proof.
    intros H Ht Hpl R. unfold sum_down in R. cbn [teamf sf_id sf_sum sf_terms sf_coeffs] in R. pose proof H as (H1 & H2 & H3 & H4).
    apply (sum_update_nrm _ _ _ _ _ _ _ (seq 0 (sz t)) (fun k => (n + (off t + k))%nat) (fun k => mi (off t + k)) (fun k => Si (off t + k) + B) (fun k => wi (off t + k))) in R; auto.
    - destruct (H3 t Ht) as (T1 & T2 & T3). rewrite T1, T2, fg_cav' in R. eapply St_tt; [exact H|exact Ht|exact R|]. rewrite fg_mul. now rewrite pad_comm.
    - intros k Hk. apply in_seq in Hk. destruct (off_sz t k) as [L Et]; [auto|lia|]. destruct (H2 _ L) as (P1 & P2 & P3). rewrite Et in P3. rewrite P1, P3, fg_cav, Hpl by auto.
      split; [reflexivity|]. pose proof (Si_pos _ L). pose proof B_nonneg. lra.
    - fold B. pose proof (Vt_pos t Ht) as V. unfold Vt in V. fold B in V. lra.
  Qed.
  Definition difff : SumFactor (F:=XR) := mkSum (2 * n + 2) (2 * n + 2) [(2 * n + 0)%nat; (2 * n + 1)%nat] [Fin 1; Fin (-1)].
  Lemma diff_down_St pr rl pl pt tt td dd du s s' d : St pr rl pl pt tt td dd du s ->
    (forall t, (t < 2)%nat -> tt t = tt0 t) ->
    sum_down difff s = Some (s', d) -> St pr rl pl pt tt td dd0 du s'.
  Proof.
    intros H Htt R. unfold sum_down in R. cbn [difff sf_id sf_sum sf_terms sf_coeffs] in R. pose proof H as (H1 & H2 & H3 & H4).
    pose proof (Vt_pos 0 ltac:(lia)) as V0. pose proof (Vt_pos 1 ltac:(lia)) as V1.
    apply (sum_update_nrm _ _ _ _ _ _ _ (seq 0 2) (fun k => (2 * n + k)%nat) Mt Vt (fun k => match k with O => 1 | _ => -1 end)) in R; auto.
    - cbn [seq map] in R. rewrite !Rsum_cons, Rsum_nil in R. destruct H4 as (T1 & T2 & T3). rewrite T1, T2, fg_cav' in R.
      replace (1 * Mt 0 + (-1 * Mt 1 + 0)) with Dif in R by (unfold Dif; ring). replace (1 ^ 2 * Vt 0 + ((-1) ^ 2 * Vt 1 + 0)) with Cq in R by (unfold Cq; ring).
      eapply St_dd; [exact H|exact R|]. rewrite fg_mul. now rewrite pad_comm.
    - intros k Hk. apply in_seq in Hk. destruct (H3 k) as (T1 & T2 & T3); [lia|]. rewrite T1, T3, fg_cav, Htt by lia. split; [reflexivity|]. apply Vt_pos. lia.
    - cbn [seq map]. rewrite !Rsum_cons, Rsum_nil. nra.
  Qed.

  (** *** Truncation *)
  Variables (e : R) (draw : bool).
  Definition vv := if draw then vdraw (Dif / cc) (e / cc) else vwin (Dif / cc) (e / cc).
  Definition wv := if draw then wdraw (Dif / cc) (e / cc) else wwin (Dif / cc) (e / cc).
  Hypothesis Hwv : 0 < wv < 1.
  Definition qv := Cq * (1 - wv) / wv.
  Definition Xm := Dif + cc * vv / wv.
  Definition du0 := nrm Xm qv.
  Definition truncf : TruncateFactor (F:=XR) := mkTrunc (2 * n + 3) (2 * n + 2) draw (Fin e).
  Lemma qv_pos : 0 < qv.
  Proof. unfold qv. pose proof Cq_pos. apply Rdiv_lt_0_compat; [|lra]. apply Rmult_lt_0_compat; lra. Qed.
  Lemma trunc_up_St pr rl pl pt tt td du s s' d : St pr rl pl pt tt td dd0 du s ->
    trunc_up truncf s = Some (s', d) -> St pr rl pl pt tt td dd0 du0 s'.
  Proof.
    intros H R. unfold trunc_up in R. apply bind_inv in R as (s1 & g & R1 & R). apply cavity_inv in R1 as [-> ->]. pose proof H as (H1 & H2 & H3 & T1 & T2 & T3).
    cbn [truncf tf_variable tf_id tf_draw tf_draw_margin] in R. rewrite T1, T3, fg_cav in R. cbv zeta in R.
    unfold dd0, nrm, fg in R. cbn [g_pi g_tau fst snd] in R. pose proof Cq_pos as CP. pose proof cc_pos as cP. pose proof cc_sq as CS.
    assert (IC : 0 < / Cq) by now apply Rinv_0_lt_compat. assert (Ic : 0 < / cc) by now apply Rinv_0_lt_compat.
    rewrite xr_sqrt in R by lra. replace (sqrt (/ Cq)) with (/ cc) in R by (unfold cc; symmetry; apply sqrt_inv).
    rewrite xr_mul in R.
    assert (E1 : Dif / Cq / / cc = Dif / cc) by (rewrite <- CS; field; lra). assert (E2 : e * / Cq / / cc = e / cc) by (rewrite <- CS; field; lra).
    assert (EV : (if draw then v_draw (Fin (Dif / Cq)) (Fin (e * / Cq)) (Fin (/ cc)) else v_non_draw (Fin (Dif / Cq)) (Fin (e * / Cq)) (Fin (/ cc))) = Fin vv).
    { unfold vv. destruct draw; [rewrite v_draw_eval by auto|rewrite v_non_draw_eval by auto]; now rewrite E1, E2. }
    assert (EW : (if draw then w_draw (Fin (Dif / Cq)) (Fin (e * / Cq)) (Fin (/ cc)) else w_non_draw (Fin (Dif / Cq)) (Fin (e * / Cq)) (Fin (/ cc))) = Fin wv).
    { unfold wv. destruct draw; [rewrite w_draw_eval by auto|rewrite w_non_draw_eval by auto]; now rewrite E1, E2. }
    rewrite EV, EW, xr_ofZ, xr_sub, xr_fma in R. rewrite !xr_div in R by lra. apply update_value_inv in R. rewrite T1, T3 in R.
    assert (QP := qv_pos).
    eapply St_du; [exact H|exact R| |].
    - unfold fg, pad, g_div, g_mul, du0, dd0, nrm. cbn [g_pi g_tau fst snd]. rewrite !xr_add, !xr_sub. unfold Xm, qv. rewrite <- CS. f_equal; f_equal; field; lra.
    - unfold fg, pad, du0, dd0, nrm. cbn [fst snd]. unfold Xm, qv. rewrite <- CS. f_equal; f_equal; field; lra.
  Qed.
  Lemma Some_inj {X} (x y : X) : Some x = Some y -> x = y.
  Proof. congruence. Qed.
  Definition td0 (t : nat) : R * R := match t with O => nrm (Mt 1 + Xm) (Vt 1 + qv) | _ => nrm (Mt 0 - Xm) (Vt 0 + qv) end.
  Lemma diff_up_St pr rl pl pt tt td dd s s' d t : St pr rl pl pt tt td dd du0 s -> (t < 2)%nat ->
    (forall t, (t < 2)%nat -> tt t = tt0 t) ->
    sum_up difff t s = Some (s', d) -> St pr rl pl pt tt (upf td t (td0 t)) dd du0 s'.
  Proof.
    intros H Ht Htt R. pose proof H as (H1 & H2 & H3 & D1 & D2 & D3). unfold sum_up in R. apply bind_inv in R as (s1 & co & R1 & R). apply of_option_inv in R1 as [-> R1].
    apply bind_inv in R as (s1 & va & R2 & R). apply of_option_inv in R2 as [-> R2].
    pose proof (Vt_pos 0 ltac:(lia)) as V0. pose proof (Vt_pos 1 ltac:(lia)) as V1. pose proof qv_pos as QP.
    assert (CO : g_div (gauss s (2 * n + 2)) (emsg s (2 * n + 2) (2 * n + 2)) = fg (nrm Xm qv)) by (rewrite D1, D2, fg_cav'; reflexivity).
    assert (CT : forall k, (k < 2)%nat -> g_div (gauss s (2 * n + k)) (emsg s (2 * n + k) (2 * n + 2)) = fg (nrm (Mt k) (Vt k))).
    { intros k Hk. destruct (H3 k Hk) as (T1 & T2 & T3). rewrite T1, T3, fg_cav. now rewrite Htt. }
    destruct (H3 t Ht) as (T1 & T2 & T3).
    destruct t as [|[|t]]; [| |lia]; cbn [difff sf_coeffs sf_terms sf_id sf_sum nth_error list_set] in *; apply Some_inj in R1, R2; subst co va.
    - unfold sum_up_coeffs in R. cbn [enumerate combine length seq map fst snd Nat.eqb] in R. rewrite !xr_ofZ, !xr_eqb, !(Reqb_false 1 0) in R by lra.
      rewrite xr_recip, xr_neg, xr_div in R by lra.
      apply (sum_update_nrm _ _ _ _ _ _ _ (seq 0 2) (fun k => match k with O => (2 * n + 2)%nat | _ => (2 * n + 1)%nat end) (fun k => match k with O => Xm | _ => Mt 1 end)
         (fun k => match k with O => qv | _ => Vt 1 end) (fun k => match k with O => / 1 | _ => - (-1) / 1 end)) in R; auto.
      + cbn [seq map] in R. rewrite !Rsum_cons, Rsum_nil in R. rewrite T1, T3, fg_cav in R. rewrite fg_mul in R.
        replace (nrm (/ 1 * Xm + (- (-1) / 1 * Mt 1 + 0)) ((/ 1) ^ 2 * qv + ((- (-1) / 1) ^ 2 * Vt 1 + 0))) with (td0 0) in R by (unfold td0, nrm; f_equal; try (f_equal); field; lra).
        eapply St_td; [exact H|exact Ht|exact R|]. reflexivity.
      + intros k Hk. apply in_seq in Hk. destruct k as [|k]; [auto|]. split; [apply CT; lia|auto].
      + cbn [seq map]. rewrite !Rsum_cons, Rsum_nil. replace ((/ 1) ^ 2 * qv + ((- (-1) / 1) ^ 2 * Vt 1 + 0)) with (qv + Vt 1) by field. lra.
    - unfold sum_up_coeffs in R. cbn [enumerate combine length seq map fst snd Nat.eqb] in R. rewrite !xr_ofZ, !xr_eqb, !(Reqb_false (-1) 0) in R by lra.
      rewrite xr_recip, xr_neg, xr_div in R by lra.
      apply (sum_update_nrm _ _ _ _ _ _ _ (seq 0 2) (fun k => match k with O => (2 * n + 0)%nat | _ => (2 * n + 2)%nat end) (fun k => match k with O => Mt 0 | _ => Xm end)
         (fun k => match k with O => Vt 0 | _ => qv end) (fun k => match k with O => - (1) / -1 | _ => / -1 end)) in R; auto.
      + cbn [seq map] in R. rewrite !Rsum_cons, Rsum_nil in R. rewrite T1, T3, fg_cav in R. rewrite fg_mul in R.
        replace (nrm (- (1) / -1 * Mt 0 + (/ -1 * Xm + 0)) ((- (1) / -1) ^ 2 * Vt 0 + ((/ -1) ^ 2 * qv + 0))) with (td0 1) in R by (unfold td0, nrm; f_equal; try (f_equal); field; lra).
        eapply St_td; [exact H|exact Ht|exact R|]. reflexivity.
      + intros k Hk. apply in_seq in Hk. destruct k as [|k]; [split; [apply CT; lia|auto]|auto].
      + cbn [seq map]. rewrite !Rsum_cons, Rsum_nil. replace ((- (1) / -1) ^ 2 * Vt 0 + ((/ -1) ^ 2 * qv + 0)) with (qv + Vt 0) by field. lra.
  Qed.

  Definition sg (t : nat) : R := match t with O => 1 | _ => -1 end.
  Definition xs := cc * vv / wv.
  Lemma td0_eq t : (t < 2)%nat -> td0 t = nrm (Mt t + sg t * xs) (Cq / wv - Vt t) /\ 0 < Cq / wv - Vt t.
  Proof.
    intros Ht. pose proof (Vt_pos 0 ltac:(lia)) as V0. pose proof (Vt_pos 1 ltac:(lia)) as V1. pose proof qv_pos as QP.
    assert (E : Cq / wv = Cq + qv) by (unfold qv; field; lra). rewrite E. unfold td0, Xm, Dif, xs, sg.
    destruct t as [|[|t]]; [| |lia]; (split; [f_equal; unfold Cq; ring|unfold Cq; lra]).
  Qed.
  Definition pt0 i := nrm (mi i + sg (tm i) * xs / wi i) (Cq / wv / wi i ^ 2 - (Si i + B)).
  Lemma Rsum_if (f : nat -> R) x A K : (x < K)%nat -> Rsum (map (fun k => if Nat.eqb k x then A else f k) (seq 0 K)) = A + Rsum (map f (seq 0 K)) - f x.
  Proof.
    intros H.
    assert (G : forall k0 K, Rsum (map (fun k => if Nat.eqb k x then A else f k) (seq k0 K)) = (if (Nat.leb k0 x && Nat.ltb x (k0 + K))%bool then A - f x else 0) + Rsum (map f (seq k0 K))).
    { clear. intros k0 K. revert k0. induction K as [|K IH]; intros k0; cbn [seq map].
      - rewrite Nat.add_0_r, Rsum_nil. destruct (Nat.leb_spec k0 x), (Nat.ltb_spec x k0); cbn [andb]; try ring; lia.
      - rewrite !Rsum_cons, IH. destruct (Nat.eqb_spec k0 x), (Nat.leb_spec k0 x), (Nat.leb_spec (S k0) x), (Nat.ltb_spec x (S k0 + K)), (Nat.ltb_spec x (k0 + S K)); cbn [andb]; subst; try ring; lia. }
    rewrite G. cbn [Nat.leb Nat.add andb]. rewrite (proj2 (Nat.ltb_lt x K) H). ring.
  Qed.
  Lemma list_set_map {X} (f : nat -> X) x y k0 K : list_set (map f (seq k0 K)) x y = map (fun k => if Nat.eqb k (k0 + x) then y else f k) (seq k0 K).
  Proof.
    revert k0 x. induction K as [|K IH]; intros k0 x; cbn [seq map list_set]; [reflexivity|]. destruct x as [|x]; f_equal.
    - rewrite Nat.add_0_r, Nat.eqb_refl. reflexivity.
    - rewrite Nat.add_0_r. apply map_ext_in. intros k Hk. apply in_seq in Hk. rewrite (proj2 (Nat.eqb_neq k k0)) by lia. reflexivity.
    - rewrite (proj2 (Nat.eqb_neq k0 (k0 + S x))) by lia. reflexivity.
    - rewrite IH. now replace (S k0 + x)%nat with (k0 + S x)%nat by lia.
  Qed.
  Lemma enumerate_map_seq {X} (f : nat -> X) K : enumerate (map f (seq 0 K)) = map (fun k => (k, f k)) (seq 0 K).
  Proof. unfold enumerate. rewrite map_length, seq_length. rewrite <- (map_id (seq 0 K)) at 1. now rewrite combine_map. Qed.
  Lemma nth_error_map_seq {X} (f : nat -> X) x K y : nth_error (map f (seq 0 K)) x = Some y -> (x < K)%nat /\ y = f x.
  Proof.
    intros H. assert (L : (x < K)%nat). { assert (N : nth_error (map f (seq 0 K)) x <> None) by congruence. apply nth_error_Some in N. now rewrite map_length, seq_length in N. }
    split; auto. erewrite map_nth_error in H; [|apply nth_error_nth' with (d := O); now rewrite seq_length]. rewrite seq_nth in H by auto. cbn in H. congruence.
  Qed.
  Lemma team_up_St pr rl pl pt tt td dd du s s' d t x : St pr rl pl pt tt td dd du s -> (t < 2)%nat -> (x < sz t)%nat -> 0 < wi (off t + x) ->
    (forall i, (i < n)%nat -> pl i = pl0 i) -> td t = td0 t ->
    sum_up (teamf t) x s = Some (s', d) -> St pr rl pl (upf pt (off t + x) (pt0 (off t + x))) tt td dd du s'.
  Proof.
    intros H Ht Hx Wx Hpl Htd R. pose proof H as (H1 & H2 & H3 & H4). unfold sum_up in R. apply bind_inv in R as (s1 & co & R1 & R). apply of_option_inv in R1 as [-> R1].
    apply bind_inv in R as (s1 & va & R2 & R). apply of_option_inv in R2 as [-> R2].
    cbn [teamf sf_id sf_sum sf_terms sf_coeffs] in R, R1, R2. apply nth_error_map_seq in R1 as [_ ->]. apply nth_error_map_seq in R2 as [_ ->].
    destruct (td0_eq t Ht) as [TD TP]. destruct (off_sz t x Ht Hx) as [Lx Tx].
    unfold sum_up_coeffs in R. rewrite enumerate_map_seq, map_map in R. rewrite list_set_map in R. cbn [fst snd Nat.add] in R.
    apply (sum_update_nrm _ _ _ _ _ _ _ (seq 0 (sz t)) (fun k => if Nat.eqb k x then (2 * n + t)%nat else (n + (off t + k))%nat)
       (fun k => if Nat.eqb k x then Mt t + sg t * xs else mi (off t + k)) (fun k => if Nat.eqb k x then Cq / wv - Vt t else Si (off t + k) + B)
       (fun k => if Nat.eqb k x then / wi (off t + x) else - wi (off t + k) / wi (off t + x))) in R; auto.
    - cbv zeta in R. destruct (H2 _ Lx) as (P1 & P2 & P3).
      eapply St_pt; [exact H|exact Lx| |reflexivity].
      rewrite Tx in P3 |- *. rewrite P1, P3, fg_cav, fg_mul in R.
      match type of R with chg _ _ _ _ (fg (pad _ ?m)) _ => assert (EM : m = pt0 (off t + x)) end.
      { unfold pt0. rewrite Tx.
        rewrite (map_ext _ (fun k => if Nat.eqb k x then / wi (off t + x) * (Mt t + sg t * xs) else - wi (off t + k) / wi (off t + x) * mi (off t + k))) by (intros k; destruct (Nat.eqb k x); reflexivity).
        rewrite (map_ext (fun k => (if Nat.eqb k x then _ else _) ^ 2 * _) (fun k => if Nat.eqb k x then (/ wi (off t + x)) ^ 2 * (Cq / wv - Vt t) else (- wi (off t + k) / wi (off t + x)) ^ 2 * (Si (off t + k) + B))) by (intros k; destruct (Nat.eqb k x); reflexivity).
        rewrite !Rsum_if by auto.
        rewrite (map_ext (fun k => - wi (off t + k) / wi (off t + x) * mi (off t + k)) (fun k => (- / wi (off t + x)) * (wi (off t + k) * mi (off t + k)))) by (intros k; field; lra).
        rewrite (map_ext (fun k => (- wi (off t + k) / wi (off t + x)) ^ 2 * (Si (off t + k) + B)) (fun k => (/ wi (off t + x)) ^ 2 * (wi (off t + k) ^ 2 * (Si (off t + k) + B)))) by (intros k; field; lra).
        rewrite (Rsum_map_scal (- / wi (off t + x)) (fun k => wi (off t + k) * mi (off t + k))).
        rewrite (Rsum_map_scal ((/ wi (off t + x)) ^ 2) (fun k => wi (off t + k) ^ 2 * (Si (off t + k) + B))).
        fold (Mt t). change (Rsum (map (fun k => wi (off t + k) ^ 2 * (Si (off t + k) + B)) (seq 0 (sz t)))) with (Vt t).
        f_equal; field; lra. }
      rewrite EM in R. exact R.
    - apply map_ext_in. intros k Hk. rewrite xr_ofZ, xr_eqb, Reqb_false by lra. destruct (Nat.eqb k x); [now rewrite xr_recip by lra|]. now rewrite xr_neg, xr_div by lra.
    - intros k Hk. apply in_seq in Hk. destruct (Nat.eqb_spec k x) as [->|N].
      + split; auto. destruct (H3 t Ht) as (T1 & T2 & T3). rewrite T1, T2, fg_cav', Htd, TD. reflexivity.
      + destruct (off_sz t k) as [L Et]; [auto|lia|]. destruct (H2 _ L) as (P1 & P2 & P3). rewrite Et in P3. rewrite P1, P3, fg_cav, Hpl by auto.
        split; [reflexivity|]. pose proof (Si_pos _ L). pose proof B_nonneg. lra.
    - assert (IX : 0 < / wi (off t + x)) by now apply Rinv_0_lt_compat. apply Rgt_not_eq.
      rewrite (map_ext (fun k => (if Nat.eqb k x then _ else _) ^ 2 * _) (fun k => if Nat.eqb k x then (/ wi (off t + x)) ^ 2 * (Cq / wv - Vt t) else (- wi (off t + k) / wi (off t + x)) ^ 2 * (Si (off t + k) + B))) by (intros k; destruct (Nat.eqb k x); reflexivity).
      rewrite Rsum_if by auto.
      assert (G : (- wi (off t + x) / wi (off t + x)) ^ 2 * (Si (off t + x) + B) <= Rsum (map (fun k => (- wi (off t + k) / wi (off t + x)) ^ 2 * (Si (off t + k) + B)) (seq 0 (sz t)))).
      { pose proof (Rsum_if (fun k => (- wi (off t + k) / wi (off t + x)) ^ 2 * (Si (off t + k) + B)) x 0 _ Hx) as Q. cbv beta in Q.
        match type of Q with ?l = _ => assert (0 <= l) end; [|lra]. apply Rsum_nonneg. intros y Hy. apply in_map_iff in Hy as (k & <- & Hk). destruct (Nat.eqb k x); [lra|].
        apply in_seq in Hk. destruct (off_sz t k) as [L _]; [auto|lia|]. pose proof (Si_pos _ L). pose proof B_nonneg. apply Rmult_le_pos; [apply pow2_ge_0|lra]. }
      assert (0 < (/ wi (off t + x)) ^ 2 * (Cq / wv - Vt t)) by (apply Rmult_lt_0_compat; auto; now apply pow_lt). lra.
  Qed.

  Definition rl0 i := nrm (mi i + sg (tm i) * xs / wi i) (Cq / wv / wi i ^ 2 - Si i).
  Lemma in_team i : (i < n)%nat -> exists k, (k < sz (tm i))%nat /\ i = (off (tm i) + k)%nat.
  Proof.
    intros Hi. unfold tm. destruct (Nat.ltb_spec i a); cbn [sz off].
    - exists i. split; auto.
    - exists (i - a)%nat. unfold n in Hi. lia.
  Qed.
  Lemma pt0_var i : (i < n)%nat -> 0 < wi i -> 0 < Cq / wv / wi i ^ 2 - (Si i + B).
  Proof.
    intros Hi W. pose proof (Si_pos _ Hi) as SP. pose proof B_nonneg as BP. destruct (in_team i Hi) as (k & Hk & E).
    pose proof (tm_le i) as T. destruct (td0_eq (tm i) T) as [_ TP].
    assert (V : wi i ^ 2 * (Si i + B) <= Vt (tm i)).
    { pose proof (Rsum_if (fun k => wi (off (tm i) + k) ^ 2 * (Si (off (tm i) + k) + B)) k 0 _ Hk) as R. cbv beta in R. rewrite <- E in R.
      change (Rsum (map (fun k => wi (off (tm i) + k) ^ 2 * (Si (off (tm i) + k) + B)) (seq 0 (sz (tm i))))) with (Vt (tm i)) in R.
      assert (0 <= Rsum (map (fun j => if Nat.eqb j k then 0 else wi (off (tm i) + j) ^ 2 * (Si (off (tm i) + j) + B)) (seq 0 (sz (tm i))))); [|lra].
      apply Rsum_nonneg. intros x Hx. apply in_map_iff in Hx as (j & <- & Hj). destruct (Nat.eqb j k); [lra|]. apply in_seq in Hj. destruct (off_sz (tm i) j T ltac:(lia)) as [L _].
      pose proof (Si_pos _ L). apply Rmult_le_pos; [apply pow2_ge_0|lra]. }
    replace (Cq / wv / wi i ^ 2 - (Si i + B)) with ((Cq / wv - wi i ^ 2 * (Si i + B)) / wi i ^ 2) by (field; lra).
    apply Rdiv_lt_0_compat; [lra|]. now apply pow_lt.
  Qed.
  Lemma sweeps_St k md pr rl pl pt tt td dd du s s' u : (forall t, (t < 2)%nat -> tt t = tt0 t) -> St pr rl pl pt tt td dd du s ->
    iterate_sweeps (S k) [difff] [truncf] md s = Some (s', u) -> St pr rl pl pt tt td dd0 du0 s'.
  Proof.
    intros Htt. revert dd du s. induction k as [|k IH]; intros dd du s H R; cbn [iterate_sweeps] in R; fold iterate_sweeps in R;
      apply bind_inv in R as (s1 & d & R1 & R); unfold sweep in R1; cbn [length nth] in R1; apply bind_inv in R1 as (s2 & d2 & R1 & R2);
      apply (diff_down_St _ _ _ _ _ _ _ _ _ _ _ H Htt) in R1; apply (trunc_up_St _ _ _ _ _ _ _ _ _ _ R1) in R2; destruct (fleb d md);
      try (apply ret_inv in R as [-> _]; exact R2).
    eapply IH; [exact R2|exact R].
  Qed.
  Lemma St_init : let z := fun _ : nat => (0, 0) in St z z z z z z (0, 0) (0, 0) (fun _ => var_new).
  Proof.
    cbv zeta. unfold St, gauss, emsg, fg, pad, var_new, g_default. cbn [v_gaussian v_messages fst snd]. rewrite xr_ofZ, Rplus_0_l. repeat split.
  Qed.
  Lemma map_nth_seq {X} (l : list X) d : map (fun i => nth i l d) (seq 0 (length l)) = l.
  Proof.
    induction l as [|x l IH]; [reflexivity|]. cbn [length seq map nth]. f_equal. rewrite <- seq_shift, map_map. exact IH.
  Qed.
  Lemma seq_add_map x k m : seq (x + k) m = map (fun j => (x + j)%nat) (seq k m).
  Proof. revert k. induction m as [|m IH]; intros k; [reflexivity|]. cbn [seq map]. f_equal. rewrite <- IH. f_equal. lia. Qed.
  Lemma enumerate_ps : enumerate (map ts_in ps) = map (fun i => (i, ts_in (nth i ps (0, 0)))) (seq 0 n).
  Proof.
    rewrite <- enumerate_map_seq. f_equal. rewrite <- (map_map (fun i => nth i ps (0, 0)) ts_in). f_equal. rewrite <- Hps. symmetry. apply map_nth_seq.
  Qed.
  Lemma slice_seq t : (t < 2)%nat -> slice (seq n n) (team_start [a; n] t) (nth t [a; n] O) = map (fun k => (n + (off t + k))%nat) (seq 0 (sz t)).
  Proof.
    intros Ht. unfold slice. destruct t as [|[|t]]; [| |lia]; cbn [team_start nth off sz].
    - rewrite skipn_O, Nat.sub_0_r. replace (seq n n) with (seq n a ++ seq (n + a) b) by (rewrite <- seq_app; reflexivity).
      rewrite firstn_app, seq_length, Nat.sub_diag, firstn_O, app_nil_r. rewrite firstn_all2 by (rewrite seq_length; lia).
      rewrite <- (Nat.add_0_r n) at 1. rewrite seq_add_map. reflexivity.
    - replace (seq n n) with (seq n a ++ seq (n + a) b) by (rewrite <- seq_app; reflexivity).
      rewrite skipn_app, seq_length, Nat.sub_diag, skipn_O, skipn_all2 by (rewrite seq_length; lia). cbn [app].
      rewrite firstn_all2 by (rewrite seq_length; unfold n; lia). rewrite <- (Nat.add_0_r (n + a)) at 1. rewrite seq_add_map. apply map_ext. intros; lia.
  Qed.
  Lemma slice_nth {X} (l : list X) (dft : X) t : length l = n -> (t < 2)%nat -> slice l (team_start [a; n] t) (nth t [a; n] O) = map (fun k => nth (off t + k) l dft) (seq 0 (sz t)).
  Proof.
    intros Hl Ht. unfold slice. rewrite <- (map_nth_seq l dft) at 1. rewrite Hl.
    replace (seq 0 n) with (map (fun x => (x - n)%nat) (seq n n)).
    2: { replace (seq n n) with (seq (n + 0) n) by (now rewrite Nat.add_0_r). rewrite seq_add_map, map_map. transitivity (map (fun x => x) (seq 0 n)); [apply map_ext; intros; lia|apply map_id]. }
    rewrite map_map, skipn_map, firstn_map. fold (slice (seq n n) (team_start [a; n] t) (nth t [a; n] O)). rewrite slice_seq by auto. rewrite map_map.
    apply map_ext. intros. f_equal. lia.
  Qed.
  Definition prior_layer := map priorf (seq 0 n).
  Ltac conv R Q :=
    lazymatch type of R with St _ _ _ _ _ _ _ _ ?s =>
      let R' := fresh in rename R into R'; assert (R : Q s); [eapply St_ext; [exact R'| | |reflexivity|reflexivity]; cbv beta; auto|clear R'] end.
  Lemma run_pre trs dp md s layer :
    length trs = 2%nat ->
    N.eqb (mto_rank (snd (nth 0 trs (nil, mto_new 0)))) (mto_rank (snd (nth 1 trs (nil, mto_new 0)))) = draw ->
    ts_draw_margin dp (Fin beta) (fsum [flen (fst (nth 0 trs (nil, mto_new 0))); flen (fst (nth 1 trs (nil, mto_new 0)))]) = Fin e ->
    run_schedule [a; n] trs (map ts_in ps) (map Fin ws) (Fin tau) (Fin beta) dp md (fun _ => var_new) = Some (s, layer) ->
    let z := fun _ : nat => (0, 0) in
    exists s1, St pr0 z pl0 z tt0 z (0, 0) (0, 0) s1 /\
      (do _ <- iterate_sweeps 10 [difff] [truncf] md;
       do _ <- sum_up difff 0;
       do _ <- sum_up difff 1;
       do _ <- for_each (map teamf (seq 0 2)) (fun f => for_each (seq 0 (length (sf_terms f))) (fun x => sum_up f x));
       do _ <- for_each (map likf (seq 0 n)) lik_up;
       ret prior_layer) s1 = Some (s, layer).
  Proof.
    intros HT Hd He R z. pose proof St_init as S0. cbv zeta in S0. fold z in S0.
    unfold run_schedule in R. cbv zeta in R. rewrite map_length, Hps, HT in R. cbn [Nat.add] in R.
    apply bind_inv in R as (s1 & ly & R1 & R). apply build_rating_inv in R1 as [E1 ->]. rewrite enumerate_ps, map_map in R. cbn [fst snd] in R.
    change (map (fun x => mkPrior x x (mkG (fpowi (ts_uncertainty (ts_in (nth x ps (0, 0)))) (-2)) (fmul (fpowi (ts_uncertainty (ts_in (nth x ps (0, 0)))) (-2)) (ts_rating (ts_in (nth x ps (0, 0)))))) (Fin tau)) (seq 0 n)) with prior_layer in R.
    assert (LP : length prior_layer = n) by (unfold prior_layer; now rewrite map_length, seq_length). rewrite LP in R.
    apply (St_same _ _ _ _ _ _ _ _ _ _ S0) in E1. clear S0.
    apply bind_inv in R as (s2 & perf & R1 & R). apply build_perf_inv in R1 as [E2 ->]. apply (St_same _ _ _ _ _ _ _ _ _ _ E1) in E2. clear E1 s1.
    rewrite map_length, seq_length in R. change (map (fun i => mkLik (n + i) i (n + i) (fpowi (Fin beta) 2)) (seq 0 n)) with (map likf (seq 0 n)) in R.
    apply bind_inv in R as (s1 & tms & R1 & R). apply build_team_inv in R1 as [E1 ->]. apply (St_same _ _ _ _ _ _ _ _ _ _ E2) in E1. clear E2 s2.
    rewrite map_length, seq_length in R. change (length [a; n]) with 2%nat in R.
    assert (TE : map (fun t => mkSum (n + n + t) (2 * n + t) (slice (seq n n) (team_start [a; n] t) (nth t [a; n] O)) (slice (map Fin ws) (team_start [a; n] t) (nth t [a; n] O))) (seq 0 2) = map teamf (seq 0 2)).
    { apply map_ext_in. intros t Ht. apply in_seq in Ht. rewrite slice_seq by lia. rewrite (slice_nth _ (Fin 0)) by (rewrite ?map_length; lia). unfold teamf, wi.
      f_equal; [lia|]. apply map_ext. intros k. apply (map_nth Fin). }
    rewrite TE in R. clear TE.
    (* prior *)
    apply bind_inv in R as (s2 & u2 & R1 & R). unfold prior_layer in R1.
    apply (for_each_seq (fun k s => St (fun i => if Nat.ltb i k then pr0 i else (0, 0)) z z z z z (0, 0) (0, 0) s)) in R1.
    2: { eapply St_ext; [exact E1| | |reflexivity|reflexivity]; cbv beta; auto. }
    2: { clear R. intros i s3 s4 y Hi I R. eapply prior_down_St in R; [|exact I|lia|reflexivity]. eapply St_ext; [exact R| | |reflexivity|reflexivity]; cbv beta; auto.
         intros j Hj. split; [|auto]. unfold upf. destruct (Nat.eqb_spec j i), (Nat.ltb_spec j i), (Nat.ltb_spec j (S i)); subst; auto; lia. }
    cbn [Nat.add] in R1. conv R1 (St pr0 z z z z z (0, 0) (0, 0)).
    { intros j Hj. rewrite (proj2 (Nat.ltb_lt j n)) by auto. auto. }
    clear E1 s1 u2. rename R1 into E2.
    (* likelihood down *)
    apply bind_inv in R as (s1 & u2 & R1 & R).
    apply (for_each_seq (fun k s => St pr0 z (fun i => if Nat.ltb i k then pl0 i else (0, 0)) z z z (0, 0) (0, 0) s)) in R1.
    2: { eapply St_ext; [exact E2| | |reflexivity|reflexivity]; cbv beta; auto. }
    2: { clear R. intros i s3 s4 y Hi I R. eapply lik_down_St in R; [|exact I|lia|reflexivity|apply Si_pos; lia]. eapply St_ext; [exact R| | |reflexivity|reflexivity]; cbv beta; auto.
         intros j Hj. split; [auto|]. split; [auto|]. split; [|auto]. unfold upf. destruct (Nat.eqb_spec j i), (Nat.ltb_spec j i), (Nat.ltb_spec j (S i)); subst; auto; lia. }
    cbn [Nat.add] in R1. conv R1 (St pr0 z pl0 z z z (0, 0) (0, 0)).
    { intros j Hj. rewrite (proj2 (Nat.ltb_lt j n)) by auto. auto. }
    clear E2 s2 u2. rename R1 into E2.
    (* team sums *)
    apply bind_inv in R as (s2 & u2 & R1 & R).
    apply (for_each_seq (fun k s => St pr0 z pl0 z (fun t => if Nat.ltb t k then tt0 t else (0, 0)) z (0, 0) (0, 0) s)) in R1.
    2: { eapply St_ext; [exact E2| | |reflexivity|reflexivity]; cbv beta; auto. }
    2: { clear R. intros i s3 s4 y Hi I R. eapply team_down_St in R; [|exact I|lia|auto]. eapply St_ext; [exact R| | |reflexivity|reflexivity]; cbv beta; auto.
         intros j Hj. split; [|auto]. unfold upf. destruct (Nat.eqb_spec j i), (Nat.ltb_spec j i), (Nat.ltb_spec j (S i)); subst; auto; lia. }
    cbn [Nat.add] in R1. conv R1 (St pr0 z pl0 z tt0 z (0, 0) (0, 0)).
    { intros t Ht. rewrite (proj2 (Nat.ltb_lt t 2)) by auto. auto. }
    clear E2 s1 u2. rename R1 into E1.
    (* differences *)
    apply bind_inv in R as (s1 & dif & R1 & R). apply build_diff_inv in R1 as [E2 ->]. apply (St_same _ _ _ _ _ _ _ _ _ _ E1) in E2. clear E1 s2.
    change (2 - 1)%nat with 1%nat in R. cbn [seq map length nth] in R.
    assert (DE : mkSum (n + n + 2 + 0) (2 * n + 2 + 0) [(2 * n + 0)%nat; (2 * n + 0 + 1)%nat] [#1; #(-1)]%flt = difff).
    { unfold difff. rewrite !xr_ofZ. f_equal; [lia|lia|]. f_equal. f_equal. lia. }
    rewrite DE in R. clear DE.
    apply bind_inv in R as (s2 & tru & R1 & R). apply build_trunc_inv in R1 as [E1 ->]. apply (St_same _ _ _ _ _ _ _ _ _ _ E2) in E1. clear E2 s1.
    rewrite HT in R. change (2 - 1)%nat with 1%nat in R. cbn [seq map] in R. rewrite Hd, He in R.
    assert (DE : mkTrunc (n + n + 2 + 1 + 0) (2 * n + 2 + 0) draw (Fin e) = truncf) by (unfold truncf; f_equal; lia). rewrite DE in R. clear DE.
    exists s2. split; [exact E1|exact R].
  Qed.
  Lemma run_down trs dp md s layer :
    length trs = 2%nat ->
    N.eqb (mto_rank (snd (nth 0 trs (nil, mto_new 0)))) (mto_rank (snd (nth 1 trs (nil, mto_new 0)))) = draw ->
    ts_draw_margin dp (Fin beta) (fsum [flen (fst (nth 0 trs (nil, mto_new 0))); flen (fst (nth 1 trs (nil, mto_new 0)))]) = Fin e ->
    run_schedule [a; n] trs (map ts_in ps) (map Fin ws) (Fin tau) (Fin beta) dp md (fun _ => var_new) = Some (s, layer) ->
    let z := fun _ : nat => (0, 0) in
    exists s1, St pr0 z pl0 z tt0 td0 dd0 du0 s1 /\
      (do _ <- for_each (map teamf (seq 0 2)) (fun f => for_each (seq 0 (length (sf_terms f))) (fun x => sum_up f x));
       do _ <- for_each (map likf (seq 0 n)) lik_up;
       ret prior_layer) s1 = Some (s, layer).
  Proof.
    intros HT Hd He R z. eapply run_pre in R; eauto. cbv zeta in R. fold z in R. destruct R as (s2 & E1 & R).
    apply bind_inv in R as (s1 & u1 & R1 & R). eapply sweeps_St in R1; [|auto|exact E1]. clear E1 s2.
    apply bind_inv in R as (s2 & u2 & R2 & R). eapply diff_up_St in R2; [|exact R1|lia|auto]. clear R1 s1.
    apply bind_inv in R as (s1 & u3 & R1 & R). cbn [Nat.sub nth] in R1. eapply diff_up_St in R1; [|exact R2|lia|auto]. clear R2 s2.
    conv R1 (St pr0 z pl0 z tt0 td0 dd0 du0).
    { intros t Ht. unfold upf. destruct t as [|[|t]]; [auto|auto|lia]. }
    exists s1. split; [exact R1|exact R].
  Qed.
  Lemma run_two trs dp md s layer : (forall i, (i < n)%nat -> 0 < wi i) ->
    length trs = 2%nat ->
    N.eqb (mto_rank (snd (nth 0 trs (nil, mto_new 0)))) (mto_rank (snd (nth 1 trs (nil, mto_new 0)))) = draw ->
    ts_draw_margin dp (Fin beta) (fsum [flen (fst (nth 0 trs (nil, mto_new 0))); flen (fst (nth 1 trs (nil, mto_new 0)))]) = Fin e ->
    run_schedule [a; n] trs (map ts_in ps) (map Fin ws) (Fin tau) (Fin beta) dp md (fun _ => var_new) = Some (s, layer) ->
    layer = prior_layer /\ exists pl pt tt td dd du, St pr0 rl0 pl pt tt td dd du s.
  Proof.
    intros HW HT Hd He R. eapply run_down in R; eauto. cbv zeta in R. set (z := fun _ : nat => (0, 0)) in *. destruct R as (s1 & R1 & R).
    (* team sums upwards *)
    apply bind_inv in R as (s2 & u4 & R2 & R).
    apply (for_each_seq (fun k s => St pr0 z pl0 (fun i => if Nat.ltb (tm i) k then pt0 i else (0, 0)) tt0 td0 dd0 du0 s)) in R2.
    2: { eapply St_ext; [exact R1| | |reflexivity|reflexivity]; cbv beta; auto. }
    2: { clear R1 R R2 s2. intros t s3 s4 y Ht I R. replace (length (sf_terms (teamf t))) with (sz t) in R by (cbn [teamf sf_terms]; now rewrite map_length, seq_length).
         rewrite <- (map_id (seq 0 (sz t))) in R.
         apply (for_each_seq (fun k s => St pr0 z pl0 (fun i => if (Nat.ltb (tm i) t || (Nat.eqb (tm i) t && Nat.ltb (i - off t) k))%bool then pt0 i else (0, 0)) tt0 td0 dd0 du0 s)) in R.
         - cbn [Nat.add] in R. eapply St_ext; [exact R| | |reflexivity|reflexivity]; cbv beta; auto. intros j Hj. split; [auto|]. split; [auto|]. split; [auto|].
           destruct (in_team j Hj) as (k & Hk & Ej).
           destruct (Nat.ltb_spec (tm j) t), (Nat.eqb_spec (tm j) t), (Nat.ltb_spec (tm j) (S t)), (Nat.ltb_spec (j - off t) (sz t)); cbn [orb andb]; auto; try lia. subst t. lia.
         - eapply St_ext; [exact I| | |reflexivity|reflexivity]; cbv beta; auto. intros j Hj. split; [auto|]. split; [auto|]. split; [auto|].
           change (Nat.ltb (j - off t) 0) with false. now rewrite andb_false_r, orb_false_r.
         - clear I R s3 s4. intros x s3 s4 y' Hx I R. eapply team_up_St in R; [|exact I|lia|lia|apply HW; apply off_sz; lia|auto|auto]. eapply St_ext; [exact R| | |reflexivity|reflexivity]; cbv beta; auto.
           intros j Hj. split; [auto|]. split; [auto|]. split; [auto|]. unfold upf. destruct (off_sz t x) as [Lx Tx]; [lia|lia|]. destruct (in_team j Hj) as (k & Hk & Ej).
           destruct (Nat.eqb_spec j (off t + x)) as [->|N].
           + rewrite Tx, Nat.ltb_irrefl, Nat.eqb_refl. replace (off t + x - off t)%nat with x by lia. rewrite (proj2 (Nat.ltb_lt x (S x))) by lia. reflexivity.
           + destruct (Nat.ltb_spec (tm j) t); cbn [orb]; auto. destruct (Nat.eqb_spec (tm j) t) as [<-|]; cbn [andb]; auto.
             destruct (Nat.ltb_spec (j - off (tm j)) x), (Nat.ltb_spec (j - off (tm j)) (S x)); auto; lia. }
    cbn [Nat.add] in R2. conv R2 (St pr0 z pl0 pt0 tt0 td0 dd0 du0).
    { intros j Hj. rewrite (proj2 (Nat.ltb_lt (tm j) 2)) by apply tm_le. auto. }
    (* likelihood up *)
    apply bind_inv in R as (s3 & u5 & R3 & R). apply ret_inv in R as [-> ->]. split; [reflexivity|].
    apply (for_each_seq (fun k s => St pr0 (fun i => if Nat.ltb i k then rl0 i else (0, 0)) pl0 pt0 tt0 td0 dd0 du0 s)) in R3.
    2: { eapply St_ext; [exact R2| | |reflexivity|reflexivity]; cbv beta; auto. }
    2: { clear R1 R2 R3. intros i s4 s5 y Hi I R. eapply lik_up_St in R; [|exact I|lia|reflexivity|apply pt0_var; [lia|apply HW; lia]]. eapply St_ext; [exact R| | |reflexivity|reflexivity]; cbv beta; auto.
         intros j Hj. split; [auto|]. split; [|auto]. unfold upf. destruct (Nat.eqb_spec j i), (Nat.ltb_spec j i), (Nat.ltb_spec j (S i)); subst; auto; try lia.
         all: unfold rl0; f_equal; ring. }
    exists pl0, pt0, tt0, td0, dd0, du0. cbn [Nat.add] in R3. eapply St_ext; [exact R3| | |reflexivity|reflexivity]; cbv beta; auto.
    intros j Hj. rewrite (proj2 (Nat.ltb_lt j n)) by auto. auto.
  Qed.
  Lemma final_gauss i : (i < n)%nat -> 0 < wi i ->
    g_mu (fg (pad (pr0 i) (rl0 i))) = Fin (mi i + sg (tm i) * (wi i * Si i / cc * vv)) /\
    g_sigma (fg (pad (pr0 i) (rl0 i))) = Fin (sqrt (Si i * (1 - wi i ^ 2 * Si i / Cq * wv))).
  Proof.
    intros Hi W. pose proof (Si_pos _ Hi) as SP. pose proof (pt0_var _ Hi W) as PP. pose proof B_nonneg as BP. pose proof Cq_pos as CP. pose proof cc_pos as cP.
    pose proof cc_sq as CS. assert (RV : 0 < Cq / wv / wi i ^ 2 - Si i) by lra. set (Q := Cq / wv / wi i ^ 2 - Si i) in *.
    assert (EQ : fst (pad (pr0 i) (rl0 i)) = / (Si i) + / Q) by reflexivity.
    assert (IS : 0 < / Si i) by now apply Rinv_0_lt_compat. assert (IQ : 0 < / Q) by now apply Rinv_0_lt_compat.
    rewrite fg_mu, fg_sigma by (rewrite EQ; lra). rewrite EQ. 
    assert (PI : / (/ Si i + / Q) = Si i * (1 - wi i ^ 2 * Si i / Cq * wv)).
    { assert (QE : Q = (Cq - Si i * wv * wi i ^ 2) / (wv * wi i ^ 2)) by (unfold Q; field; repeat split; lra).
      assert (NN : Cq - Si i * wv * wi i ^ 2 <> 0). { intros Z. rewrite Z in QE. unfold Rdiv in QE. rewrite Rmult_0_l in QE. lra. }
      assert (ESQ : Si i + Q = Cq / wv / wi i ^ 2) by (unfold Q; ring).
      replace (/ (/ Si i + / Q)) with (Si i * Q / (Si i + Q)) by (field; lra). rewrite ESQ, QE. field. repeat split; lra. }
    split; f_equal.
    - replace (snd (pad (pr0 i) (rl0 i))) with (mi i / Si i + (mi i + sg (tm i) * xs / wi i) / Q) by reflexivity.
      replace ((mi i / Si i + (mi i + sg (tm i) * xs / wi i) / Q) / (/ Si i + / Q)) with (mi i + sg (tm i) * xs / wi i * (Si i / (Si i + Q))) by (field; repeat split; lra).
      replace (Si i + Q) with (Cq / wv / wi i ^ 2) by (unfold Q; ring). unfold xs. rewrite <- CS. field. repeat split; lra.
    - f_equal. exact PI.
  Qed.

  (** *** A weight of zero *)
  Lemma sum_up_keep (f : SumFactor (F:=XR)) x v s s' d : sum_up f x s = Some (s', d) -> nth_error (sf_terms f) x <> Some v -> s' v = s v.
  Proof.
    intros R N. unfold sum_up in R. apply bind_inv in R as (s1 & co & R1 & R). apply of_option_inv in R1 as [-> R1].
    apply bind_inv in R as (s1 & va & R2 & R). apply of_option_inv in R2 as [-> R2]. apply sum_update_inv in R. destruct (fold_left _ _ _) as [p q]. cbv zeta in R.
    apply R. congruence.
  Qed.
  Lemma for_each_keep {X Y} (l : list X) (body : X -> M XR Y) v s s' u : for_each l body s = Some (s', u) ->
    (forall x s1 s2 y, In x l -> body x s1 = Some (s2, y) -> s2 v = s1 v) -> s' v = s v.
  Proof.
    revert s. induction l as [|x l IH]; intros s R K; cbn [for_each] in R.
    - apply ret_inv in R as [-> _]. reflexivity.
    - apply bind_inv in R as (s1 & y & R1 & R). apply K in R1; [|now left]. apply IH in R; [congruence|]. intros; eapply K; eauto. now right.
  Qed.
  Lemma zero_up s s' d : let z := fun _ : nat => (0, 0) in St pr0 z pl0 z tt0 td0 dd0 du0 s -> wi 0 = 0 -> sum_up (teamf 0) 0 s = Some (s', d) ->
    gauss s' n = mkG (Inf false) NaN /\ emsg s' n n = fg (pl0 0).
  Proof.
    intros z H W0 R. pose proof H as (H1 & H2 & H3 & H4). unfold sum_up in R. apply bind_inv in R as (s1 & co & R1 & R). apply of_option_inv in R1 as [-> R1].
    apply bind_inv in R as (s1 & va & R2 & R). apply of_option_inv in R2 as [-> R2].
    cbn [teamf sf_id sf_sum sf_terms sf_coeffs] in R, R1, R2. apply nth_error_map_seq in R1 as [_ ->]. apply nth_error_map_seq in R2 as [Hx ->].
    destruct (td0_eq 0 ltac:(lia)) as [TD TP]. destruct (off_sz 0 0 ltac:(lia) Hx) as [Lx Tx]. cbn [off Nat.add] in *.
    unfold sum_up_coeffs in R. rewrite enumerate_map_seq, map_map in R. rewrite list_set_map in R. cbn [fst snd Nat.add] in R.
    apply sum_update_inv in R. 
    rewrite (map_ext_in _ (fun _ => Fin 0) (seq 0 (sz 0))) in R.
    2: { intros k _. rewrite W0, !xr_ofZ, xr_eqb, Reqb_true by auto. reflexivity. }
    rewrite map_map, combine_map in R.
    pose (m := fun k : nat => if Nat.eqb k 0 then (Mt 0 + sg 0 * xs, Cq / wv - Vt 0) else (mi k, Si k + B)).
    rewrite (map_ext_in _ (fun k => (fun q => (fg (fst q), Fin (snd q))) (nrm (fst (m k)) (snd (m k)), 0)) (seq 0 (sz 0))) in R.
    2: { intros k Hk. apply in_seq in Hk. unfold m. cbn [fst snd]. f_equal. destruct (Nat.eqb_spec k 0) as [->|N]; cbn [fst snd].
         - destruct (H3 0%nat ltac:(lia)) as (T1 & T2 & T3). rewrite T1, T2, fg_cav', TD. reflexivity.
         - destruct (off_sz 0 k) as [L Et]; [lia|lia|]. cbn [off Nat.add] in L, Et. destruct (H2 _ L) as (P1 & P2 & P3). rewrite Et in P3. rewrite P1, P3, fg_cav. reflexivity. }
    rewrite <- (map_map (fun k => (nrm (fst (m k)) (snd (m k)), 0)) (fun q => (fg (fst q), Fin (snd q)))) in R.
    rewrite xr_ofZ, sum_fold in R.
    2: { apply Forall_map, Forall_forall. intros k Hk. apply in_seq in Hk. cbn [fst nrm]. apply Rinv_neq_0_compat. unfold m. destruct (Nat.eqb_spec k 0) as [->|N]; cbn [snd]; [lra|].
         destruct (off_sz 0 k) as [L Et]; [lia|lia|]. cbn [off Nat.add] in L. pose proof (Si_pos _ L). pose proof B_nonneg. lra. }
    rewrite !map_map in R. cbn [fst snd] in R.
    rewrite (map_ext (fun x => 0 ^ 2 / _) (fun _ => 0)) in R by (intros; unfold Rdiv; ring).
    rewrite (map_ext (fun x => 0 * _) (fun _ => 0)) in R by (intros; ring).
    assert (RZ : forall l : list nat, Rsum (map (fun _ => 0) l) = 0) by (clear; induction l as [|y l IH]; [reflexivity|]; cbn [map]; rewrite Rsum_cons, IH; ring).
    rewrite RZ, Rplus_0_r in R. cbv zeta in R. 
    assert (RI : frecip (Fin 0) = Inf false).
    { change (xdiv (Fin 1) (Fin 0) = Inf false). unfold xdiv. rewrite Reqb_true, Reqb_false by lra. f_equal. unfold Rltb. destruct (Rlt_dec 1 0); [lra|reflexivity]. }
    assert (MI : fmul (Inf false) (Fin 0) = NaN) by (change (xmul (Inf false) (Fin 0) = NaN); unfold xmul; now rewrite Reqb_true).
    rewrite RI, MI in R. destruct (H2 _ Lx) as (P1 & P2 & P3). rewrite Tx in P3. destruct R as (C1 & C2 & C3 & C4). specialize (C3 n). rewrite !Nat.add_0_r in *. split.
    - rewrite C1. rewrite P1, P3, fg_cav. reflexivity.
    - rewrite C3 by lia. rewrite P2. reflexivity.
  Qed.
  Lemma zero_lik s s' d : gauss s n = mkG (Inf false) NaN -> emsg s n n = fg (pl0 0) -> lik_up (likf 0) s = Some (s', d) -> gauss s' 0 = mkG NaN NaN.
  Proof.
    intros G E R. unfold lik_up in R. apply bind_inv in R as (s1 & g & R1 & R). apply cavity_inv in R1 as [-> ->]. cbn [likf lf_mean lf_value lf_id] in R.
    rewrite Nat.add_0_r in *. rewrite G, E in R. cbv zeta in R. apply update_message_inv in R. destruct R as (C1 & _). rewrite C1.
    match goal with |- g_mul ?x (mkG (fmul ?a (g_pi ?y)) ?t) = _ => assert (A1 : g_pi y = Inf false) by reflexivity; assert (A2 : g_tau y = NaN) by reflexivity;
      assert (A3 : fmul a (g_pi y) = NaN) end.
    { rewrite A1. unfold lik_calc_a. rewrite A1. cbn [lf_variance likf].
      change (fpowi (Fin beta) 2) with (Fin (beta * beta)). rewrite xr_ofZ.
      change (ffma (Fin (beta * beta)) (Inf false) (Fin 1)) with (xadd (xmul (Fin (beta * beta)) (Inf false)) (Fin 1)). unfold xmul. unfold Reqb. destruct (Req_EM_T (beta * beta) 0) as [Z|Z]; [reflexivity|].
      unfold xadd. assert (RI : forall b, frecip (Inf b) = Fin 0) by reflexivity. rewrite RI. change (xmul (Fin 0) (Inf false) = NaN). unfold xmul. now rewrite Reqb_true. }
    unfold g_mul. cbn [g_pi g_tau]. rewrite A3, A2.
    assert (N1 : forall x : XR, fadd x NaN = NaN) by (intros [? | |]; reflexivity). assert (N2 : forall x : XR, fmul x NaN = NaN) by (intros [? | |]; reflexivity).
    rewrite N2, !N1. reflexivity.
  Qed.
  Lemma run_zero trs dp md s layer : wi 0 = 0 ->
    length trs = 2%nat ->
    N.eqb (mto_rank (snd (nth 0 trs (nil, mto_new 0)))) (mto_rank (snd (nth 1 trs (nil, mto_new 0)))) = draw ->
    ts_draw_margin dp (Fin beta) (fsum [flen (fst (nth 0 trs (nil, mto_new 0))); flen (fst (nth 1 trs (nil, mto_new 0)))]) = Fin e ->
    run_schedule [a; n] trs (map ts_in ps) (map Fin ws) (Fin tau) (Fin beta) dp md (fun _ => var_new) = Some (s, layer) ->
    layer = prior_layer /\ gauss s 0 = mkG NaN NaN.
  Proof.
    intros W0 HT Hd He R. eapply run_down in R; eauto. cbv zeta in R. destruct R as (s1 & ST & R).
    apply bind_inv in R as (s2 & u & R1 & R). apply bind_inv in R as (s3 & u3 & R2 & R). apply ret_inv in R as [-> ->]. split; [reflexivity|].
    cbn [seq map for_each] in R1. apply bind_inv in R1 as (s4 & y & R1 & R3). apply bind_inv in R3 as (s5 & y5 & R3 & R4). apply ret_inv in R4 as [-> _].
    replace (length (sf_terms (teamf 0))) with (S (a - 1)) in R1 by (cbn [teamf sf_terms sz]; rewrite map_length, seq_length; lia).
    cbn [seq for_each] in R1. apply bind_inv in R1 as (s6 & y6 & R1 & R5). apply zero_up in R1 as [G1 G2]; auto.
    apply (for_each_keep _ _ n) in R5.
    2: { intros x s7 s8 y' Hx K. apply in_seq in Hx. apply (sum_up_keep _ _ n) in K; auto. cbn [teamf sf_terms]. intros Z. apply nth_error_map_seq in Z as [_ Z]. lia. }
    apply (for_each_keep _ _ n) in R3.
    2: { intros x s7 s8 y' Hx K. apply (sum_up_keep _ _ n) in K; auto. cbn [teamf sf_terms off]. intros Z. apply nth_error_map_seq in Z as [_ Z]. lia. }
    assert (EN : n = S (n - 1)) by (unfold n; lia). rewrite EN in R2 at 1. cbn [seq map for_each] in R2. apply bind_inv in R2 as (s7 & y7 & R2 & R6).
    eapply zero_lik in R2.
    2: { unfold gauss in *. rewrite R3, R5. exact G1. }
    2: { unfold emsg in *. rewrite R3, R5. exact G2. }
    apply (for_each_keep _ _ 0%nat) in R6; [unfold gauss in *; now rewrite R6|].
    intros f s8 s9 y' Hf K. apply in_map_iff in Hf as (i & <- & Hi). apply in_seq in Hi. unfold lik_up in K. apply bind_inv in K as (s10 & g & K1 & K). apply cavity_inv in K1 as [-> ->].
    cbv zeta in K. apply update_message_inv in K. apply K. cbn [likf lf_mean]. lia.
  Qed.
End Two.
