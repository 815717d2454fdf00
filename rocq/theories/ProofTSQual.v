(** Proofs about [match_quality_multi_team]. *)
From Coq Require Import ZArith NArith List Bool Lia Arith.PeanoNat Permutation Reals Lra.
From Verif Require Import Arith XR Tac ModelLib ModelWengLin ModelTS ModelTSMatrix Spec SpecTS SpecInTS MathDet ProofWengLin ProofTS.
Import ListNotations.
Local Open Scope R_scope.

(** * Matrices of finite entries *)
Lemma nth_flat_rows {X} (f : nat -> nat -> X) d cols : forall rows s i j, (i < rows)%nat -> (j < cols)%nat ->
  nth (i * cols + j) (flat_map (fun i => map (fun j => f i j) (seq 0 cols)) (seq s rows)) d = f (s + i)%nat j.
Proof.
  induction rows as [|rows IH]; intros s i j Hi Hj; [lia|]. cbn [seq flat_map].
  assert (L : length (map (fun j => f s j) (seq 0 cols)) = cols) by now rewrite map_length, seq_length.
  destruct i as [|i].
  - cbn [Nat.mul Nat.add]. rewrite app_nth1 by (rewrite L; lia). rewrite (nth_indep _ d (f s O)) by (rewrite L; lia).
    rewrite map_nth. rewrite seq_nth by lia. rewrite Nat.add_0_r. reflexivity.
  - rewrite app_nth2 by (rewrite L; cbn [Nat.mul]; lia). rewrite L. replace (S i * cols + j - cols)%nat with (i * cols + j)%nat by (cbn [Nat.mul]; lia).
    rewrite IH by lia. f_equal. lia.
Qed.
Definition isM (m : Matrix XR) (r c : nat) (f : nat -> nat -> R) : Prop :=
  m_rows m = r /\ m_cols m = c /\ forall i j, (i < r)%nat -> (j < c)%nat -> mat_get m i j = Fin (f i j).
Lemma mat_get_build r c (f : nat -> nat -> XR) i j : (i < r)%nat -> (j < c)%nat -> mat_get (mat_build r c f) i j = f i j.
Proof. intros Hi Hj. unfold mat_get, mat_build. cbn [m_cols m_data]. now rewrite nth_flat_rows. Qed.
Lemma isM_build r c (g : nat -> nat -> XR) f : (forall i j, (i < r)%nat -> (j < c)%nat -> g i j = Fin (f i j)) -> isM (mat_build r c g) r c f.
Proof. intros H. repeat split. intros. rewrite mat_get_build by auto. auto. Qed.
Lemma isM_ext m r c f g : isM m r c f -> (forall i j, (i < r)%nat -> (j < c)%nat -> f i j = g i j) -> isM m r c g.
Proof. intros (R1 & R2 & H) E. repeat split; auto. intros. rewrite H, E by auto. reflexivity. Qed.
Lemma isM_transpose m r c f : isM m r c f -> isM (mat_transpose m) c r (fun i j => f j i).
Proof. intros (R1 & R2 & H). unfold mat_transpose. rewrite R1, R2. apply isM_build. auto. Qed.
Lemma fold_sg n (g : nat -> XR) f : (forall k, (k < n)%nat -> g k = Fin (f k)) -> fold_left fadd (map g (seq 0 n)) (#0)%flt = Fin (Sg n f).
Proof.
  intros H. rewrite (map_ext_in g (fun k => Fin (f k))) by (intros k K; apply in_seq in K; apply H; lia).
  rewrite <- (map_map f Fin). change (#0)%flt with (Fin (IZR 0)). rewrite xr_fold_add. f_equal. unfold Sg. cbn. ring.
Qed.
Lemma isM_mul a b r c n f g : isM a r n f -> isM b n c g ->
  exists m, mat_mul a b = Some m /\ isM m r c (fun i j => Sg n (fun k => f i k * g k j)).
Proof.
  intros (R1 & R2 & H) (Q1 & Q2 & G). unfold mat_mul. rewrite R1, R2, Q1, Q2, Nat.eqb_refl. eexists; split; [reflexivity|].
  apply isM_build. intros i j Hi Hj. apply fold_sg. intros k Hk. rewrite H, G by auto. reflexivity.
Qed.
Lemma isM_mul_t a b r c n n' f g : isM a n r f -> isM b c n g -> r = n' -> n' <> c ->
  exists m, mat_mul a b = Some m /\ isM m r c (fun i j => Sg n (fun k => f k i * g j k)).
Proof.
  intros (R1 & R2 & H) (Q1 & Q2 & G) <- NE. unfold mat_mul. rewrite R1, R2, Q1, Q2, Nat.eqb_refl.
  destruct (Nat.eqb_spec r c); [congruence|]. eexists; split; [reflexivity|].
  apply isM_build. intros i j Hi Hj. apply fold_sg. intros k Hk. rewrite H, G by auto. reflexivity.
Qed.
Lemma isM_add a b r c f g : isM a r c f -> isM b r c g ->
  exists m, mat_add a b = Some m /\ isM m r c (fun i j => f i j + g i j).
Proof.
  intros (R1 & R2 & H) (Q1 & Q2 & G). unfold mat_add. rewrite R1, R2, Q1, Q2, !Nat.eqb_refl. cbn [andb]. eexists; split; [reflexivity|].
  apply isM_build. intros i j Hi Hj. rewrite H, G by auto. reflexivity.
Qed.
Lemma isM_scale a r c f x : isM a r c f -> isM (mat_scale a (Fin x)) r c (fun i j => f i j * x).
Proof. intros (R1 & R2 & H). unfold mat_scale. rewrite R1, R2. apply isM_build. intros i j Hi Hj. rewrite H by auto. reflexivity. Qed.
Lemma powi_sgn i : fpowi (#(-1))%flt (Z.of_nat i) = Fin (sgn i).
Proof.
  change (#(-1))%flt with (Fin (-1)). unfold sgn. destruct i as [|i]; [reflexivity|]. unfold fpowi. rewrite <- Pos2Z.inj_succ || cbn [Z.of_nat].
  rewrite xr_powpos. f_equal. f_equal. apply SuccNat2Pos.id_succ.
Qed.
Lemma mat_det_fin n : forall m f, isM m (S n) (S n) f -> mat_det (S n) m = Fin (rdet (S n) f).
Proof.
  induction n as [|n IH]; intros m f M.
  - destruct M as (R1 & R2 & H). cbn [mat_det]. rewrite H by lia. f_equal. rewrite rdet_S, Sg_S, Sg_nil, sgn_0. cbn [rdet]. ring.
  - rewrite rdet_S. pose proof M as (R1 & R2 & H). 
    change (mat_det (S (S n)) m) with (fold_left fadd (map (fun i => mat_get m 0 i * mat_det (S n) (mat_minor m 0 i) * fpowi (#(-1)) (Z.of_nat i))%flt (seq 0 (m_rows m))) (#0)%flt).
    rewrite R1. apply fold_sg. intros i Hi. rewrite powi_sgn, H by lia. rewrite (IH _ (mnr f 0 i)); [reflexivity|].
    unfold mat_minor. rewrite R1, R2. cbn [Nat.sub]. apply isM_build. intros a b Ha Hb. unfold mnr. apply H; [destruct (Nat.ltb a 0); lia|destruct (Nat.ltb b i); lia].
Qed.
Lemma isM_det m n f : isM m (S n) (S n) f -> mat_determinant m = Some (Fin (rdet (S n) f)).
Proof. intros M. pose proof M as (R1 & R2 & _). unfold mat_determinant. rewrite R1, R2, Nat.eqb_refl. f_equal. now apply mat_det_fin. Qed.
Lemma isM_inverse m n f : isM m (S (S n)) (S (S n)) f -> rdet (S (S n)) f <> 0 ->
  exists m', mat_inverse m = Some m' /\ isM m' (S (S n)) (S (S n)) (fun i j => rdet (S n) (mnr f j i) * sgn (i + j) * / rdet (S (S n)) f).
Proof.
  intros M D. unfold mat_inverse. rewrite (isM_det _ _ _ M). change (#0)%flt with (Fin 0). rewrite xr_eqb. rewrite (Reqb_false _ _ D). eexists; split; [reflexivity|].
  rewrite xr_recip by auto. apply isM_scale. pose proof M as (R1 & R2 & H). unfold mat_adjugate. rewrite R1, R2. apply isM_build. intros i j Hi Hj.
  rewrite powi_sgn. cbn [Nat.sub]. rewrite (mat_det_fin _ _ (mnr f j i)); [reflexivity|]. unfold mat_minor. rewrite R1, R2. cbn [Nat.sub]. apply isM_build.
  intros a b Ha Hb. unfold mnr. apply H; [destruct (Nat.ltb a j); lia|destruct (Nat.ltb b i); lia].
Qed.
Lemma isM_inverse_0 m n f : isM m (S n) (S n) f -> rdet (S n) f = 0 -> mat_inverse m = None.
Proof. intros M D. unfold mat_inverse. rewrite (isM_det _ _ _ M), D. change (#0)%flt with (Fin 0). rewrite xr_eqb. now rewrite (Reqb_true 0 0 eq_refl). Qed.
Lemma isM_diag (l : list R) : isM (mat_diagonal (map Fin l)) (length l) (length l) (fun i j => if Nat.eqb i j then nth i l 0 else 0).
Proof.
  unfold mat_diagonal. rewrite map_length. apply isM_build. intros i j Hi Hj. destruct (Nat.eqb i j); [|reflexivity].
  change (#0)%flt with (Fin 0). apply map_nth.
Qed.
Lemma isM_column (l : list R) : isM (mat_from_data (map Fin l) (length l) 1) (length l) 1 (fun i _ => nth i l 0).
Proof.
  repeat split. intros i j Hi Hj. unfold mat_get. cbn [mat_from_data m_cols m_data]. replace (i * 1 + j)%nat with i by lia.
  change (#0)%flt with (Fin 0). apply map_nth.
Qed.

(** * The quality in terms of disjoint blocks of weights *)
Lemma Sg_one n f k : (k < n)%nat -> (forall i, (i < n)%nat -> i <> k -> f i = 0) -> Sg n f = f k.
Proof.
  revert f k. induction n as [|n IH]; intros f k Hk H; [lia|]. rewrite Sg_S. destruct k as [|k].
  - rewrite Sg_0; [ring|]. intros i I. apply H; lia.
  - rewrite (H O) by lia. rewrite (IH (fun i => f (S i)) k); [ring|lia|]. intros i I N. apply H; lia.
Qed.
Section Blocks.
  Variables (N : nat) (E : nat -> nat -> R).
  Hypothesis orth : forall s t k, s <> t -> E s k * E t k = 0.
  Definition row i k := E i k - E (S i) k.
  Definition VV (y : nat -> R) t := Sg N (fun k => E t k ^ 2 * y k).
  Lemma rows_tri y i j : Sg N (fun k => row i k * row j k * y k) = tri (VV y) i j.
  Proof.
    unfold tri, VV, row. destruct (Nat.eqb_spec i j) as [<-|N1].
    - rewrite <- Sg_plus. apply Sg_ext. intros k _. pose proof (orth i (S i) k ltac:(lia)) as O1.
      replace ((E i k - E (S i) k) * (E i k - E (S i) k) * y k) with ((E i k ^ 2 - 2 * (E i k * E (S i) k) + E (S i) k ^ 2) * y k) by ring. rewrite O1. ring.
    - destruct (Nat.eqb_spec j (S i)) as [->|N2].
      + replace (- Sg N (fun k => E (S i) k ^ 2 * y k)) with (-1 * Sg N (fun k => E (S i) k ^ 2 * y k)) by ring. rewrite <- Sg_scal. apply Sg_ext. intros k _.
        pose proof (orth i (S i) k ltac:(lia)) as O1. pose proof (orth i (S (S i)) k ltac:(lia)) as O2. pose proof (orth (S i) (S (S i)) k ltac:(lia)) as O3.
        replace ((E i k - E (S i) k) * (E (S i) k - E (S (S i)) k) * y k) with ((E i k * E (S i) k - E i k * E (S (S i)) k - E (S i) k ^ 2 + E (S i) k * E (S (S i)) k) * y k) by ring.
        rewrite O1, O2, O3. ring.
      + destruct (Nat.eqb_spec i (S j)) as [->|N3].
        * replace (- Sg N (fun k => E (S j) k ^ 2 * y k)) with (-1 * Sg N (fun k => E (S j) k ^ 2 * y k)) by ring. rewrite <- Sg_scal. apply Sg_ext. intros k _.
          pose proof (orth j (S j) k ltac:(lia)) as O1. pose proof (orth j (S (S j)) k ltac:(lia)) as O2. pose proof (orth (S j) (S (S j)) k ltac:(lia)) as O3.
          replace ((E (S j) k - E (S (S j)) k) * (E j k - E (S j) k) * y k) with ((E j k * E (S j) k - E j k * E (S (S j)) k - E (S j) k ^ 2 + E (S j) k * E (S (S j)) k) * y k) by ring.
          rewrite O1, O2, O3. ring.
        * apply Sg_0. intros k _. pose proof (orth i j k ltac:(lia)) as O1. pose proof (orth i (S j) k ltac:(lia)) as O2.
          pose proof (orth (S i) j k ltac:(lia)) as O3. pose proof (orth (S i) (S j) k ltac:(lia)) as O4.
          replace ((E i k - E (S i) k) * (E j k - E (S j) k)) with (E i k * E j k - E i k * E (S j) k - E (S i) k * E j k + E (S i) k * E (S j) k) by ring.
          rewrite O1, O2, O3, O4. ring.
  Qed.
  Lemma rows_dif m i : Sg N (fun k => row i k * m k) = dif (fun t => Sg N (fun k => E t k * m k)) i.
  Proof.
    unfold dif, row. replace (Sg N (fun k => E i k * m k) - Sg N (fun k => E (S i) k * m k)) with (Sg N (fun k => E i k * m k) + -1 * Sg N (fun k => E (S i) k * m k)) by ring.
    rewrite <- Sg_scal, <- Sg_plus. apply Sg_ext. intros. ring.
  Qed.

  Variables (x m : nat -> R) (beta : R) (n : nat) (rot mean var : Matrix XR).
  Hypothesis Hrot : isM rot (S (S n)) N row.
  Hypothesis Hmean : isM mean N 1 (fun k _ => m k).
  Hypothesis Hvar : isM var N N (fun i j => if Nat.eqb i j then x i else 0).
  Hypothesis x0 : forall k, 0 <= x k.
  Let V := VV (fun k => x k + beta ^ 2).
  Let B := VV (fun _ => beta ^ 2).
  Let M t := Sg N (fun k => E t k * m k).
  Lemma Sg_nonneg k f : (forall i, (i < k)%nat -> 0 <= f i) -> 0 <= Sg k f.
  Proof. intros H. unfold Sg. apply Rsum_nonneg. intros z Hz. apply in_map_iff in Hz as (i & <- & I). apply in_seq in I. apply H. lia. Qed.
  Lemma VV_nonneg y t : (forall k, 0 <= y k) -> 0 <= VV y t.
  Proof. intros H. apply Sg_nonneg. intros i _. apply Rmult_le_pos; [apply pow2_ge_0|auto]. Qed.
  Lemma Pi_nonneg k : forall f, (forall t, 0 <= f t) -> 0 <= Pi k f.
  Proof. induction k as [|k IH]; intros f H; cbn [Pi]; [lra|]. apply Rmult_le_pos; auto. apply IH. intros t. apply H. Qed.
  Lemma El_nonneg k : forall f, (forall t, 0 <= f t) -> 0 <= El k f.
  Proof.
    induction k as [|k IH]; intros f H; cbn [El]; [lra|]. assert (0 <= f O * El k (sh f)) by (apply Rmult_le_pos; auto; apply IH; intros t; apply H).
    pose proof (Pi_nonneg (S k) (sh f) (fun t => H (S t))). cbn [Pi] in *. lra.
  Qed.
  Lemma rdet_tri' k f g : (forall i j, f i j = tri g i j) -> rdet k f = El k g.
  Proof. intros H. rewrite (rdet_ext k f (tri g)) by auto. apply rdet_tri. Qed.
  Theorem quality_blocks : quality_of_matrices rot mean var (Fin beta) =
    if Req_EM_T (El (S (S n)) V) 0 then None
    else Some (Fin (exp (- / 2 * (QQ (S (S (S n))) V M / El (S (S n)) V)) * sqrt (El (S (S n)) B / El (S (S n)) V))).
  Proof.
    unfold quality_of_matrices. pose proof (isM_transpose _ _ _ _ Hrot) as HA. pose proof (isM_transpose _ _ _ _ Hmean) as HmT. cbv zeta.
    destruct (isM_mul _ _ _ _ _ _ _ Hrot HA) as (ra & -> & Hra). cbn [obind].
    pose proof (isM_scale _ _ _ _ (beta * beta) Hra) as Hata. rewrite xr_powi2. set (ata := mat_scale ra (Fin (beta * beta))) in *.
    assert (Hata' : isM ata (S (S n)) (S (S n)) (tri B)).
    { eapply isM_ext; [exact Hata|]. intros i j Hi Hj. cbv beta. unfold B. rewrite <- rows_tri. rewrite Rmult_comm, <- Sg_scal. apply Sg_ext. intros. ring. }
    destruct (isM_mul _ _ _ _ _ _ _ Hrot Hvar) as (rv & -> & Hrv). cbn [obind].
    destruct (isM_mul _ _ _ _ _ _ _ Hrv HA) as (atsa & -> & Hatsa). cbn [obind].
    destruct (isM_mul_t _ _ (S (S n)) 1 N (S (S n)) _ _ HA HmT eq_refl ltac:(lia)) as (start & -> & Hstart). cbn [obind].
    destruct (isM_add _ _ _ _ _ _ Hata' Hatsa) as (mid & -> & Hmid). cbn [obind].
    assert (Hmid' : isM mid (S (S n)) (S (S n)) (tri V)).
    { eapply isM_ext; [exact Hmid|]. intros i j Hi Hj. cbv beta. unfold V, B. rewrite <- !rows_tri, <- Sg_plus. apply Sg_ext. intros k Hk.
      rewrite (Sg_one N _ k Hk); [rewrite Nat.eqb_refl; ring|]. intros q _ Q. destruct (Nat.eqb_spec q k); [congruence|ring]. }
    destruct (isM_mul _ _ _ _ _ _ _ Hrot Hmean) as (en & -> & Hend). cbn [obind].
    assert (Hend' : isM en (S (S n)) 1 (fun i _ => dif M i)).
    { eapply isM_ext; [exact Hend|]. intros i j Hi Hj. cbv beta. apply rows_dif. }
    assert (Hstart' : isM start (S (S n)) 1 (fun i _ => dif M i)).
    { eapply isM_ext; [exact Hstart|]. intros i j Hi Hj. cbv beta. apply rows_dif. }
    pose proof (proj1 (rdet_tri (S (S n)) V)) as DV. pose proof (proj1 (rdet_tri (S (S n)) B)) as DB.
    destruct (Req_EM_T (El (S (S n)) V) 0) as [Z|NZ].
    { rewrite (isM_inverse_0 _ _ _ Hmid') by congruence. reflexivity. }
    destruct (isM_inverse _ _ _ Hmid' ltac:(rewrite DV; exact NZ)) as (inv & -> & Hinv). cbn [obind]. rewrite DV in Hinv.
    destruct (isM_mul_t _ _ 1 (S (S n)) (S (S n)) 1 _ _ Hstart' Hinv eq_refl ltac:(lia)) as (si & -> & Hsi). cbn [obind].
    destruct (isM_mul _ _ _ _ _ _ _ Hsi Hend') as (sie & -> & Hsie). cbn [obind].
    rewrite xr_lit. pose proof (isM_scale _ _ _ _ (-5 / 10) Hsie) as Hs. rewrite (isM_det _ _ _ Hs). cbn [obind].
    rewrite (isM_det _ _ _ Hata'), (isM_det _ _ _ Hmid'). cbn [obind]. rewrite DV, DB.
    assert (0 <= El (S (S n)) B) by (apply El_nonneg; intros; apply VV_nonneg; intros; apply pow2_ge_0).
    assert (0 <= El (S (S n)) V) by (apply El_nonneg; intros; apply VV_nonneg; intros k; pose proof (x0 k); pose proof (pow2_ge_0 beta); lra).
    rewrite xr_div by exact NZ. rewrite xr_sqrt by (apply Rmult_le_pos; [auto|left; apply Rinv_0_lt_compat; lra]). rewrite xr_exp, xr_mul. f_equal. f_equal. f_equal. f_equal.
    rewrite rdet_S, Sg_S, Sg_nil, sgn_0. match goal with |- context [rdet 0 ?f] => change (rdet 0 f) with 1 end.
    destruct (quad_closed (S n) V M) as [<- _]. unfold quad.
    replace (- / 2 * (Sg (S (S n)) (fun r => Sg (S (S n)) (fun c => sgn r * sgn c * dif M r * dif M c * K (S n) V r c)) / El (S (S n)) V))
      with ((-5 / 10 * / El (S (S n)) V) * Sg (S (S n)) (fun r => Sg (S (S n)) (fun c => sgn r * sgn c * dif M r * dif M c * K (S n) V r c))) by (unfold Rdiv; lra).
    rewrite Rmult_1_r, Rmult_1_r, Rplus_0_r. rewrite (Rmult_comm _ (-5 / 10)), Rmult_assoc. f_equal. transitivity (Sg (S (S n)) (fun c => / El (S (S n)) V * Sg (S (S n)) (fun r => sgn r * sgn c * dif M r * dif M c * K (S n) V r c))).
    - apply Sg_ext. intros j Hj. rewrite Rmult_comm, <- !Sg_scal. apply Sg_ext. intros k Hk. unfold K, sgn. rewrite pow_add. ring.
    - rewrite Sg_scal. f_equal. unfold Sg. symmetry. apply Rsum_swap.
  Qed.
End Blocks.

(** * Blocks of weights *)
Fixpoint blk (ws : list (list R)) (t k : nat) : R :=
  match ws with
  | [] => 0
  | w :: ws' => match t with O => nth k w 0 | S t' => if Nat.ltb k (length w) then 0 else blk ws' t' (k - length w) end
  end.
Lemma blk_orth ws : forall s t k, s <> t -> blk ws s k * blk ws t k = 0.
Proof.
  induction ws as [|w ws IH]; intros s t k N; cbn [blk]; [ring|].
  destruct s as [|s], t as [|t]; [congruence| | |].
  - destruct (Nat.ltb_spec k (length w)); [ring|]. rewrite nth_overflow by lia. ring.
  - destruct (Nat.ltb_spec k (length w)); [ring|]. rewrite (nth_overflow w) by lia. ring.
  - destruct (Nat.ltb k (length w)); [ring|]. apply IH. congruence.
Qed.
Lemma nth_repeat0 n k : nth k (repeat (Fin 0) n) (Fin 0) = Fin 0.
Proof. revert k. induction n as [|n IH]; intros [|k]; cbn; auto. Qed.
Lemma rotated_nth total : forall (tw : list (list R)) prev i k,
  (prev + list_sum (map (@length R) tw) = total)%nat -> (S i < length tw)%nat -> (k < total)%nat ->
  nth (i * total + k) (rotated_rows total prev (map (map Fin) tw)) (Fin 0) =
  Fin (if Nat.ltb k prev then 0 else blk tw i (k - prev) - blk tw (S i) (k - prev)).
Proof.
  induction tw as [|w1 tw IH]; intros prev i k T I Kk; [cbn in I; lia|]. destruct tw as [|w2 tw]; [cbn in I; lia|].
  cbn [map list_sum fold_right] in T. change (fold_right Nat.add 0%nat (map (@length R) tw)) with (list_sum (map (@length R) tw)) in T.
  change (rotated_rows total prev (map (map Fin) (w1 :: w2 :: tw))) with
    (repeat (Fin 0) prev ++ map Fin w1 ++ map fneg (map Fin w2) ++ repeat (Fin 0) (total - (prev + length (map Fin w1)) - length (map Fin w2))
      ++ rotated_rows total (prev + length (map Fin w1)) (map (map Fin) (w2 :: tw))).
  rewrite !map_length. 
  assert (MN : map fneg (map Fin w2) = map Fin (map Ropp w2)) by (rewrite !map_map; reflexivity). rewrite MN.
  destruct i as [|i].
  - cbn [Nat.mul Nat.add]. destruct (Nat.ltb_spec k prev) as [A|A].
    { rewrite app_nth1 by (rewrite repeat_length; lia). now rewrite nth_repeat0. }
    rewrite app_nth2 by (rewrite repeat_length; lia). rewrite repeat_length. cbn [blk].
    destruct (Nat.ltb_spec (k - prev) (length w1)) as [B|B].
    { rewrite app_nth1 by (rewrite map_length; lia). rewrite (map_nth Fin). f_equal. ring. }
    rewrite app_nth2 by (rewrite map_length; lia). rewrite map_length. rewrite (nth_overflow w1) by lia.
    destruct (Nat.lt_ge_cases (k - prev - length w1) (length w2)) as [C|C].
    { rewrite app_nth1 by (rewrite !map_length; lia). rewrite (map_nth Fin). f_equal. rewrite Rminus_0_l. rewrite <- (map_nth Ropp). rewrite Ropp_0. reflexivity. }
    rewrite app_nth2 by (rewrite !map_length; lia). rewrite !map_length. rewrite app_nth1 by (rewrite repeat_length; lia).
    rewrite nth_repeat0, (nth_overflow w2) by lia. f_equal. ring.
  - rewrite !app_assoc. rewrite app_nth2 by (rewrite !app_length, !repeat_length, !map_length; cbn [Nat.mul]; lia).
    rewrite !app_length, !repeat_length, !map_length.
    replace (S i * total + k - (prev + length w1 + length w2 + (total - (prev + length w1) - length w2)))%nat with (i * total + k)%nat by (cbn [Nat.mul]; lia).
    rewrite IH; [|cbn [map list_sum fold_right]; change (fold_right Nat.add 0%nat (map (@length R) tw)) with (list_sum (map (@length R) tw)); lia|cbn [length] in *; lia|lia].
    f_equal. destruct (Nat.ltb_spec k prev) as [A|A].
    { destruct (Nat.ltb_spec k (prev + length w1)); [reflexivity|lia]. }
    cbn [blk]. destruct (Nat.ltb_spec k (prev + length w1)) as [B|B], (Nat.ltb_spec (k - prev) (length w1)) as [C|C]; try lia; [ring|].
    replace (k - prev - length w1)%nat with (k - (prev + length w1))%nat by lia. reflexivity.
Qed.
Lemma Sg_app a b f : Sg (a + b) f = Sg a f + Sg b (fun k => f (a + k)%nat).
Proof.
  revert f. induction a as [|a IH]; intros f; [rewrite Sg_nil; rewrite Rplus_0_l; reflexivity|]. cbn [Nat.add]. rewrite !Sg_S, IH, Rplus_assoc. reflexivity.
Qed.
Lemma Sg_list {X} (f : X -> R) d (l : list X) : Sg (length l) (fun k => f (nth k l d)) = Rsum (map f l).
Proof. induction l as [|x l IH]; [apply Sg_nil|]. cbn [length map]. rewrite Sg_S, Rsum_cons. cbn [nth]. now rewrite IH. Qed.
Lemma blk_sum (h : R -> wpl -> R) (d : wpl) : (forall x, h 0 x = 0) -> forall l t,
  Sg (length (concat l)) (fun k => h (blk (map (map snd) l) t k) (nth k (concat l) d)) = Rsum (map (fun x => h (snd x) x) (nth t l [])).
Proof.
  intros H0. induction l as [|x l IH]; intros t; [cbn [concat length]; rewrite Sg_nil; destruct t; reflexivity|].
  cbn [concat map blk]. rewrite app_length, Sg_app. destruct t as [|t]; cbn [nth].
  - rewrite (Sg_0 (length (concat l))), Rplus_0_r.
    + rewrite <- (Sg_list (fun y => h (snd y) y) d x). apply Sg_ext. intros k Hk. rewrite app_nth1 by auto. f_equal.
      rewrite (nth_indep _ 0 (snd d)) by (now rewrite map_length). apply map_nth.
    + intros k Hk. rewrite nth_overflow by (rewrite map_length; lia). apply H0.
  - rewrite Sg_0, Rplus_0_l.
    + rewrite <- IH. apply Sg_ext. intros k Hk. rewrite map_length. destruct (Nat.ltb_spec (length x + k) (length x)); [lia|].
      replace (length x + k - length x)%nat with k by lia. now rewrite app_nth2_plus.
    + intros k Hk. rewrite map_length. destruct (Nat.ltb_spec k (length x)); [apply H0|lia].
Qed.
Lemma El_others l : forall n, length l = S n -> El n (fun t => nth t l 0) = others l.
Proof.
  assert (P : forall l, Pi (length l) (fun t => nth t l 0) = fold_right Rmult 1 l).
  { induction l0 as [|v l0 IH]; [reflexivity|]. cbn [length Pi nth fold_right]. f_equal. exact IH. }
  induction l as [|v l IH]; intros n L; [discriminate|]. destruct n as [|n].
  - destruct l; [|discriminate]. cbn. ring.
  - cbn [length] in L. injection L as L. pose proof (IH n L) as I. pose proof (P l) as Q. rewrite L in Q.
    change (v * El n (fun t => nth t l 0) + Pi (S n) (fun t => nth t l 0) = fold_right Rmult 1 l + v * others l). rewrite I, Q. ring.
Qed.
Lemma El_ext n : forall f g, (forall t, f t = g t) -> El n f = El n g.
Proof.
  assert (P : forall n f g, (forall t, f t = g t) -> Pi n f = Pi n g).
  { induction n0 as [|k IH]; intros f g H; [reflexivity|]. cbn [Pi]. rewrite H. f_equal. apply IH. intros. apply H. }
  induction n as [|n IH]; intros f g H; [reflexivity|]. cbn [El]. rewrite H, (IH _ (sh g)), (P _ _ (sh g)) by (intros; apply H). reflexivity.
Qed.
Lemma QQ_ext n : forall f g a b, (forall t, f t = g t) -> (forall t, a t = b t) -> QQ n f a = QQ n g b.
Proof.
  assert (P : forall n f g, (forall t, f t = g t) -> Pi n f = Pi n g).
  { induction n0 as [|k IH]; intros f g H; [reflexivity|]. cbn [Pi]. rewrite H. f_equal. apply IH. intros. apply H. }
  assert (P2 : forall n c f g a b, (forall t, f t = g t) -> (forall t, a t = b t) -> A2 c n f a = A2 c n g b).
  { induction n0 as [|k IH]; intros c f g a b H H'; [reflexivity|]. cbn [A2]. rewrite H, H', (IH c _ (sh g) _ (sh b)), (P _ _ (sh g)) by (intros; unfold sh; auto). reflexivity. }
  induction n as [|n IH]; intros f g a b H H'; [reflexivity|]. cbn [QQ]. rewrite H, H', (IH _ (sh g) _ (sh b)), (P2 _ _ _ (sh g) _ (sh b)) by (intros; unfold sh; auto). reflexivity.
Qed.

(** The pairwise form of the dispersion equals the one around the mean. *)
Definition nthm (mv : list (R * R)) (t : nat) := nth t (map fst mv) 0.
Definition nthv (mv : list (R * R)) (t : nat) := nth t (map snd mv) 0.
Lemma disp_mean (mv : list (R * R)) : Forall (fun x => 0 < snd x) mv ->
  let a := Rsum (map (fun x => / snd x) mv) in let b := Rsum (map (fun x => fst x / snd x) mv) in let q := Rsum (map (fun x => fst x ^ 2 / snd x) mv) in
  let p := fold_right Rmult 1 (map snd mv) in
  0 < p /\ others (map snd mv) = p * a /\ (forall c, A2 c (length mv) (nthv mv) (nthm mv) = p * (c ^ 2 * a - 2 * c * b + q)) /\
  QQ (length mv) (nthv mv) (nthm mv) = p * (a * q - b ^ 2).
Proof.
  assert (P : forall l, Pi (length l) (nthv l) = fold_right Rmult 1 (map snd l)).
  { induction l as [|v l IH]; [reflexivity|]. cbn [length Pi map fold_right]. f_equal. exact IH. }
  induction 1 as [|[m v] mv Hv _ IH]; cbv zeta.
  - cbn. repeat split; intros; try ring; lra.
  - cbn [snd] in Hv. cbn [map length fst snd fold_right]. rewrite !Rsum_cons. destruct IH as (I1 & I2 & I3 & I4).
    set (a := Rsum (map (fun x => / snd x) mv)) in *. set (b := Rsum (map (fun x => fst x / snd x) mv)) in *. set (q := Rsum (map (fun x => fst x ^ 2 / snd x) mv)) in *.
    set (p := fold_right Rmult 1 (map snd mv)) in *.
    change (sh (nthv ((m, v) :: mv))) with (nthv mv) in *. change (sh (nthm ((m, v) :: mv))) with (nthm mv) in *.
    split; [nra|]. split; [cbn [others]; rewrite I2; fold p; field; lra|].
    split.
    + intros c. cbn [A2]. change (sh (nthv ((m, v) :: mv))) with (nthv mv) in *. change (sh (nthm ((m, v) :: mv))) with (nthm mv) in *.
      rewrite I3, P. fold p. change (nthv ((m, v) :: mv) 0%nat) with v. change (nthm ((m, v) :: mv) 0%nat) with m. field. lra.
    + cbn [QQ]. change (sh (nthv ((m, v) :: mv))) with (nthv mv) in *. change (sh (nthm ((m, v) :: mv))) with (nthm mv) in *.
      rewrite I3, I4. change (nthv ((m, v) :: mv) 0%nat) with v. change (nthm ((m, v) :: mv) 0%nat) with m. field. lra.
Qed.
Lemma disp_ratio (mv : list (R * R)) : mv <> [] -> Forall (fun x => 0 < snd x) mv ->
  let c := Rsum (map (fun x => fst x / snd x) mv) / Rsum (map (fun x => / snd x) mv) in
  0 < others (map snd mv) /\ QQ (length mv) (nthv mv) (nthm mv) / others (map snd mv) = Rsum (map (fun x => (fst x - c) ^ 2 / snd x) mv).
Proof.
  intros NE F c. destruct (disp_mean mv F) as (I1 & I2 & _ & I4).
  set (a := Rsum (map (fun x => / snd x) mv)) in *. set (b := Rsum (map (fun x => fst x / snd x) mv)) in *. set (q := Rsum (map (fun x => fst x ^ 2 / snd x) mv)) in *.
  assert (A : 0 < a). { unfold a. apply Rsum_pos; [destruct mv; [congruence|discriminate]|]. intros z Hz. apply in_map_iff in Hz as (x & <- & I). rewrite Forall_forall in F. apply Rinv_0_lt_compat. now apply F. }
  rewrite I2, I4. split; [apply Rmult_lt_0_compat; auto|].
  assert (X : Rsum (map (fun x => (fst x - c) ^ 2 / snd x) mv) = q + (-2 * c) * b + c ^ 2 * a).
  { unfold q, a, b. rewrite <- !Rsum_map_scal, <- !Rsum_map_plus. f_equal. apply map_ext. intros x. unfold Rdiv. ring. }
  rewrite X. unfold c. fold a b. field. split; lra.
Qed.

(** * The theorems *)
Definition q_teams (l : list (list wpl)) : list (list (TrueSkillRating XR)) := map (fun t => tst_in (map fst t)) l.
Definition q_weights (l : list (list wpl)) : option (list (list XR)) := Some (map (fun t => map Fin (map snd t)) l).
Lemma q_weights_ok l : Forall (Forall (fun x : wpl => 0 <= snd x)) l -> get_weights (q_teams l) (q_weights l) = Ok (map (map Fin) (map (map snd) l)).
Proof.
  intros H. unfold q_weights. rewrite get_weights_ok; [now rewrite map_map|]. induction H as [|t l H _ IH]; cbn [map q_teams]; constructor; [|exact IH].
  split; [unfold tst_in; now rewrite !map_length|]. apply Forall_forall. intros z Hz. apply in_map_iff in Hz as (w & <- & Hw). apply in_map_iff in Hw as (x & <- & Hx).
  rewrite Forall_forall in H. specialize (H x Hx). unfold neg_weight. rewrite xr_ofZ, xr_ltb. unfold Rltb. destruct (Rlt_dec _ _); [lra|discriminate].
Qed.
Lemma q_len l : list_sum (map (@length _) (q_teams l)) = length (concat l).
Proof. unfold q_teams. induction l as [|t l IH]; [reflexivity|]. cbn [map list_sum fold_right concat]. rewrite app_length. f_equal; [unfold tst_in; now rewrite !map_length|exact IH]. Qed.
Lemma q_len' l : list_sum (map (@length R) (map (map snd) l)) = length (concat (l : list (list wpl))).
Proof. induction l as [|t l IH]; [reflexivity|]. cbn [map list_sum fold_right concat]. rewrite app_length. f_equal; [now rewrite !map_length|exact IH]. Qed.
Lemma q_nonempty l : l <> [] -> Forall (fun t : list wpl => t <> []) l -> is_empty (q_teams l) = false /\ existsb is_empty (q_teams l) = false.
Proof.
  intros NE H. split; [destruct l; [congruence|reflexivity]|]. apply nonempty_existsb'. unfold q_teams. apply Forall_forall. intros x Hx. apply in_map_iff in Hx as (t & <- & Ht).
  rewrite Forall_forall in H. specialize (H t Ht). destruct t; [exfalso; now apply H|discriminate].
Qed.
Definition q_mv (beta : R) (l : list (list wpl)) := map (fun t => (w_mean t, w_var beta 0 t)) l.
Lemma nth_map_nil (f : list wpl -> R) l t : f [] = 0 -> nth t (map f l) 0 = f (nth t l []).
Proof. intros H. rewrite <- H at 1. apply map_nth. Qed.
Lemma flat_map_concat {X Y} (f : X -> Y) (l : list (list X)) : flat_map (map f) l = map f (concat l).
Proof. induction l as [|t l IH]; [reflexivity|]. cbn [flat_map concat]. now rewrite map_app, IH. Qed.
Lemma quality_eval l dp beta tau : (3 <= length l)%nat -> Forall (fun t => t <> []) l -> Forall (Forall (fun x : wpl => 0 <= snd x)) l ->
  match_quality_multi_team (q_teams l) (ts_cfg dp beta tau) (q_weights l) =
  if Req_EM_T (others (map (w_var beta 0) l)) 0 then Panic
  else Ok (Fin (exp (- / 2 * (QQ (length l) (nthv (q_mv beta l)) (nthm (q_mv beta l)) / others (map (w_var beta 0) l))) *
    sqrt (others (map (fun t => beta ^ 2 * Rsum (map (fun x : wpl => snd x ^ 2) t)) l) / others (map (w_var beta 0) l)))).
Proof.
  intros L NE W. destruct (q_nonempty l) as [E1 E2]; [destruct l; [cbn in L; lia|discriminate]|exact NE|].
  unfold match_quality_multi_team, create_rotated_a_matrix. rewrite E1, E2, q_weights_ok by exact W. cbv zeta. rewrite q_len.
  set (ws := map (map snd) l). set (N := length (concat l)). set (d := ((0, 0), 0) : wpl).
  destruct (length l) as [|[|[|n]]] eqn:LE; try lia.
  set (x := fun k => snd (fst (nth k (concat l) d)) ^ 2). set (m := fun k => fst (fst (nth k (concat l) d))).
  assert (LQ : length (q_teams l) = S (S (S n))) by (unfold q_teams; rewrite map_length; exact LE).
  assert (Hrot : isM (mat_from_data (rotated_rows N 0 (map (map Fin) ws)) (length (q_teams l) - 1) N) (S (S n)) N (row (blk ws))).
  { rewrite LQ. repeat split. intros i j Hi Hj. unfold mat_get. cbn [mat_from_data m_cols m_data]. change (#0)%flt with (Fin 0).
    rewrite rotated_nth; [|apply q_len'|assert (LW : length ws = S (S (S n))) by (unfold ws; rewrite map_length; exact LE); rewrite LW; lia|exact Hj]. cbn [Nat.ltb Nat.leb]. rewrite Nat.sub_0_r. reflexivity. }
  assert (RM : flat_map (fun team => map ts_rating team) (q_teams l) = map Fin (map (fun y : wpl => fst (fst y)) (concat l))).
  { rewrite flat_map_concat. unfold q_teams, tst_in. rewrite !map_map, !concat_map, !map_map. f_equal. apply map_ext. intros t. rewrite !map_map. reflexivity. }
  assert (RU : flat_map (fun team => map (fun p => fpowi (ts_uncertainty p) 2) team) (q_teams l) = map Fin (map (fun y : wpl => snd (fst y) ^ 2) (concat l))).
  { rewrite flat_map_concat. unfold q_teams, tst_in. rewrite !map_map, !concat_map, !map_map. f_equal. apply map_ext. intros t. rewrite !map_map. apply map_ext. intros y.
    cbn [ts_in ts_uncertainty]. rewrite xr_powi2. f_equal. ring. }
  rewrite RM, RU.
  assert (Hmean : isM (mat_from_data (map Fin (map (fun y : wpl => fst (fst y)) (concat l))) N 1) N 1 (fun k _ => m k)).
  { assert (LL : N = length (map (fun y : wpl => fst (fst y)) (concat l))) by (now rewrite map_length). rewrite LL. eapply isM_ext; [apply isM_column|].
    intros i j Hi Hj. cbv beta. unfold m. exact (map_nth (fun y : wpl => fst (fst y)) (concat l) d i). }
  assert (Hvar : isM (mat_diagonal (map Fin (map (fun y : wpl => snd (fst y) ^ 2) (concat l)))) N N (fun i j => if Nat.eqb i j then x i else 0)).
  { assert (LL : N = length (map (fun y : wpl => snd (fst y) ^ 2) (concat l))) by (now rewrite map_length). rewrite LL. eapply isM_ext; [apply isM_diag|].
    intros i j Hi Hj. cbv beta. destruct (Nat.eqb i j); [|reflexivity]. unfold x. rewrite (nth_indep _ 0 (snd (fst d) ^ 2)) by auto.
    exact (map_nth (fun y : wpl => snd (fst y) ^ 2) (concat l) d i). }
  cbn [ts_cfg ts_beta].
  rewrite (quality_blocks N (blk ws) (blk_orth ws) x m beta n _ _ _ Hrot Hmean Hvar) by (intros; apply pow2_ge_0).
  assert (EV : El (S (S n)) (VV N (blk ws) (fun k => x k + beta ^ 2)) = others (map (w_var beta 0) l)).
  { rewrite <- (El_others (map (w_var beta 0) l) (S (S n))) by (rewrite map_length; exact LE). apply El_ext. intros t. rewrite nth_map_nil by reflexivity.
    etransitivity; [exact (blk_sum (fun w y => w ^ 2 * (snd (fst y) ^ 2 + beta ^ 2)) d ltac:(intros; cbv beta; ring) l t)|]. unfold w_var. f_equal. apply map_ext. intros y. ring. }
  assert (EB : El (S (S n)) (VV N (blk ws) (fun _ => beta ^ 2)) = others (map (fun t => beta ^ 2 * Rsum (map (fun x : wpl => snd x ^ 2) t)) l)).
  { rewrite <- (El_others _ (S (S n))) by (rewrite map_length; exact LE). apply El_ext. intros t. rewrite nth_map_nil by (cbn; ring).
    etransitivity; [exact (blk_sum (fun w y => w ^ 2 * beta ^ 2) d ltac:(intros; cbv beta; ring) l t)|]. rewrite <- Rsum_map_scal. f_equal. apply map_ext. intros y. ring. }
  assert (EQ : QQ (S (S (S n))) (VV N (blk ws) (fun k => x k + beta ^ 2)) (fun t => Sg N (fun k => blk ws t k * m k)) = QQ (S (S (S n))) (nthv (q_mv beta l)) (nthm (q_mv beta l))).
  { apply QQ_ext; intros t; unfold nthv, nthm, q_mv; rewrite map_map; cbn [fst snd].
    - rewrite nth_map_nil by reflexivity. etransitivity; [exact (blk_sum (fun w y => w ^ 2 * (snd (fst y) ^ 2 + beta ^ 2)) d ltac:(intros; cbv beta; ring) l t)|]. unfold w_var. f_equal. apply map_ext. intros y. ring.
    - rewrite nth_map_nil by reflexivity. exact (blk_sum (fun w y => w * fst (fst y)) d ltac:(intros; cbv beta; ring) l t). }
  rewrite EV, EB, EQ. destruct (Req_EM_T _ 0); reflexivity.
Qed.
Lemma C56_value_proof : forall l dp beta tau, (3 <= length l)%nat -> Forall (fun t => t <> []) l -> Forall (Forall (fun x : wpl => 0 <= snd x)) l ->
  Forall (fun t => 0 < w_var beta 0 t) l ->
  match_quality_multi_team (map (fun t => tst_in (map fst t)) l) (ts_cfg dp beta tau) (Some (map (fun t => map Fin (map snd t)) l)) = Ok (Fin (mq_multi beta l)).
Proof.
  intros l dp beta tau L NE W P. fold (q_teams l) (q_weights l). rewrite quality_eval by auto.
  assert (P' : Forall (fun x => 0 < snd x) (q_mv beta l)) by (unfold q_mv; apply Forall_forall; intros z Hz; apply in_map_iff in Hz as (t & <- & Ht); rewrite Forall_forall in P; now apply P).
  destruct (disp_ratio (q_mv beta l)) as [D1 D2]; [destruct l; [cbn in L; lia|discriminate]|exact P'|].
  assert (ES : map snd (q_mv beta l) = map (w_var beta 0) l) by (unfold q_mv; rewrite map_map; reflexivity). rewrite ES in D1, D2.
  assert (EL : length (q_mv beta l) = length l) by apply map_length. rewrite EL in D2. rewrite D2.
  destruct (Req_EM_T _ 0); [lra|]. unfold mq_multi. fold (q_mv beta l). rewrite ES. f_equal. f_equal. f_equal. f_equal. ring.
Qed.
Lemma prod_mono l l' : Forall2 (fun a b => 0 <= a <= b) l l' -> 0 <= fold_right Rmult 1 l <= fold_right Rmult 1 l'.
Proof.
  induction 1 as [|a b l l' H _ IH]; cbn [fold_right]; [lra|]. split; [apply Rmult_le_pos; lra|]. apply Rmult_le_compat; lra.
Qed.
Lemma others_mono l l' : Forall2 (fun a b => 0 <= a <= b) l l' -> 0 <= others l <= others l'.
Proof.
  induction 1 as [|a b l l' H H' IH]; cbn [others]; [lra|]. apply prod_mono in H'. pose proof (Rmult_le_pos a (others l) ltac:(lra) ltac:(lra)).
  pose proof (Rmult_le_compat a b (others l) (others l') ltac:(lra) ltac:(lra) ltac:(lra) ltac:(lra)). lra.
Qed.
Lemma others_pos l : l <> [] -> Forall (fun a => 0 < a) l -> 0 < others l.
Proof.
  assert (P : forall l, Forall (fun a => 0 < a) l -> 0 < fold_right Rmult 1 l) by (induction 1; cbn [fold_right]; [lra|now apply Rmult_lt_0_compat]).
  intros NE F. induction F as [|a l H F IH]; [congruence|]. cbn [others]. specialize (P _ F). destruct l as [|b l]; [cbn; lra|].
  specialize (IH ltac:(discriminate)). pose proof (Rmult_lt_0_compat _ _ H IH). lra.
Qed.
Lemma w_var_le beta t : 0 <= beta ^ 2 * Rsum (map (fun x : wpl => snd x ^ 2) t) <= w_var beta 0 t.
Proof.
  rewrite <- Rsum_map_scal. unfold w_var. split.
  - apply Rsum_nonneg. intros z Hz. apply in_map_iff in Hz as (x & <- & _). apply Rmult_le_pos; apply pow2_ge_0.
  - apply Rsum_map_le. intros x _. pose proof (Rmult_le_pos _ _ (pow2_ge_0 (snd x)) (pow2_ge_0 (snd (fst x)))). nra.
Qed.
Lemma sq_pos x : x <> 0 -> 0 < x ^ 2.
Proof. intros H. rewrite <- Rsqr_pow2. now apply Rsqr_pos_lt. Qed.
Lemma mq_multi_range l beta : l <> [] -> Forall (fun t => 0 < w_var beta 0 t) l ->
  0 <= mq_multi beta l <= 1 /\ (beta <> 0 -> Forall (fun t => exists x, In x t /\ snd x <> 0) l -> 0 < mq_multi beta l).
Proof.
  intros NE P. unfold mq_multi. cbv zeta. fold (q_mv beta l).
  match goal with |- context [exp ?e] => set (ee := e) end.
  assert (ES : map snd (q_mv beta l) = map (w_var beta 0) l) by (unfold q_mv; rewrite map_map; reflexivity). rewrite ES.
  assert (EE : ee <= 0).
  { unfold ee. enough (0 <= Rsum (map (fun x => (fst x - Rsum (map (fun x => fst x / snd x) (q_mv beta l)) / Rsum (map (fun x => / snd x) (q_mv beta l))) ^ 2 / snd x) (q_mv beta l))) by lra.
    apply Rsum_nonneg. intros z Hz. apply in_map_iff in Hz as (x & <- & Hx). unfold q_mv in Hx. apply in_map_iff in Hx as (t & <- & Ht). cbn [fst snd].
    rewrite Forall_forall in P. apply Rmult_le_pos; [apply pow2_ge_0|left; apply Rinv_0_lt_compat, P; auto]. }
  assert (E1 : exp ee <= 1). { rewrite <- exp_0. destruct (Rle_lt_or_eq_dec _ _ EE) as [G|G]; [left; now apply exp_increasing|rewrite G; lra]. }
  pose proof (exp_pos ee) as E0.
  assert (M : Forall2 (fun a b => 0 <= a <= b) (map (fun t => beta ^ 2 * Rsum (map (fun x : wpl => snd x ^ 2) t)) l) (map (w_var beta 0) l)).
  { clear. induction l as [|t l IH]; cbn [map]; constructor; auto. apply w_var_le. }
  apply others_mono in M.
  assert (PV : 0 < others (map (w_var beta 0) l)).
  { apply others_pos; [destruct l; [congruence|discriminate]|]. apply Forall_forall. intros z Hz. apply in_map_iff in Hz as (t & <- & Ht). rewrite Forall_forall in P. auto. }
  set (B := others _) in *. set (V := others (map (w_var beta 0) l)) in *.
  assert (Q : 0 <= B / V <= 1). { split; [apply Rmult_le_pos; [lra|left; now apply Rinv_0_lt_compat]|]. apply (Rmult_le_reg_r V); auto. unfold Rdiv. rewrite Rmult_assoc, Rinv_l by lra. lra. }
  assert (S1 : sqrt (B / V) <= 1) by (rewrite <- sqrt_1; apply sqrt_le_1; lra). pose proof (sqrt_pos (B / V)) as S0.
  split; [split; [apply Rmult_le_pos; lra|]; replace 1 with (1 * 1) by ring; apply Rmult_le_compat; lra|].
  intros BN WN. apply Rmult_lt_0_compat; auto. apply sqrt_lt_R0. apply Rdiv_lt_0_compat; auto. unfold B. apply others_pos; [destruct l; [congruence|discriminate]|].
  apply Forall_forall. intros z Hz. apply in_map_iff in Hz as (t & <- & Ht). rewrite Forall_forall in WN. destruct (WN t Ht) as (x & Hx & Nx).
  apply Rmult_lt_0_compat; [apply sq_pos; auto|]. clear - Hx Nx. apply in_split in Hx as (t1 & t2 & ->). rewrite map_app. cbn [map]. rewrite Rsum_app, Rsum_cons.
  assert (NN : forall t, 0 <= Rsum (map (fun x : wpl => snd x ^ 2) t)). { intros t. apply Rsum_nonneg. intros z Hz. apply in_map_iff in Hz as (y & <- & _). apply pow2_ge_0. }
  apply Rplus_le_lt_0_compat; [apply NN|]. apply Rplus_lt_le_0_compat; [now apply sq_pos|apply NN].
Qed.
Lemma C56_range_proof : forall l dp beta tau, (3 <= length l)%nat -> Forall (fun t => t <> []) l -> Forall (Forall (fun x : wpl => 0 <= snd x)) l ->
  Forall (fun t => 0 < w_var beta 0 t) l ->
  exists q, match_quality_multi_team (map (fun t => tst_in (map fst t)) l) (ts_cfg dp beta tau) (Some (map (fun t => map Fin (map snd t)) l)) = Ok (Fin q) /\
    0 <= q <= 1 /\ (beta <> 0 -> Forall (fun t => exists x, In x t /\ snd x <> 0) l -> 0 < q).
Proof.
  intros l dp beta tau L NE W P. exists (mq_multi beta l). split; [now apply C56_value_proof|]. apply mq_multi_range; auto. destruct l; [cbn in L; lia|discriminate].
Qed.
Lemma others_zero l : Forall (fun a => 0 <= a) l -> l <> [] -> (others l = 0 <-> exists l1 l2 l3, l = l1 ++ 0 :: l2 ++ 0 :: l3).
Proof.
  assert (PZ : forall l, fold_right Rmult 1 l = 0 <-> In 0 l).
  { induction l0 as [|a l0 IH]; cbn [fold_right In]; [split; [lra|tauto]|]. split.
    - intros H. apply Rmult_integral in H as [H|H]; [auto|right; now apply IH].
    - intros [->|H]; [ring|]. apply IH in H. rewrite H. ring. }
  assert (PN : forall l, Forall (fun a => 0 <= a) l -> 0 <= fold_right Rmult 1 l) by (induction 1; cbn [fold_right]; [lra|now apply Rmult_le_pos]).
  assert (ON : forall l, Forall (fun a => 0 <= a) l -> 0 <= others l).
  { induction 1 as [|a l0 H H' IH]; cbn [others]; [lra|]. pose proof (PN _ H'). pose proof (Rmult_le_pos _ _ H IH). lra. }
  intros F NE. induction F as [|a l H F IH]; [congruence|]. cbn [others]. pose proof (PN _ F) as A1. pose proof (ON _ F) as A2. pose proof (Rmult_le_pos _ _ H A2) as A3. split.
  - intros Z. assert (Z1 : fold_right Rmult 1 l = 0) by lra. assert (Z2 : a * others l = 0) by lra. apply PZ in Z1.
    apply Rmult_integral in Z2 as [->|Z2].
    + apply in_split in Z1 as (l2 & l3 & ->). exists [], l2, l3. reflexivity.
    + destruct (proj1 (IH ltac:(intros ->; destruct Z1)) Z2) as (l1 & l2 & l3 & ->). exists (a :: l1), l2, l3. reflexivity.
  - intros (l1 & l2 & l3 & E). destruct l1 as [|b l1].
    + injection E as -> ->. assert (Z : fold_right Rmult 1 (l2 ++ 0 :: l3) = 0) by (apply PZ, in_elt). rewrite Z. ring.
    + injection E as <- ->. rewrite (proj2 (IH ltac:(destruct l1; discriminate))) by eauto. assert (Z : fold_right Rmult 1 (l1 ++ 0 :: l2 ++ 0 :: l3) = 0) by (apply PZ, in_elt). rewrite Z. ring.
Qed.
Lemma map_split2 {X} (f : X -> R) l a b l1 l2 l3 : map f l = l1 ++ a :: l2 ++ b :: l3 ->
  exists k1 x k2 y k3, l = k1 ++ x :: k2 ++ y :: k3 /\ f x = a /\ f y = b.
Proof.
  intros E. symmetry in E. apply map_eq_app in E as (k1 & k' & -> & <- & E) || (apply eq_sym, map_eq_app in E as (k1 & k' & -> & <- & E)).
  apply map_eq_cons in E as (x & k'' & -> & <- & E). apply map_eq_app in E as (k2 & k3' & -> & <- & E). apply map_eq_cons in E as (y & k3 & -> & <- & <-).
  exists k1, x, k2, y, k3. auto.
Qed.
(** Fewer than three teams. *)
Lemma quality_two (F : Type) (A : Arith F) (t1 t2 : list (TrueSkillRating F)) cfg ws : t1 <> [] -> t2 <> [] ->
  get_weights [t1; t2] ws <> Panic -> (forall e, get_weights [t1; t2] ws <> Err e) ->
  match_quality_multi_team [t1; t2] cfg ws = Panic.
Proof.
  intros H1 H2 G1 G2. unfold match_quality_multi_team, create_rotated_a_matrix. cbn [is_empty existsb]. destruct t1 as [|p1 t1]; [congruence|]. destruct t2 as [|p2 t2]; [congruence|].
  cbn [is_empty orb]. cbv zeta. destruct (get_weights _ ws) as [tw|e|] eqn:GW; [|now destruct (G2 e)|now destruct G1].
  set (n := list_sum (map (@length _) [p1 :: t1; p2 :: t2])). assert (N2 : (2 <= n)%nat) by (unfold n; cbn; lia).
  set (mean := mat_from_data _ n 1). set (var := mat_diagonal _).
  change (length [p1 :: t1; p2 :: t2] - 1)%nat with 1%nat. set (rot := mat_from_data _ 1 n).
  enough (Q : quality_of_matrices rot mean var (ts_beta cfg) = None) by now rewrite Q.
  unfold quality_of_matrices. cbv zeta.
  set (a := mat_transpose rot).
  assert (AR : m_rows a = n /\ m_cols a = 1%nat) by (split; reflexivity). destruct AR as [AR AC].
  assert (MS : mat_mul a (mat_transpose mean) = Some (mat_build n n (fun i j => fold_left fadd (map (fun k => fmul (mat_get a i k) (mat_get (mat_transpose mean) k j)) (seq 0 1)) (#0)%flt))) by reflexivity.
  assert (MR : mat_mul rot a = Some (mat_build 1 1 (fun i j => fold_left fadd (map (fun k => fmul (mat_get rot i k) (mat_get a k j)) (seq 0 n)) (#0)%flt))) by (unfold mat_mul; rewrite AR, AC; cbn [rot mat_from_data m_rows m_cols]; now rewrite Nat.eqb_refl).
  rewrite MR. cbn [obind]. set (ata := mat_scale _ _). rewrite MS. destruct (mat_mul rot var) as [rv|]; [|reflexivity]. cbn [obind].
  destruct (mat_mul rv a) as [atsa|]; [|reflexivity]. cbn [obind]. 
  destruct (mat_add ata atsa) as [mid|] eqn:MA; [|reflexivity]. cbn [obind]. destruct (mat_mul rot mean) as [en|]; [|reflexivity]. cbn [obind].
  assert (MD : m_rows mid = 1%nat /\ m_cols mid = 1%nat).
  { unfold mat_add in MA. destruct (andb _ _); [|discriminate]. injection MA as <-. split; reflexivity. }
  destruct (mat_inverse mid) as [inv|] eqn:MI; [|reflexivity]. cbn [obind].
  assert (ID : m_rows inv = 1%nat /\ m_cols inv = 1%nat).
  { unfold mat_inverse in MI. destruct (mat_determinant mid); [|discriminate]. destruct (feqb _ _); [discriminate|]. injection MI as <-. cbn. split; apply MD. }
  destruct ID as [IR IC]. unfold mat_mul at 1. cbn [mat_build m_rows m_cols]. rewrite IR, IC. destruct (Nat.eqb_spec n 1); [lia|]. reflexivity.
Qed.
Lemma C56_two_proof : forall (F : Type) (A : Arith F) (t1 t2 : list (TrueSkillRating F)) cfg, t1 <> [] -> t2 <> [] ->
  match_quality_multi_team [t1; t2] cfg None = Panic.
Proof. intros. apply quality_two; auto; intros; discriminate. Qed.
Lemma quality_one (t : list (TrueSkillRating XR)) cfg ws : t <> [] ->
  get_weights [t] ws <> Panic -> (forall e, get_weights [t] ws <> Err e) -> match_quality_multi_team [t] cfg ws = Panic.
Proof.
  intros H1 G1 G2. unfold match_quality_multi_team, create_rotated_a_matrix. cbn [is_empty existsb]. destruct t as [|p1 t]; [congruence|].
  cbn [is_empty orb]. cbv zeta. destruct (get_weights _ ws) as [tw|e|] eqn:GW; [|now destruct (G2 e)|now destruct G1].
  set (n := list_sum (map (@length _) [p1 :: t])). set (mean := mat_from_data _ n 1). set (var := mat_diagonal _).
  change (length [p1 :: t] - 1)%nat with 0%nat. set (rot := mat_from_data _ 0 n).
  enough (Q : quality_of_matrices rot mean var (ts_beta cfg) = None) by now rewrite Q.
  unfold quality_of_matrices. cbv zeta. destruct (mat_mul rot (mat_transpose rot)) as [ra|] eqn:M0; [|reflexivity]. cbn [obind].
  assert (RA : m_rows ra = 0%nat /\ m_cols ra = 0%nat).
  { unfold mat_mul in M0. cbn in M0. rewrite Nat.eqb_refl in M0. injection M0 as <-. split; reflexivity. }
  destruct (mat_mul rot var) as [rv|]; [|reflexivity]. cbn [obind]. destruct (mat_mul rv _) as [atsa|]; [|reflexivity]. cbn [obind].
  destruct (mat_mul _ (mat_transpose mean)) as [st|]; [|reflexivity]. cbn [obind]. destruct (mat_add _ atsa) as [mid|] eqn:MA; [|reflexivity]. cbn [obind].
  destruct (mat_mul rot mean) as [en|]; [|reflexivity]. cbn [obind].
  assert (MD : m_rows mid = 0%nat /\ m_cols mid = 0%nat).
  { unfold mat_add in MA. destruct (andb _ _); [|discriminate]. injection MA as <-. exact RA. }
  unfold mat_inverse, mat_determinant. destruct MD as [-> ->]. cbn [Nat.eqb mat_det]. change (#0)%flt with (Fin 0). rewrite xr_eqb, (Reqb_true 0 0 eq_refl). reflexivity.
Qed.
Lemma C56_panic_proof : forall l dp beta tau, l <> [] -> Forall (fun t => t <> []) l -> Forall (Forall (fun x : wpl => 0 <= snd x)) l ->
  (match_quality_multi_team (map (fun t => tst_in (map fst t)) l) (ts_cfg dp beta tau) (Some (map (fun t => map Fin (map snd t)) l)) = Panic <->
   length l = 1%nat \/ length l = 2%nat \/ exists l1 t l2 u l3, l = l1 ++ t :: l2 ++ u :: l3 /\ w_var beta 0 t = 0 /\ w_var beta 0 u = 0).
Proof.
  intros l dp beta tau NE H W. fold (q_teams l) (q_weights l). pose proof (q_weights_ok l W) as GW.
  destruct l as [|t1 [|t2 [|t3 l']]] eqn:EL; [congruence| | |].
  - split; [intros _; left; reflexivity|]. intros _. apply quality_one.
    + inversion H as [|? ? HH _]. subst. destruct t1; [exfalso; now apply HH|discriminate].
    + cbn [q_teams map] in GW. rewrite GW. discriminate.
    + intros e. cbn [q_teams map] in GW. rewrite GW. discriminate.
  - split; [intros _; right; left; reflexivity|]. intros _. inversion H as [|? ? HH HT]; subst. inversion HT as [|? ? HH2 _]; subst. apply quality_two.
    + destruct t1; [exfalso; now apply HH|discriminate].
    + destruct t2; [exfalso; now apply HH2|discriminate].
    + cbn [q_teams map] in GW. rewrite GW. discriminate.
    + intros e. cbn [q_teams map] in GW. rewrite GW. discriminate.
  - rewrite <- EL in *. rewrite quality_eval by (auto; rewrite EL; cbn; lia).
    assert (OZ := others_zero (map (w_var beta 0) l)). destruct (Req_EM_T _ 0) as [Z|Z].
    + split; [intros _|reflexivity]. right; right. apply OZ in Z as (l1 & l2 & l3 & E).
      * apply map_split2 in E as (k1 & x & k2 & y & k3 & -> & E1 & E2). exists k1, x, k2, y, k3. auto.
      * apply Forall_forall. intros z Hz. apply in_map_iff in Hz as (t & <- & _). pose proof (w_var_le beta t). lra.
      * rewrite EL. discriminate.
    + split; [discriminate|]. intros [E|[E|(l1 & t & l2 & u & l3 & E & E1 & E2)]]; [rewrite EL in E; cbn in E; lia|rewrite EL in E; cbn in E; lia|].
      exfalso. apply Z, OZ; [apply Forall_forall; intros z Hz; apply in_map_iff in Hz as (t' & <- & _); pose proof (w_var_le beta t'); lra|rewrite EL; discriminate|].
      rewrite E. exists (map (w_var beta 0) l1), (map (w_var beta 0) l2), (map (w_var beta 0) l3). rewrite map_app. cbn [map]. rewrite map_app. cbn [map]. now rewrite E1, E2.
Qed.
Lemma others_perm l l' : Permutation l l' -> others l = others l' /\ fold_right Rmult 1 l = fold_right Rmult 1 l'.
Proof.
  induction 1 as [|x l l' _ [I1 I2]|x y l|l l' l'' _ [I1 I2] _ [J1 J2]]; cbn [others fold_right]; [auto| | |split; congruence].
  - rewrite I1, I2. auto.
  - split; ring.
Qed.
Lemma C85_proof : forall l l' dp beta tau, Permutation l l' -> (3 <= length l)%nat -> Forall (fun t => t <> []) l -> Forall (Forall (fun x : wpl => 0 <= snd x)) l ->
  Forall (fun t => 0 < w_var beta 0 t) l ->
  let quality l := match_quality_multi_team (map (fun t => tst_in (map fst t)) l) (ts_cfg dp beta tau) (Some (map (fun t : list wpl => map Fin (map snd t)) l)) in
  quality l = quality l'.
Proof.
  intros l l' dp beta tau P L NE W V. cbv zeta. assert (PF : forall Q : list wpl -> Prop, Forall Q l -> Forall Q l') by (intros Q; apply Permutation_Forall; auto).
  etransitivity; [apply C56_value_proof; auto|]. symmetry. etransitivity; [apply C56_value_proof; auto; now rewrite <- (Permutation_length P)|]. symmetry.
  f_equal. f_equal. unfold mq_multi. cbv zeta. rewrite !map_map. cbn [fst snd].
  assert (RP : forall f : list wpl -> R, Rsum (map f l) = Rsum (map f l')) by (intros f; apply Rsum_perm, Permutation_map, P).
  rewrite !RP. f_equal. f_equal.
  assert (OP : forall f : list wpl -> R, others (map f l) = others (map f l')) by (intros f; apply others_perm, Permutation_map, P). now rewrite !OP.
Qed.

Lemma C56_empty_proof : forall (F : Type) (A : Arith F) (ts : list (list (TrueSkillRating F))) cfg w, ts = [] \/ In [] ts ->
  match_quality_multi_team ts cfg w = Ok (fofZ 0).
Proof.
  intros F A ts cfg w H. unfold match_quality_multi_team. destruct ts as [|t ts]; [reflexivity|]. cbn [is_empty].
  destruct H as [H|H]; [discriminate|]. assert (E : existsb is_empty (t :: ts) = true) by (apply existsb_exists; exists []; auto).
  rewrite E. reflexivity.
Qed.
