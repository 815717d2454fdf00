(** Proofs of C95 for DWZ. *)
From Coq Require Import ZArith NArith List Bool Reals Lra Lia.
From Coquelicot Require Import Coquelicot.
From Verif Require Import Arith XR Tac ModelLib ModelDwz Spec ProofElo ProofUscf ProofDwz ProofDrift2 MathIval ProofBoost2 ProofOrder2 ProofRematch.
Import Spec ListNotations.
Local Open Scope R_scope.

Lemma elo_E_lip r' r b : r' < r -> 0 < elo_E r b - elo_E r' b < (r - r') / 600.
Proof.
  intros H. pose proof (elo_E_mono r' r b H). split; [lra|]. rewrite !elo_E_sg in *. pose proof ln10_close as L. unfold Rdiv in *. rewrite !Rmult_assoc in *.
  pose proof (lin_sg_mono 600 (ln 10 * / 400) b r' r ltac:(lra) ltac:(lra) ltac:(lra) H). lra.
Qed.
(** Two coefficients bounded from below by 5; the change of the coefficient may work
    against the order by at most 7/10 of the distance. *)
Lemma dwz_order_core r' r E' E S w' w : 5 <= E -> 5 <= E' -> r' < r -> 0 < w - w' < (r - r') / 600 ->
  (800 / (E' + 1) - 800 / (E + 1)) * (S - w) <= 7 / 10 * (r - r') -> dwz_upd r' E' 1 S w' < dwz_upd r E 1 S w.
Proof.
  intros H H' Hr Hw B. unfold dwz_upd. assert (0 < 800 / (E' + 1) <= 800 / 6) by (split; [apply Rdiv_lt_0_compat; lra|]; unfold Rdiv; apply Rmult_le_compat_l; [lra|]; apply Rinv_le_contravar; lra).
  assert (800 / (E' + 1) * (w - w') <= 800 / 6 * ((r - r') / 600)) by (apply Rmult_le_compat; lra). nra.
Qed.
Lemma inv_cap C M M' d : 5 <= C -> 5 <= M -> 5 <= M' -> 0 <= d -> 800 / (M' + 1) - 800 / (M + 1) <= d -> 800 / (Rmin M' C + 1) - 800 / (Rmin M C + 1) <= d.
Proof.
  intros HC HM HM' Hd H. assert (K : forall a b, 5 <= a -> a <= b -> 800 / (b + 1) <= 800 / (a + 1)) by (intros; unfold Rdiv; apply Rmult_le_compat_l; [lra|]; apply Rinv_le_contravar; lra).
  destruct (Rle_dec C M').
  - rewrite (Rmin_right M' C) by auto. pose proof (K (Rmin M C) C ltac:(apply Rmin_glb; lra) (Rmin_r M C)). lra.
  - rewrite (Rmin_left M' C) by lra. pose proof (K (Rmin M C) M ltac:(apply Rmin_glb; lra) (Rmin_l M C)). lra.
Qed.
Lemma max_min5 a b : Rmax 5 (Rmin a b) = Rmin (Rmax 5 a) (Rmax 5 b).
Proof. unfold Rmax, Rmin. repeat destruct (Rle_dec _ _); lra. Qed.
Lemma inv_gap M M' D : 5 <= M -> 5 <= M' -> M - M' <= D -> 0 <= D -> 800 / (M' + 1) - 800 / (M + 1) <= 800 / 6 * D / (M + 1).
Proof.
  intros HM HM' H HD. replace (800 / (M' + 1) - 800 / (M + 1)) with (800 * (M - M') / (M' + 1) / (M + 1)) by (field; split; lra). unfold Rdiv at 1 4. apply Rmult_le_compat_r; [left; apply Rinv_0_lt_compat; lra|].
  apply Rle_trans with (800 * D / (M' + 1)); [unfold Rdiv; apply Rmult_le_compat_r; [left; apply Rinv_0_lt_compat; lra|lra]|]. apply Rle_trans with (800 * D / 6); [unfold Rdiv; apply Rmult_le_compat_l; [lra|apply Rinv_le_contravar; lra]|right; field].
Qed.
(** Better than expected. *)
Lemma up_poly x : 0 <= x <= 2 -> 0 < 300 * x ^ 4 - 534 * x ^ 3 + 1800.
Proof. intros H. ival_pos x 12%nat 0%Z 1%Z 2%Z 1%Z. lra. Qed.
Lemma up_poly2 x : 14 / 10 <= x <= 3 -> 0 < 45 / 20 * x ^ 5 - 5 * x ^ 4 + 1125 / 100 * x - 1 / 2.
Proof. intros H. ival_pos x 12%nat 14%Z 10%Z 3%Z 1%Z. lra. Qed.
Lemma up_core x y M M' : y < x -> 5 <= M -> 5 <= M' -> (M' < M -> exists D, M - M' <= D * (x - y) /\ 0 <= D /\ 800 / 6 * D <= 300 * (M + 1)) ->
  800 / (M' + 1) - 800 / (M + 1) <= 3 / 10 * (1000 * (x - y)).
Proof.
  intros XY M5 M5' B. destruct (Rlt_le_dec M' M) as [L|L].
  - destruct (B L) as (D & B1 & B2 & B3). eapply Rle_trans; [apply (inv_gap M M' (D * (x - y))); auto; apply Rmult_le_pos; lra|].
    apply Rmult_le_reg_r with (M + 1); [lra|]. replace (800 / 6 * (D * (x - y)) / (M + 1) * (M + 1)) with (800 / 6 * D * (x - y)) by (field; lra). assert (0 <= (300 * (M + 1) - 800 / 6 * D) * (x - y)) by (apply Rmult_le_pos; lra). lra.
  - assert (800 / (M' + 1) <= 800 / (M + 1)) by (unfold Rdiv; apply Rmult_le_compat_l; [lra|]; apply Rinv_le_contravar; lra). lra.
Qed.
Lemma dwz_up r' r a S w' w i : 1 <= i -> r' < r -> w < S -> w' < S -> 800 / (dwz_E r' a S w' i + 1) - 800 / (dwz_E r a S w i + 1) <= 3 / 10 * (r - r').
Proof.
  intros Hi Hr Hw Hw'.
  rewrite !dwz_E_above by auto. rewrite !max_min5. assert (HC : 5 <= Rmax 5 (Rmin 30 (5 * i))) by apply Rmax_l. apply inv_cap; try apply Rmax_l; auto; [apply Rmin_glb; apply Rmax_l|lra|].
  set (x := r / 1000). set (y := r' / 1000). assert (XY : y < x) by (unfold x, y; lra). replace (r - r') with (1000 * (x - y)) by (unfold x, y; field).
  replace (r / 2000) with (x / 2) by (unfold x; field). replace (r' / 2000) with (y / 2) by (unfold y; field).
  assert (J5 : 5 <= dwz_J a) by (unfold dwz_J; destruct (a <=? 20)%N, (a <=? 25)%N; lra). pose proof (pow4_nonneg x) as P4. pose proof (pow4_nonneg y) as P4'.
  destruct (a <? 20)%N eqn:A; apply up_core; try apply Rmax_l; auto; intros L.
  - assert (EJ : dwz_J a = 5) by (unfold dwz_J; replace (a <=? 20)%N with true; [auto|symmetry; apply N.leb_le; apply N.ltb_lt in A; lia]). rewrite EJ in *.
    assert (X5 : 5 < x / 2 * (x ^ 4 + 5)). { destruct (Rlt_le_dec 5 (x / 2 * (x ^ 4 + 5))) as [h|h]; [auto|]. rewrite (Rmax_left 5 (x / 2 * _)) in L by lra. pose proof (Rmax_l 5 (y / 2 * (y ^ 4 + 5))). lra. }
    assert (X0 : 0 < x). { destruct (Rlt_le_dec 0 x) as [h|h]; [auto|]. exfalso. assert (0 <= - x / 2 * (x ^ 4 + 5)) by (apply Rmult_le_pos; lra). lra. }
    rewrite (Rmax_right 5 (x / 2 * _)) in * by lra. pose proof (Rmax_r 5 (y / 2 * (y ^ 4 + 5))) as MR. pose proof (Rmax_l 5 (y / 2 * (y ^ 4 + 5))) as ML. set (M' := Rmax 5 (y / 2 * (y ^ 4 + 5))) in *. exists ((5 * x ^ 4 + 5) / 2). split; [|split; [lra|]].
    + destruct (Rle_dec 0 y) as [Y|Y].
      * assert (x ^ 5 - y ^ 5 <= 5 * x ^ 4 * (x - y)); [|replace (x / 2 * (x ^ 4 + 5)) with (x ^ 5 / 2 + 5 * x / 2) by field; replace (y / 2 * (y ^ 4 + 5)) with (y ^ 5 / 2 + 5 * y / 2) in MR by field; lra].
        replace (x ^ 5 - y ^ 5) with ((x ^ 4 + x ^ 3 * y + x ^ 2 * y ^ 2 + x * y ^ 3 + y ^ 4) * (x - y)) by ring. apply Rmult_le_compat_r; [lra|].
        assert (Q : forall n, 0 <= y ^ n <= x ^ n) by (intros n; split; [apply pow_le; auto|apply pow_incr; lra]). pose proof (Q 2%nat) as Q2. pose proof (Q 3%nat) as Q3. pose proof (Q 4%nat) as Q4.
        assert (x ^ 3 * y <= x ^ 3 * x) by (apply Rmult_le_compat_l; lra). assert (x ^ 2 * y ^ 2 <= x ^ 2 * x ^ 2) by (apply Rmult_le_compat_l; lra). assert (x * y ^ 3 <= x * x ^ 3) by (apply Rmult_le_compat_l; lra).
        replace (x ^ 3 * x) with (x ^ 4) in * by ring. replace (x ^ 2 * x ^ 2) with (x ^ 4) in * by ring. replace (x * x ^ 3) with (x ^ 4) in * by ring. lra.
      * assert (x / 2 * (x ^ 4 + 5) <= (x - y) / 2 * (x ^ 4 + 5)) by (apply Rmult_le_compat_r; lra). assert ((x - y) / 2 * (x ^ 4 + 5) <= (x - y) / 2 * (5 * x ^ 4 + 5)) by (apply Rmult_le_compat_l; lra). lra.
    + destruct (Rle_dec x (14 / 10)) as [Z|Z].
      * assert (x ^ 4 <= (14 / 10) ^ 4) by (apply pow_incr; lra). lra.
      * replace (x / 2 * (x ^ 4 + 5)) with (x ^ 5 / 2 + 5 * x / 2) by field. destruct (Rle_dec x 3) as [Z3|Z3]; [pose proof (up_poly2 x ltac:(lra)); lra|]. assert (0 <= x ^ 4 * (x - 3)) by (apply Rmult_le_pos; lra). replace (x ^ 4 * (x - 3)) with (x ^ 5 - 3 * x ^ 4) in * by ring. lra.
  - rewrite !Rmult_1_l in *. rewrite (Rmax_right 5 (x ^ 4 + _)), (Rmax_right 5 (y ^ 4 + _)) in * by lra.
    assert (X0 : 0 < x). { destruct (Rlt_le_dec 0 x) as [h|h]; [auto|]. exfalso. assert (Z : (- x) ^ 4 <= (- y) ^ 4) by (apply pow_incr; lra). replace ((- x) ^ 4) with (x ^ 4) in Z by ring. replace ((- y) ^ 4) with (y ^ 4) in Z by ring. lra. }
    assert (X1 : - x <= y). { destruct (Rle_lt_dec (- x) y) as [h|h]; [auto|]. exfalso. assert (Z : x ^ 4 <= (- y) ^ 4) by (apply pow_incr; lra). replace ((- y) ^ 4) with (y ^ 4) in Z by ring. lra. }
    exists (4 * x ^ 3). assert (X3 : 0 < x ^ 3) by (apply pow_lt; lra). split; [|split; [lra|]].
    + replace (x ^ 4 + dwz_J a - (y ^ 4 + dwz_J a)) with ((x + y) * (x ^ 2 + y ^ 2) * (x - y)) by ring. apply Rmult_le_compat_r; [lra|]. assert (Y2 : y ^ 2 <= x ^ 2) by (assert (0 <= (x - y) * (x + y)) by (apply Rmult_le_pos; lra); lra).
      pose proof (pow2_ge_0 y). replace (4 * x ^ 3) with (2 * x * (2 * x ^ 2)) by ring. apply Rmult_le_compat; lra.
    + destruct (Rle_dec x 2) as [Z|Z]; [pose proof (up_poly x ltac:(lra)); lra|]. assert (0 <= x ^ 3 * (x - 2)) by (apply Rmult_le_pos; lra). replace (x ^ 3 * (x - 2)) with (x ^ 4 - 2 * x ^ 3) in * by ring. lra.
Qed.
(** Worse than expected. *)
Lemma exp_tanh u : 0 < u -> exp u - 1 < u / 2 * (exp u + 1).
Proof.
  intros H. pose proof (mvt_pos (fun u => u / 2 * (exp u + 1) - (exp u - 1)) (fun u => (1 - exp u + u * exp u) / 2) 0 u H) as K. cbv beta in K. rewrite exp_0 in K.
  assert (K' : 0 / 2 * (1 + 1) - (1 - 1) < u / 2 * (exp u + 1) - (exp u - 1)); [|lra]. apply K.
  - intros c _. auto_derive; [auto|]. field.
  - intros c Hc. pose proof (exp_pos c). assert (1 - c < exp (- c)) by (pose proof (exp_ineq1 (- c) ltac:(lra)); lra). rewrite exp_Ropp in H1. assert (exp c * (1 - c) < exp c * / exp c) by (apply Rmult_lt_compat_l; auto). rewrite Rinv_r in H2 by lra. lra.
Qed.
Lemma brake_gap T r' r : 5 <= T -> r' < r -> r <= 1300 -> let e := exp ((1300 - r) / 150) in let e' := exp ((1300 - r') / 150) in
  800 / (T + e) - 800 / (T + e') <= 54 / 100 * (r - r').
Proof.
  intros HT Hr H e e'. set (u := (r - r') / 150). assert (U : 0 < u) by (unfold u; lra). assert (E : e' = e * exp u) by (unfold e, e', u; rewrite <- exp_plus; f_equal; field). pose proof (exp_pos ((1300 - r) / 150)) as P. fold e in P. pose proof (exp_pos ((1300 - r') / 150)) as P'. fold e' in P'.
  pose proof (exp_tanh u U) as T1. assert (D : e' - e <= u / 2 * (e' + e)). { rewrite E. replace (e * exp u - e) with (e * (exp u - 1)) by ring. replace (u / 2 * (e * exp u + e)) with (e * (u / 2 * (exp u + 1))) by ring. apply Rmult_le_compat_l; lra. }
  replace (800 / (T + e) - 800 / (T + e')) with (800 * (e' - e) / ((T + e) * (T + e'))) by (field; split; lra). assert (Q : 5 * (e + e') <= (T + e) * (T + e')) by nra. assert (Q0 : 0 < 5 * (e + e')) by lra.
  apply Rmult_le_reg_r with ((T + e) * (T + e')); [lra|]. unfold Rdiv at 1. rewrite Rmult_assoc, Rinv_l, Rmult_1_r by lra. apply Rle_trans with (54 / 100 * (r - r') * (5 * (e + e'))); [|apply Rmult_le_compat_l; lra].
  apply Rle_trans with (800 * (u / 2 * (e' + e))); [lra|]. unfold u. assert (0 <= (r - r') * (e + e')) by (apply Rmult_le_pos; lra). lra.
Qed.
Lemma dwz_down r' r a S w' w i : 1 <= i -> 0 <= r' < r -> S < w -> S < w' -> 4 <= i \/ r < 1300 \/ 1300 <= r' -> 800 / (dwz_E r a S w i + 1) - 800 / (dwz_E r' a S w' i + 1) <= 54 / 100 * (r - r').
Proof.
  intros Hi Hr Hw Hw' C. rewrite !dwz_E_below by auto. assert (J5 : 5 <= dwz_J a <= 15) by (unfold dwz_J; destruct (a <=? 20)%N, (a <=? 25)%N; lra).
  assert (X4 : 0 <= (r' / 1000) ^ 4 <= (r / 1000) ^ 4) by (split; [apply pow4_nonneg|apply pow_incr; lra]). set (J := dwz_J a) in *.
  assert (K : forall a b, 5 <= a -> a <= b -> 800 / (b + 1) <= 800 / (a + 1)) by (intros; unfold Rdiv; apply Rmult_le_compat_l; [lra|]; apply Rinv_le_contravar; lra).
  assert (E1 : forall r, r <= 1300 -> 1 <= exp ((1300 - r) / 150)). { intros z Hz. pose proof (exp_ineq1_le ((1300 - z) / 150)). lra. }
  destruct (Rlt_dec r' 1300) as [L'|L'].
  - pose proof (E1 r' ltac:(lra)) as Ee'. set (T' := (r' / 1000) ^ 4 + J) in *.
    assert (G : forall z T, r' < z -> z <= 1300 -> T' <= T -> 800 / (Rmax 5 (Rmin (T + (exp ((1300 - z) / 150) - 1)) 150) + 1) - 800 / (Rmax 5 (Rmin (T' + (exp ((1300 - r') / 150) - 1)) 150) + 1) <= 54 / 100 * (z - r')).
    { intros z T Hz Hz' HT. pose proof (E1 z Hz') as Ee. rewrite !max_min5. rewrite (Rmax_right 5 150) by lra. rewrite (Rmax_right 5 (T + _)) by (unfold T' in *; lra). rewrite (Rmax_right 5 (T' + _)) by (unfold T' in *; lra).
      apply inv_cap; try (unfold T' in *; lra). pose proof (brake_gap T' r' z ltac:(unfold T'; lra) Hz Hz') as B. cbv zeta in B. replace (T' + (exp ((1300 - r') / 150) - 1) + 1) with (T' + exp ((1300 - r') / 150)) by ring. replace (T + (exp ((1300 - z) / 150) - 1) + 1) with (T + exp ((1300 - z) / 150)) by ring.
      assert (800 / (T + exp ((1300 - z) / 150)) <= 800 / (T' + exp ((1300 - z) / 150))) by (unfold Rdiv; apply Rmult_le_compat_l; [lra|]; apply Rinv_le_contravar; unfold T' in *; lra). lra. }
    destruct (Rlt_dec r 1300) as [L|L]; [apply G; unfold T'; lra|].
    assert (I4 : 4 <= i) by (destruct C as [C|[C|C]]; lra). assert (T4 : 28561 / 10000 <= (r / 1000) ^ 4) by (replace (28561 / 10000) with ((1300 / 1000) ^ 4) by field; apply pow_incr; lra).
    pose proof (G 1300 (28561 / 10000 + J) ltac:(lra) ltac:(lra)) as G'. assert (T' <= 28561 / 10000 + J). { unfold T'. assert ((r' / 1000) ^ 4 <= (1300 / 1000) ^ 4) by (apply pow_incr; lra). lra. } specialize (G' H).
    replace ((1300 - 1300) / 150) with 0 in G' by field. rewrite exp_0 in G'. rewrite (Rmax_right 5 (Rmin (28561 / 10000 + J + (1 - 1)) 150)) in G' by (apply Rmin_glb; lra). rewrite (Rmin_left (28561 / 10000 + J + (1 - 1))) in G' by lra. rewrite Rplus_0_r.
    assert (28561 / 10000 + J + (1 - 1) <= Rmax 5 (Rmin ((r / 1000) ^ 4 + J) (Rmin 30 (5 * i)))). { eapply Rle_trans; [|apply Rmax_r]. repeat apply Rmin_glb; lra. } assert (HJ : 5 <= 28561 / 10000 + J + (1 - 1)) by lra. pose proof (K _ _ HJ H0). lra.
  - destruct (Rlt_dec r 1300); [lra|]. assert (Rmax 5 (Rmin ((r' / 1000) ^ 4 + J + 0) (Rmin 30 (5 * i))) <= Rmax 5 (Rmin ((r / 1000) ^ 4 + J + 0) (Rmin 30 (5 * i)))) by (apply Rle_max_compat_l, Rle_min_compat_r; lra).
    pose proof (K _ _ (Rmax_l 5 _) H). lra.
Qed.
Lemma C95_dwz_proof : forall r r' i a r2 i2 a2 o, (1 <= i)%N -> (1 <= i2)%N -> 0 <= r' < r -> o = WIN \/ (4 <= i)%N \/ r < 1300 \/ 1300 <= r' ->
  exists n n', dwz_rating (fst (dwz (mkDwz (Fin r) i a) (mkDwz (Fin r2) i2 a2) o)) = Fin n /\
    dwz_rating (fst (dwz (mkDwz (Fin r') i a) (mkDwz (Fin r2) i2 a2) o)) = Fin n' /\ n' < n.
Proof.
  intros r r' i a r2 i2 a2 o Hi Hi2 Hr C. rewrite !dwz_eval by auto. cbn [fst dwz_rating]. do 2 eexists. do 2 (split; [reflexivity|]). pose proof (elo_E_lip r' r r2 ltac:(lra)) as L. pose proof (elo_E_range r r2) as R1. pose proof (elo_E_range r' r2) as R2.
  assert (Ni : 1 <= NR i) by (unfold NR; apply IZR_le; lia). set (w := elo_E r r2) in *. set (w' := elo_E r' r2) in *. set (S := points o).
  assert (B : forall x a s e i, 0 < 800 / (dwz_E x a s e i + 1) <= 800 / 6). { intros x b s e j. pose proof (dwz_E_range' x b s e j). split; [apply Rdiv_lt_0_compat; lra|]. unfold Rdiv. apply Rmult_le_compat_l; [lra|]. apply Rinv_le_contravar; lra. }
  destruct (Rle_lt_dec S w') as [A1|A1]; [destruct (Rle_lt_dec S w) as [A2|A2]; [|lra]|destruct (Rle_lt_dec S w) as [A2|A2]].
  - destruct A1 as [A1|A1].
    + apply dwz_order_core; try apply dwz_E_range'; try lra. assert (Co : 4 <= NR i \/ r < 1300 \/ 1300 <= r'). { destruct C as [C|[C|[C|C]]]; auto; [exfalso; subst o; unfold S in A1; cbn [points] in A1; lra|]. left. unfold NR. apply IZR_le. lia. }
      pose proof (dwz_down r' r a S w' w (NR i) Ni Hr ltac:(lra) A1 Co) as D. pose proof (B r a S w (NR i)). pose proof (B r' a S w' (NR i)). assert (0 <= w - S <= 1) by (unfold S in *; destruct o; cbn [points] in *; lra). nra.
    + unfold dwz_upd. rewrite <- A1. pose proof (B r a S w (NR i)) as [B0 B1]. assert (800 / (dwz_E r a S w (NR i) + 1) * (w - S) <= 800 / 6 * ((r - r') / 600)) by (apply Rmult_le_compat; lra). rewrite A1 in *. nra.
  - unfold dwz_upd. pose proof (B r a S w (NR i)) as [B0 B1]. pose proof (B r' a S w' (NR i)) as [B0' B1']. assert (800 / (dwz_E r a S w (NR i) + 1) * (w - S) <= 800 / 6 * (w - S)) by (apply Rmult_le_compat_r; lra). assert (800 / (dwz_E r' a S w' (NR i) + 1) * (S - w') <= 800 / 6 * (S - w')) by (apply Rmult_le_compat_r; lra). nra.
  - apply dwz_order_core; try apply dwz_E_range'; try lra. pose proof (dwz_up r' r a S w' w (NR i) Ni ltac:(lra) A2 A1) as D. assert (0 <= S - w <= 1) by (unfold S in *; destruct o; cbn [points] in *; lra). nra.
Qed.
(** The brake begins at 1300: a new player loses more there than just below. *)
Lemma C95_dwz_refuted_proof : forall a r2 i2 a2, (26 <= a)%N -> (1 <= i2)%N -> r2 <= 1300 ->
  exists n n', dwz_rating (fst (dwz (mkDwz (Fin 1300) 1 a) (mkDwz (Fin r2) i2 a2) LOSS)) = Fin n /\
    dwz_rating (fst (dwz (mkDwz (Fin 1299) 1 a) (mkDwz (Fin r2) i2 a2) LOSS)) = Fin n' /\ n < n'.
Proof.
  intros a r2 i2 a2 Ha Hi H. rewrite !dwz_eval by (auto; lia). cbn [fst dwz_rating points]. do 2 eexists. do 2 (split; [reflexivity|]). pose proof (elo_E_lip 1299 1300 r2 ltac:(lra)) as L. pose proof (elo_E_range 1300 r2) as R1. pose proof (elo_E_range 1299 r2) as R2.
  assert (W : 1 / 2 <= elo_E 1300 r2). { rewrite <- (elo_E_equal 1300). destruct H as [H| ->]; [|lra]. rewrite (elo_E_swap r2 1300). pose proof (elo_E_swap 1300 1300). pose proof (elo_E_mono r2 1300 1300 H). lra. }
  rewrite !dwz_E_below by lra. destruct (Rlt_dec 1300 1300); [lra|]. destruct (Rlt_dec 1299 1300); [|lra]. assert (EJ : dwz_J a = 15). { unfold dwz_J. replace (a <=? 20)%N with false by (symmetry; apply N.leb_gt; lia). now replace (a <=? 25)%N with false by (symmetry; apply N.leb_gt; lia). } rewrite EJ. change (NR 1) with 1.
  pose proof (exp_ineq1_le ((1300 - 1299) / 150)) as E1. assert (E : 17 <= Rmax 5 (Rmin ((1299 / 1000) ^ 4 + 15 + (exp ((1300 - 1299) / 150) - 1)) 150)). { eapply Rle_trans; [|apply Rmax_r]. apply Rmin_glb; lra. }
  set (D := Rmax 5 (Rmin ((1299 / 1000) ^ 4 + 15 + (exp ((1300 - 1299) / 150) - 1)) 150)) in *. assert (F : Rmax 5 (Rmin ((1300 / 1000) ^ 4 + 15 + 0) (Rmin 30 (5 * 1))) = 5). { rewrite (Rmin_right 30) by lra. rewrite Rmin_right by lra. apply Rmax_left. lra. } rewrite F.
  unfold dwz_upd. assert (0 < 800 / (D + 1) <= 800 / 18) by (split; [apply Rdiv_lt_0_compat; lra|unfold Rdiv; apply Rmult_le_compat_l; [lra|]; apply Rinv_le_contravar; lra]). assert (800 / (D + 1) * elo_E 1299 r2 <= 800 / 18 * elo_E 1300 r2) by (apply Rmult_le_compat; lra). lra.
Qed.
