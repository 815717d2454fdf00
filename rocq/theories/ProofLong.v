(** Proofs of C109, C111 and C112: what long runs of games do to Elo and FIFA
    ratings. *)
From Coq Require Import ZArith NArith List Bool Reals Lra Lia.
From Coquelicot Require Import Coquelicot.
From Verif Require Import Arith XR Tac ModelLib ModelElo ModelFifa Spec
  ProofElo ProofFifa MathIval ProofOrder ProofOrder2 ProofBoost2.
Import ListNotations.
Local Open Scope R_scope.

Lemma INR_big x : exists n, x < INR n.
Proof.
  destruct (archimed x) as [H _]. exists (Z.to_nat (up x)). rewrite INR_IZR_INZ. eapply Rlt_le_trans; [exact H|]. apply IZR_le. lia.
Qed.
Lemma sg_0 : sg 0 = 1 / 2.
Proof. unfold sg. rewrite Ropp_0, exp_0. lra. Qed.
Lemma sg_mono a b : a < b -> sg a < sg b.
Proof.
  intros H. apply (mvt_pos sg (fun u => sg u * (1 - sg u)) a b H); [intros; apply sg_deriv|].
  intros c _. pose proof (sg_range c). nra.
Qed.
Lemma sg_odd a : sg (- a) = 1 - sg a.
Proof. unfold sg. rewrite Ropp_involutive, exp_Ropp. pose proof (exp_pos a). field. lra. Qed.
Lemma sg_slope a : 0 < a -> 0 < sg a - 1 / 2 < a / 4.
Proof.
  intros H. split; [rewrite <- sg_0; pose proof (sg_mono 0 a H); lra|].
  assert (M : 0 / 4 - sg 0 < a / 4 - sg a); [|rewrite sg_0 in M; lra].
  apply (mvt_pos (fun u => u / 4 - sg u) (fun u => / 4 - sg u * (1 - sg u)) 0 a H).
  - intros c _. apply (is_derive_minus (fun u => u / 4) sg); [auto_derive; [auto|field]|apply sg_deriv].
  - intros c Hc. assert (sg 0 < sg c) by (apply sg_mono; lra). rewrite sg_0 in H0. nra.
Qed.

(** One draw moves the gap x to [dstep K L x]. *)
Definition dstep (K L x : R) : R := x - K * (sg (x * L) - 1 / 2).
Lemma dstep_odd K L x : dstep K L (- x) = - dstep K L x.
Proof. unfold dstep. replace (- x * L) with (- (x * L)) by ring. rewrite sg_odd. field. Qed.
Lemma dstep_0 K L : dstep K L 0 = 0.
Proof. unfold dstep. rewrite Rmult_0_l, sg_0. ring. Qed.
Lemma dstep_pos K L x : 0 < K -> 0 < L -> K * L <= 8 -> 0 < x -> - x < dstep K L x < x.
Proof.
  intros HK HL H Hx. unfold dstep. assert (0 < x * L) by nra. pose proof (sg_slope (x * L) H0) as [A B]. split; [|nra].
  assert (K * (sg (x * L) - 1 / 2) < K * (x * L / 4)) by nra. assert (0 <= x * (8 - K * L)) by nra. nra.
Qed.
Lemma dstep_mono K L x : 0 < K -> 0 < L -> K * L <= 4 -> 0 < x -> 0 < dstep K L x.
Proof.
  intros HK HL H Hx. unfold dstep. assert (0 < x * L) by nra. pose proof (sg_slope (x * L) H0) as [A B].
  assert (K * (sg (x * L) - 1 / 2) < K * (x * L / 4)) by nra. assert (0 <= x * (4 - K * L)) by nra. nra.
Qed.
Lemma dstep_abs K L x : 0 < K -> 0 < L -> K * L <= 8 -> Rabs (dstep K L x) <= Rabs x.
Proof.
  intros HK HL H. destruct (Rtotal_order x 0) as [N|[->|N]].
  - pose proof (dstep_pos K L (- x) HK HL H ltac:(lra)) as P. rewrite dstep_odd in P. rewrite (Rabs_left x N). apply Rabs_le. lra.
  - rewrite dstep_0. lra.
  - pose proof (dstep_pos K L x HK HL H N) as P. rewrite (Rabs_right x) by lra. apply Rabs_le. lra.
Qed.
(** Away from zero the gap shrinks by a fixed amount. *)
Lemma dstep_drop K L e : 0 < K -> 0 < L -> K * L <= 8 -> 0 < e -> exists d, 0 < d /\ forall x, e <= Rabs x -> Rabs (dstep K L x) <= Rabs x - d.
Proof.
  intros HK HL H He. set (d1 := K * (sg (e * L) - 1 / 2)). set (d2 := 2 * e - K * (sg (e * L) - 1 / 2)).
  assert (0 < e * L) by nra. pose proof (sg_slope (e * L) H0) as [A B].
  assert (P1 : 0 < d1) by (unfold d1; nra). assert (P2 : 0 < d2) by (unfold d2; nra).
  exists (Rmin d1 d2). split; [now apply Rmin_glb_lt|].
  assert (Q : forall x, e <= x -> Rabs (dstep K L x) <= x - Rmin d1 d2).
  { intros x Hx. pose proof (Rmin_l d1 d2). pose proof (Rmin_r d1 d2). assert (X : 0 < x * L) by nra. pose proof (sg_slope (x * L) X) as [A' B'].
    assert (S : sg (e * L) <= sg (x * L)). { destruct (Req_dec e x) as [->|]; [lra|]. apply Rlt_le, sg_mono. apply Rmult_lt_compat_r; lra. }
    apply Rabs_le. unfold dstep. split.
    - unfold d2 in *. assert (V : sg (x * L) - sg (e * L) <= (x - e) * L / 4).
      { destruct (Req_dec e x) as [->|]; [lra|]. assert (M : e * L / 4 - sg (e * L) < x * L / 4 - sg (x * L)); [|lra].
        apply (mvt_pos (fun u => u / 4 - sg u) (fun u => / 4 - sg u * (1 - sg u)) (e * L) (x * L)); [apply Rmult_lt_compat_r; lra| |].
        - intros c _. apply (is_derive_minus (fun u => u / 4) sg); [auto_derive; [auto|field]|apply sg_deriv].
        - intros c Hc. assert (sg 0 < sg c) by (apply sg_mono; lra). rewrite sg_0 in *. nra. }
      assert (K * (sg (x * L) - sg (e * L)) <= K * ((x - e) * L / 4)) by (apply Rmult_le_compat_l; lra). assert ((x - e) * (K * L) <= (x - e) * 8) by (apply Rmult_le_compat_l; lra). lra.
    - unfold d1 in *. assert (K * (sg (e * L) - 1 / 2) <= K * (sg (x * L) - 1 / 2)) by (apply Rmult_le_compat_l; lra). lra. }
  intros x Hx. destruct (Rle_dec 0 x) as [N|N].
  - rewrite (Rabs_pos_eq x N) in *. now apply Q.
  - rewrite (Rabs_left x) in * by lra. specialize (Q (- x) Hx). now rewrite dstep_odd, Rabs_Ropp in Q.
Qed.

Lemma dseq_cv K L (x : nat -> R) : 0 < K -> 0 < L -> K * L <= 8 -> (forall n, x (S n) = dstep K L (x n)) -> Un_cv x 0.
Proof.
  intros HK HL H E e He. destruct (dstep_drop K L e HK HL H He) as (d & Hd & D).
  assert (M : forall n m, Rabs (x (n + m)%nat) <= Rabs (x n)).
  { intros n m. induction m as [|m IH]; [rewrite Nat.add_0_r; lra|]. rewrite Nat.add_succ_r, E. pose proof (dstep_abs K L (x (n + m)%nat) HK HL H). lra. }
  assert (T : forall n, (forall m, (m < n)%nat -> e <= Rabs (x m)) -> Rabs (x n) <= Rabs (x 0%nat) - INR n * d).
  { induction n as [|n IH]; intros Q; [cbn; lra|]. rewrite E, S_INR. pose proof (D (x n) ltac:(apply Q; lia)). pose proof (IH ltac:(intros; apply Q; lia)). lra. }
  destruct (INR_big (Rabs (x 0%nat) / d)) as [N HN].
  assert (exists m, Rabs (x m) < e) as [m Hm].
  { destruct (Classical_Prop.classic (exists m, Rabs (x m) < e)) as [|C]; auto. exfalso.
    assert (Q : forall m, e <= Rabs (x m)). { intros m. apply Rnot_lt_le. intros W. apply C. eauto. }
    pose proof (T N ltac:(auto)) as TN. pose proof (Rabs_pos (x N)).
    apply (Rmult_lt_compat_r d) in HN; [|lra]. unfold Rdiv in HN. rewrite Rmult_assoc, Rinv_l, Rmult_1_r in HN by lra. lra. }
  exists m. intros n Hn. unfold R_dist. rewrite Rminus_0_r. specialize (M m (n - m)%nat). replace (m + (n - m))%nat with n in M by lia. lra.
Qed.
Lemma dseq_pos K L (x : nat -> R) : 0 < K -> 0 < L -> K * L <= 4 -> (forall n, x (S n) = dstep K L (x n)) -> 0 < x 0%nat -> forall n, 0 < x (S n) < x n.
Proof.
  intros HK HL H E P. assert (Q : forall n, 0 < x n). { induction n; auto. rewrite E. now apply dstep_mono. }
  intros n. split; [apply Q|]. rewrite E. apply dstep_pos; auto; lra.
Qed.
Lemma dseq_zero K L (x : nat -> R) : (forall n, x (S n) = dstep K L (x n)) -> x 0%nat = 0 -> forall n, x n = 0.
Proof. intros E Z. induction n; auto. now rewrite E, IHn, dstep_0. Qed.
(** For large steps the gap can alternate for ever. *)
Lemma dstep_flip K L : 0 < K -> 0 < L -> 8 < K * L -> exists x, 0 < x /\ dstep K L x = - x.
Proof.
  intros HK HL H. set (f := fun x => 2 * x - K * (sg (x * L) - 1 / 2)).
  assert (Df : forall x, is_derive f x (2 - K * (L * (sg (x * L) * (1 - sg (x * L)))))).
  { intros x. assert (D : is_derive (fun x => sg (x * L)) x (L * (sg (x * L) * (1 - sg (x * L))))).
    { apply (is_derive_comp sg (fun x => x * L)); [apply sg_deriv|]. auto_derive; [auto|ring]. }
    unfold f. apply (is_derive_minus (fun x => 2 * x) (fun x => K * (sg (x * L) - 1 / 2))); [auto_derive; [auto|ring]|].
    apply (is_derive_scal (fun x => sg (x * L) - 1 / 2) x K).
    replace (L * _) with (L * (sg (x * L) * (1 - sg (x * L))) - 0) by ring.
    apply (is_derive_minus (fun x => sg (x * L)) (fun _ => 1 / 2)); [exact D|apply (is_derive_const (1 / 2))]. }
  (* near zero f is negative *)
  pose proof (Df 0) as D0. rewrite Rmult_0_l, sg_0 in D0. apply is_derive_Reals in D0. set (d := 2 - _) in D0.
  assert (Hd : d < 0) by (unfold d; nra). destruct (D0 (- d) ltac:(lra)) as [[del Hdel] Q]. cbn in Q.
  specialize (Q (del / 2) ltac:(lra) ltac:(rewrite Rabs_pos_eq; lra)). rewrite Rplus_0_l in Q.
  assert (F0 : f 0 = 0) by (unfold f; rewrite Rmult_0_l, sg_0; ring). rewrite F0 in Q. apply Rabs_def2 in Q.
  set (a := del / 2) in *. assert (Ha : 0 < a) by (unfold a; lra).
  assert (Fa : f a < 0). { apply Rnot_le_lt. intros C. assert (0 <= (f a - 0) / a) by (apply Rmult_le_pos; [lra|apply Rlt_le, Rinv_0_lt_compat; lra]). lra. }
  assert (Fb : 0 < f (a + K)). { unfold f. pose proof (sg_range ((a + K) * L)). nra. }
  destruct (IVT f a (a + K)) as (z & Hz & Ez); auto; [|lra|].
  { intros x. apply derivable_continuous_pt. exists (2 - K * (L * (sg (x * L) * (1 - sg (x * L))))). apply is_derive_Reals, Df. }
  exists z. split; [lra|]. unfold f in Ez. unfold dstep. lra.
Qed.

(** ** Elo *)
Fixpoint rep {A} (f : A -> A) (n : nat) (a : A) : A := match n with O => a | S n => f (rep f n a) end.
Lemma fold_repeat {A B} (f : A -> B -> A) b n a : fold_left f (repeat b n) a = rep (fun a => f a b) n a.
Proof.
  assert (Q : forall n a, rep (fun a => f a b) n (f a b) = f (rep (fun a => f a b) n a) b). { induction n0; intros; cbn; [auto|now rewrite IHn0]. }
  revert a. induction n; intros; cbn; auto. rewrite IHn. apply Q.
Qed.
Definition elo_seq (k ro S : R) (n : nat) (r : R) : R := rep (fun r => elo_upd k r ro S) n r.
Lemma elo_period_seq k ro o n r : elo_rating_period (mkElo (Fin r)) (repeat (mkElo (Fin ro), o) n) (mkEloConfig (Fin k)) = mkElo (Fin (elo_seq k ro (points o) n r)).
Proof.
  rewrite elo_period_fold, fold_repeat. unfold elo_seq. induction n; cbn [rep]; auto. rewrite IHn. cbn [fst snd]. now rewrite elo_eval.
Qed.
Lemma elo_upd_dstep k r ro : elo_upd k r ro (1 / 2) - ro = dstep k (ln 10 / 400) (r - ro).
Proof. unfold elo_upd, dstep. rewrite elo_E_sg. replace ((r - ro) * (ln 10 / 400)) with ((r - ro) * ln 10 / 400) by field. ring. Qed.

Lemma C111_elo_proof : forall r ro k, 0 < k -> k * ln 10 <= 3200 -> exists u : nat -> R,
  (forall n, elo_rating_period (mkElo (Fin r)) (repeat (mkElo (Fin ro), DRAW) n) (mkEloConfig (Fin k)) = mkElo (Fin (u n))) /\
  Un_cv u ro /\
  (k * ln 10 <= 1600 -> (r < ro -> forall n, u n < u (S n) < ro) /\ (ro < r -> forall n, ro < u (S n) < u n)) /\
  (r = ro -> forall n, u n = ro).
Proof.
  intros r ro k Hk HK. exists (fun n => elo_seq k ro (1 / 2) n r). split; [intros; apply elo_period_seq|].
  pose proof ln10_close. set (x := fun n => elo_seq k ro (1 / 2) n r - ro).
  assert (E : forall n, x (S n) = dstep k (ln 10 / 400) (x n)) by (intros; unfold x; cbn; apply elo_upd_dstep).
  assert (E' : forall n, - x (S n) = dstep k (ln 10 / 400) (- x n)) by (intros; rewrite dstep_odd, E; auto).
  split.
  - intros e He. destruct (dseq_cv k (ln 10 / 400) x Hk ltac:(lra) ltac:(lra) E e He) as [N HN]. exists N. intros n Hn. specialize (HN n Hn).
    unfold R_dist in *. now rewrite Rminus_0_r in HN.
  - split.
    + intros H4. split; intros Hr n.
      * pose proof (dseq_pos k (ln 10 / 400) (fun n => - x n) Hk ltac:(lra) ltac:(lra) E' ltac:(unfold x; cbn; lra) n). unfold x in *. lra.
      * pose proof (dseq_pos k (ln 10 / 400) x Hk ltac:(lra) ltac:(lra) E ltac:(unfold x; cbn; lra) n). unfold x in *. lra.
    + intros -> n. pose proof (dseq_zero k (ln 10 / 400) x E ltac:(unfold x; cbn; lra) n). unfold x in *. lra.
Qed.
(** The bound is where convergence stops. *)
Lemma C111_elo_refuted_proof : forall ro k, 3200 < k * ln 10 -> exists d, 0 < d /\
  forall n, elo_rating_period (mkElo (Fin (ro + d))) (repeat (mkElo (Fin ro), DRAW) n) (mkEloConfig (Fin k)) = mkElo (Fin (ro + (-1) ^ n * d)).
Proof.
  intros ro k HK. pose proof ln10_close. destruct (dstep_flip k (ln 10 / 400)) as (d & Hd & F); [nra|lra|lra|]. exists d. split; auto. intros n.
  rewrite elo_period_seq. do 2 f_equal. unfold elo_seq. cbn [points]. induction n as [|n IH]; [cbn; ring|]. cbn [rep]. rewrite IH.
  pose proof (elo_upd_dstep k (ro + (-1) ^ n * d) ro) as Q. replace (ro + (-1) ^ n * d - ro) with ((-1) ^ n * d) in Q by ring.
  assert (P : (-1) ^ n = 1 \/ (-1) ^ n = -1) by (clear; induction n as [|n [E|E]]; cbn [pow]; [auto|rewrite E; lra|rewrite E; lra]).
  cbn [pow]. destruct P as [P|P]; rewrite P in *.
  - rewrite Rmult_1_l, F in Q. rewrite Rmult_1_l. lra.
  - replace (-1 * d) with (- d) in * by ring. rewrite dstep_odd, F in Q. lra.
Qed.
Lemma alt_not_cv (u : nat -> R) ro c d : d <> 0 -> (forall n, u n = c + (-1) ^ n * d) -> ~ Un_cv u ro.
Proof.
  intros Hd E C. destruct (C (Rabs d) (Rabs_pos_lt d Hd)) as [N HN]. pose proof (HN N (le_n N)) as A. pose proof (HN (S N) (le_S _ _ (le_n N))) as B. unfold R_dist in *. rewrite E in A, B. cbn [pow] in B.
  assert (P : (-1) ^ N = 1 \/ (-1) ^ N = -1) by (clear; induction N as [|n [E|E]]; cbn [pow]; [auto|rewrite E; lra|rewrite E; lra]).
  apply Rabs_def2 in A. apply Rabs_def2 in B. destruct P as [P|P]; rewrite P in *; destruct (Rcase_abs d) as [Q|Q]; (rewrite (Rabs_left d Q) in * || rewrite (Rabs_right d Q) in *); lra.
Qed.
Lemma C111_elo_iff_proof : forall k, 0 < k -> (k * ln 10 <= 3200 <-> forall r ro, exists u : nat -> R,
  (forall n, elo_rating_period (mkElo (Fin r)) (repeat (mkElo (Fin ro), DRAW) n) (mkEloConfig (Fin k)) = mkElo (Fin (u n))) /\ Un_cv u ro).
Proof.
  intros k Hk. split.
  - intros H r ro. destruct (C111_elo_proof r ro k Hk H) as (u & A & B & _). exists u. auto.
  - intros H. apply Rnot_lt_le. intros N. destruct (C111_elo_refuted_proof 0 k N) as (d & Hd & F). destruct (H (0 + d) 0) as (u & A & B).
    apply (alt_not_cv u 0 0 d ltac:(lra)); [|exact B]. intros n. specialize (F n). rewrite A in F. injection F as F. exact F.
Qed.
(** The two players draw against each other n times. *)
Lemma C111_elo_both_proof : forall r1 r2 k, 0 < k -> k * ln 10 <= 1600 -> exists u v : nat -> R,
  (u 0%nat = r1 /\ v 0%nat = r2 /\ forall n, elo (mkElo (Fin (u n))) (mkElo (Fin (v n))) DRAW (mkEloConfig (Fin k)) = (mkElo (Fin (u (S n))), mkElo (Fin (v (S n))))) /\
  Un_cv u ((r1 + r2) / 2) /\ Un_cv v ((r1 + r2) / 2) /\
  (k * ln 10 <= 800 -> r1 < r2 -> forall n, u n < u (S n) < v (S n) /\ v (S n) < v n).
Proof.
  intros r1 r2 k Hk HK. pose proof ln10_close. set (g := fun p => (elo_upd k (fst p) (snd p) (1 / 2), elo_upd k (snd p) (fst p) (1 / 2))).
  set (s := fun n => rep g n (r1, r2)). exists (fun n => fst (s n)), (fun n => snd (s n)).
  split; [split; [reflexivity|split; [reflexivity|]]; intros n; rewrite elo_eval; reflexivity|].
  assert (T : forall n, fst (s n) + snd (s n) = r1 + r2).
  { induction n; [reflexivity|]. rewrite <- IHn. cbn [s rep]. change (rep g n (r1, r2)) with (s n). unfold g at 1 2. cbn [fst snd].
    unfold elo_upd. rewrite (elo_E_swap (fst (s n)) (snd (s n))). field. }
  set (x := fun n => snd (s n) - fst (s n)).
  assert (E : forall n, x (S n) = dstep (2 * k) (ln 10 / 400) (x n)).
  { intros n. unfold x. change (s (S n)) with (g (s n)). unfold g. cbn [fst snd]. unfold elo_upd, dstep.
    rewrite (elo_E_swap (snd (s n)) (fst (s n))), elo_E_sg. replace ((snd (s n) - fst (s n)) * (ln 10 / 400)) with ((snd (s n) - fst (s n)) * ln 10 / 400) by field. field. }
  pose proof (dseq_cv (2 * k) (ln 10 / 400) x ltac:(lra) ltac:(lra) ltac:(lra) E) as C.
  assert (X : forall n, x n = snd (s n) - fst (s n)) by reflexivity.
  split; [|split].
  - intros e He. destruct (C (2 * e) ltac:(lra)) as [N HN]. exists N. intros n Hn. specialize (HN n Hn). unfold R_dist in *. rewrite Rminus_0_r in HN.
    apply Rabs_def2 in HN. apply Rabs_def1; pose proof (T n); rewrite X in HN; lra.
  - intros e He. destruct (C (2 * e) ltac:(lra)) as [N HN]. exists N. intros n Hn. specialize (HN n Hn). unfold R_dist in *. rewrite Rminus_0_r in HN.
    apply Rabs_def2 in HN. apply Rabs_def1; pose proof (T n); rewrite X in HN; lra.
  - intros H8 Hr n. pose proof (dseq_pos (2 * k) (ln 10 / 400) x ltac:(lra) ltac:(lra) ltac:(lra) E ltac:(unfold x; cbn; lra) n) as P.
    pose proof (T n). pose proof (T (S n)). rewrite !X in P. lra.
Qed.

Lemma C111_elo_both_alternate_proof : forall m k, 1600 < k * ln 10 -> exists d, 0 < d /\
  elo (mkElo (Fin (m + d))) (mkElo (Fin (m - d))) DRAW (mkEloConfig (Fin k)) = (mkElo (Fin (m - d)), mkElo (Fin (m + d))) /\
  elo (mkElo (Fin (m - d))) (mkElo (Fin (m + d))) DRAW (mkEloConfig (Fin k)) = (mkElo (Fin (m + d)), mkElo (Fin (m - d))).
Proof.
  intros m k HK. pose proof ln10_close. destruct (dstep_flip (2 * k) (ln 10 / 400)) as (d & Hd & F); [nra|lra|lra|]. exists (d / 2). split; [lra|].
  assert (A : elo_upd k (m + d / 2) (m - d / 2) (1 / 2) = m - d / 2). { unfold dstep in F. unfold elo_upd. rewrite elo_E_sg. replace ((m + d / 2 - (m - d / 2)) * ln 10 / 400) with (d * (ln 10 / 400)) by field. lra. }
  assert (B : elo_upd k (m - d / 2) (m + d / 2) (1 / 2) = m + d / 2). { unfold elo_upd in *. rewrite (elo_E_swap (m + d / 2) (m - d / 2)) in *. lra. }
  rewrite !elo_eval. cbn [points invert]. rewrite A, B. split; reflexivity.
Qed.

(** ** FIFA, without the knockout and penalty flags *)
Definition fifa_seq (k ro S : R) (n : nat) (r : R) : R := rep (fun r => fifa_upd k r ro S) n r.
Lemma fifa_period_seq k ro o n r : fifa_rating_period (mkFifa (Fin r)) (repeat (mkFifa (Fin ro), o, mkFifaConfig (Fin k) false false) n) = mkFifa (Fin (fifa_seq k ro (points o) n r)).
Proof.
  rewrite fifa_period_fold, fold_repeat. unfold fifa_seq. induction n; cbn [rep]; auto. rewrite IHn. cbn [fst snd]. now rewrite fifa_eval.
Qed.
Lemma fifa_upd_dstep k r ro : fifa_upd k r ro (1 / 2) - ro = dstep k (ln 10 / 600) (r - ro).
Proof. unfold fifa_upd, dstep. rewrite fifa_We_sg. replace ((r - ro) * (ln 10 / 600)) with ((r - ro) * ln 10 / 600) by field. ring. Qed.
Lemma C111_fifa_proof : forall r ro i, 0 < i -> i * ln 10 <= 4800 -> exists u : nat -> R,
  (forall n, fifa_rating_period (mkFifa (Fin r)) (repeat (mkFifa (Fin ro), DRAW, mkFifaConfig (Fin i) false false) n) = mkFifa (Fin (u n))) /\
  Un_cv u ro /\
  (i * ln 10 <= 2400 -> (r < ro -> forall n, u n < u (S n) < ro) /\ (ro < r -> forall n, ro < u (S n) < u n)) /\
  (r = ro -> forall n, u n = ro).
Proof.
  intros r ro k Hk HK. exists (fun n => fifa_seq k ro (1 / 2) n r). split; [intros; apply (fifa_period_seq k ro DRAW)|].
  pose proof ln10_close. set (x := fun n => fifa_seq k ro (1 / 2) n r - ro).
  assert (E : forall n, x (S n) = dstep k (ln 10 / 600) (x n)) by (intros; unfold x; cbn; apply fifa_upd_dstep).
  assert (E' : forall n, - x (S n) = dstep k (ln 10 / 600) (- x n)) by (intros; rewrite dstep_odd, E; auto).
  split.
  - intros e He. destruct (dseq_cv k (ln 10 / 600) x Hk ltac:(lra) ltac:(lra) E e He) as [N HN]. exists N. intros n Hn. specialize (HN n Hn).
    unfold R_dist in *. now rewrite Rminus_0_r in HN.
  - split.
    + intros H4. split; intros Hr n.
      * pose proof (dseq_pos k (ln 10 / 600) (fun n => - x n) Hk ltac:(lra) ltac:(lra) E' ltac:(unfold x; cbn; lra) n). unfold x in *. lra.
      * pose proof (dseq_pos k (ln 10 / 600) x Hk ltac:(lra) ltac:(lra) E ltac:(unfold x; cbn; lra) n). unfold x in *. lra.
    + intros -> n. pose proof (dseq_zero k (ln 10 / 600) x E ltac:(unfold x; cbn; lra) n). unfold x in *. lra.
Qed.
Lemma C111_fifa_alternate_proof : forall ro i, 4800 < i * ln 10 -> exists d, 0 < d /\
  forall n, fifa_rating_period (mkFifa (Fin (ro + d))) (repeat (mkFifa (Fin ro), DRAW, mkFifaConfig (Fin i) false false) n) = mkFifa (Fin (ro + (-1) ^ n * d)).
Proof.
  intros ro k HK. pose proof ln10_close. destruct (dstep_flip k (ln 10 / 600)) as (d & Hd & F); [nra|lra|lra|]. exists d. split; auto. intros n.
  rewrite (fifa_period_seq k ro DRAW). do 2 f_equal. unfold fifa_seq. cbn [points]. induction n as [|n IH]; [cbn; ring|]. cbn [rep]. rewrite IH.
  pose proof (fifa_upd_dstep k (ro + (-1) ^ n * d) ro) as Q. replace (ro + (-1) ^ n * d - ro) with ((-1) ^ n * d) in Q by ring.
  assert (P : (-1) ^ n = 1 \/ (-1) ^ n = -1) by (clear; induction n as [|n [E|E]]; cbn [pow]; [auto|rewrite E; lra|rewrite E; lra]).
  cbn [pow]. destruct P as [P|P]; rewrite P in *.
  - rewrite Rmult_1_l, F in Q. rewrite Rmult_1_l. lra.
  - replace (-1 * d) with (- d) in * by ring. rewrite dstep_odd, F in Q. lra.
Qed.
Lemma C111_fifa_iff_proof : forall i, 0 < i -> (i * ln 10 <= 4800 <-> forall r ro, exists u : nat -> R,
  (forall n, fifa_rating_period (mkFifa (Fin r)) (repeat (mkFifa (Fin ro), DRAW, mkFifaConfig (Fin i) false false) n) = mkFifa (Fin (u n))) /\ Un_cv u ro).
Proof.
  intros k Hk. split.
  - intros H r ro. destruct (C111_fifa_proof r ro k Hk H) as (u & A & B & _). exists u. auto.
  - intros H. apply Rnot_lt_le. intros N. destruct (C111_fifa_alternate_proof 0 k N) as (d & Hd & F). destruct (H (0 + d) 0) as (u & A & B).
    apply (alt_not_cv u 0 0 d ltac:(lra)); [|exact B]. intros n. specialize (F n). rewrite A in F. injection F as F. exact F.
Qed.
(** ** Farming one opponent *)
Lemma exp_up y : 0 <= y -> exp y <= 1 + y * exp y.
Proof.
  intros H. pose proof (exp_ineq1_le (- y)) as Q. rewrite exp_Ropp in Q. pose proof (exp_pos y) as P.
  assert (exp y * (1 + - y) <= exp y * / exp y) by (apply Rmult_le_compat_l; lra). rewrite Rinv_r in H0 by lra. lra.
Qed.
(** f (n + 1) = f n e^(c / (1 + f n)) *)
Lemma farm_bounds c f0 (f : nat -> R) : 0 < c -> 0 < f0 -> f 0%nat = f0 -> (forall n, f (S n) = f n * exp (c / (1 + f n))) ->
  forall n, f0 <= f n /\ f0 + INR n * (c * f0 / (1 + f0)) <= f n <= f0 + INR n * (c * exp c).
Proof.
  intros Hc H0 E0 E. assert (W0 : 0 < / (1 + f0)) by (apply Rinv_0_lt_compat; lra). induction n as [|n (A & B & C)]; [rewrite E0; cbn; lra|].
  rewrite E, S_INR. assert (P : 0 < / (1 + f n)) by (apply Rinv_0_lt_compat; lra).
  assert (I1 : (1 + f n) * / (1 + f n) = 1) by (apply Rinv_r; lra). assert (I0 : (1 + f0) * / (1 + f0) = 1) by (apply Rinv_r; lra).
  set (y := c / (1 + f n)). assert (Hy : 0 < y) by (apply Rmult_lt_0_compat; lra).
  assert (y <= c). { unfold y, Rdiv. assert (/ (1 + f n) <= 1) by nra. nra. }
  pose proof (exp_ineq1_le y) as L. pose proof (exp_up y ltac:(lra)) as U.
  assert (M : exp y <= exp c). { destruct (Req_dec y c) as [->|]; [lra|]. apply Rlt_le, exp_increasing. lra. }
  assert (Fy : f n * y = c * (1 - / (1 + f n))). { unfold y, Rdiv. transitivity (c * (((1 + f n) * / (1 + f n)) - / (1 + f n))); [ring|now rewrite I1]. }
  assert (F0 : c * f0 / (1 + f0) = c * (1 - / (1 + f0))). { unfold Rdiv. transitivity (c * (((1 + f0) * / (1 + f0)) - / (1 + f0))); [ring|now rewrite I0]. }
  assert (V : / (1 + f n) <= / (1 + f0)) by (apply Rinv_le_contravar; lra).
  assert (G : f n * (1 + y) <= f n * exp y) by (apply Rmult_le_compat_l; lra).
  assert (G' : f n * exp y <= f n * (1 + y * exp y)) by (apply Rmult_le_compat_l; lra).
  assert (S1 : c * f0 / (1 + f0) <= f n * y). { rewrite F0, Fy. apply Rmult_le_compat_l; lra. }
  assert (0 < c * f0 / (1 + f0)) by (apply Rmult_lt_0_compat; [nra|lra]).
  assert (S2 : f n * y * exp y <= c * exp c). { assert (f n * y <= c) by (rewrite Fy; nra). pose proof (exp_pos y). assert (0 <= f n * y) by nra. apply Rmult_le_compat; lra. }
  split; [lra|]. split; [lra|]. lra.
Qed.
Lemma farm_step D r' r ro k : 0 < D -> r' = r + k * (1 - / (1 + Rpower 10 ((ro - r) / D))) ->
  Rpower 10 ((r' - ro) / D) = Rpower 10 ((r - ro) / D) * exp (k * ln 10 / D / (1 + Rpower 10 ((r - ro) / D))).
Proof.
  intros HD ->. assert (X : Rpower 10 ((ro - r) / D) = / Rpower 10 ((r - ro) / D)). { replace ((ro - r) / D) with (- ((r - ro) / D)) by (field; lra). apply Rpower_Ropp. }
  rewrite X. set (f := Rpower 10 ((r - ro) / D)). assert (Hf : 0 < f) by apply Rpower_gt0.
  replace ((r + k * (1 - / (1 + / f)) - ro) / D) with ((r - ro) / D + k / D / (1 + f)) by (field; lra).
  rewrite Rpower_plus. fold f. f_equal. unfold Rpower. f_equal. field. lra.
Qed.
Lemma log_unbounded D ro a b (u : nat -> R) : 0 < D -> 0 < b -> (forall n, a + INR n * b <= Rpower 10 ((u n - ro) / D)) -> forall M, exists n, M < u n.
Proof.
  intros HD Hb H M. destruct (INR_big ((Rpower 10 ((M - ro) / D) - a) / b)) as [n Hn]. exists n. apply Rnot_le_lt. intros C.
  specialize (H n). assert (Q : Rpower 10 ((u n - ro) / D) <= Rpower 10 ((M - ro) / D)).
  { apply Rle_Rpower; [lra|]. apply Rmult_le_compat_r; [apply Rlt_le, Rinv_0_lt_compat; lra|lra]. }
  apply (Rmult_lt_compat_r b) in Hn; [|lra]. unfold Rdiv at 1 in Hn. rewrite Rmult_assoc, Rinv_l, Rmult_1_r in Hn by lra. lra.
Qed.

Lemma C112_elo_proof : forall r ro k, 0 < k -> exists u : nat -> R,
  (forall n, elo_rating_period (mkElo (Fin r)) (repeat (mkElo (Fin ro), WIN) n) (mkEloConfig (Fin k)) = mkElo (Fin (u n))) /\
  (forall n, u n < u (S n)) /\ (forall M, exists n, M < u n) /\
  let f0 := Rpower 10 ((r - ro) / 400) in let c := k * ln 10 / 400 in
  forall n, f0 + INR n * (c * f0 / (1 + f0)) <= Rpower 10 ((u n - ro) / 400) <= f0 + INR n * (c * exp c).
Proof.
  intros r ro k Hk. exists (fun n => elo_seq k ro 1 n r). split; [intros; apply (elo_period_seq k ro WIN)|]. set (u := fun n => elo_seq k ro 1 n r).
  assert (E : forall n, u (S n) = u n + k * (1 - / (1 + Rpower 10 ((ro - u n) / 400)))).
  { intros. unfold u, elo_seq. cbn [rep]. unfold elo_upd at 1, elo_E, Rdiv at 1. now rewrite Rmult_1_l. }
  pose proof ln10_close. set (f0 := Rpower 10 ((r - ro) / 400)). set (c := k * ln 10 / 400).
  assert (Hc : 0 < c) by (unfold c; nra). assert (H0 : 0 < f0) by apply Rpower_gt0.
  assert (B : forall n, f0 + INR n * (c * f0 / (1 + f0)) <= Rpower 10 ((u n - ro) / 400) <= f0 + INR n * (c * exp c)).
  { intros n. apply (farm_bounds c f0 (fun n => Rpower 10 ((u n - ro) / 400)) Hc H0 eq_refl). intros m. cbv beta. apply farm_step; [lra|apply E]. }
  split; [|split].
  - intros n. change (u n < u (S n)). rewrite E. pose proof (Rpower_gt0 10 ((ro - u n) / 400)).
    assert (/ (1 + Rpower 10 ((ro - u n) / 400)) < 1). { rewrite <- Rinv_1. apply Rinv_lt_contravar; lra. } nra.
  - apply (log_unbounded 400 ro f0 (c * f0 / (1 + f0)) u); [lra| |intros; apply B]. apply Rmult_lt_0_compat; [nra|apply Rinv_0_lt_compat; lra].
  - cbv zeta. exact B.
Qed.
Lemma C112_fifa_proof : forall r ro i, 0 < i -> exists u : nat -> R,
  (forall n, fifa_rating_period (mkFifa (Fin r)) (repeat (mkFifa (Fin ro), WIN, mkFifaConfig (Fin i) false false) n) = mkFifa (Fin (u n))) /\
  (forall n, u n < u (S n)) /\ (forall M, exists n, M < u n) /\
  let f0 := Rpower 10 ((r - ro) / 600) in let c := i * ln 10 / 600 in
  forall n, f0 + INR n * (c * f0 / (1 + f0)) <= Rpower 10 ((u n - ro) / 600) <= f0 + INR n * (c * exp c).
Proof.
  intros r ro k Hk. exists (fun n => fifa_seq k ro 1 n r). split; [intros; apply (fifa_period_seq k ro WIN)|]. set (u := fun n => fifa_seq k ro 1 n r).
  assert (E : forall n, u (S n) = u n + k * (1 - / (1 + Rpower 10 ((ro - u n) / 600)))).
  { intros. unfold u, fifa_seq. cbn [rep]. set (x := rep _ n r). unfold fifa_upd at 1. rewrite fifa_We_inv. replace (- (x - ro) / 600) with ((ro - x) / 600) by field. reflexivity. }
  pose proof ln10_close. set (f0 := Rpower 10 ((r - ro) / 600)). set (c := k * ln 10 / 600).
  assert (Hc : 0 < c) by (unfold c; nra). assert (H0 : 0 < f0) by apply Rpower_gt0.
  assert (B : forall n, f0 + INR n * (c * f0 / (1 + f0)) <= Rpower 10 ((u n - ro) / 600) <= f0 + INR n * (c * exp c)).
  { intros n. apply (farm_bounds c f0 (fun n => Rpower 10 ((u n - ro) / 600)) Hc H0 eq_refl). intros m. cbv beta. apply farm_step; [lra|apply E]. }
  split; [|split].
  - intros n. change (u n < u (S n)). rewrite E. pose proof (Rpower_gt0 10 ((ro - u n) / 600)).
    assert (/ (1 + Rpower 10 ((ro - u n) / 600)) < 1). { rewrite <- Rinv_1. apply Rinv_lt_contravar; lra. } nra.
  - apply (log_unbounded 600 ro f0 (c * f0 / (1 + f0)) u); [lra| |intros; apply B]. apply Rmult_lt_0_compat; [nra|apply Rinv_0_lt_compat; lra].
  - cbv zeta. exact B.
Qed.

(** ** The order of two games against the same opponent *)
Lemma C109_elo_order_proof : forall r ro k o o', 0 < k -> points o < points o' -> exists a b,
  elo_rating_period (mkElo (Fin r)) [(mkElo (Fin ro), o); (mkElo (Fin ro), o')] (mkEloConfig (Fin k)) = mkElo (Fin a) /\
  elo_rating_period (mkElo (Fin r)) [(mkElo (Fin ro), o'); (mkElo (Fin ro), o)] (mkEloConfig (Fin k)) = mkElo (Fin b) /\ b < a.
Proof.
  intros r ro k o o' Hk H. rewrite !elo_period_fold. cbn [fold_left fst snd]. rewrite !elo_eval. cbn [fst]. rewrite !elo_eval. cbn [fst].
  do 2 eexists. split; [reflexivity|split; [reflexivity|]].
  assert (L : elo_upd k r ro (points o) < elo_upd k r ro (points o')) by (unfold elo_upd; nra).
  set (A := elo_upd k r ro (points o)) in *. set (B := elo_upd k r ro (points o')) in *.
  pose proof (elo_E_mono _ _ ro L). change (B + k * (points o - elo_E B ro) < A + k * (points o' - elo_E A ro)).
  assert (B - A = k * (points o' - points o)) by (unfold A, B, elo_upd; ring). nra.
Qed.
