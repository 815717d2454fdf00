(** Proofs of C149: the later result counts more. *)
From Coq Require Import ZArith NArith List Bool Reals Lra Lia.
From Verif Require Import Arith XR Tac ModelLib ModelElo ModelFifa ModelIngo Spec ProofElo ProofFifa ProofIngo ProofBoost2 ProofOrder2 ProofLong ProofMono ProofAccPer ProofConvert.
Import ListNotations.
Local Open Scope R_scope.

(** One game against an opponent at [b] on the logistic curve of slope [a]. *)
Definition rstep (k a b : R) (s x : R) : R := x + k * (s - sg ((x - b) * a)).
Lemma rstep_mono k a b s x y : 0 < k -> 0 < a -> k * a <= 4 -> x <= y -> rstep k a b s x <= rstep k a b s y.
Proof.
  intros Hk Ha H L. unfold rstep. pose proof (sg_lip ((x - b) * a) ((y - b) * a) ltac:(nra)) as [_ S]. replace ((y - b) * a - (x - b) * a) with (a * (y - x)) in S by ring. assert (k * (sg ((y - b) * a) - sg ((x - b) * a)) <= k * (a * (y - x) / 4)) by (apply Rmult_le_compat_l; lra).
  replace (k * (a * (y - x) / 4)) with (k * a * ((y - x) / 4)) in H0 by field. assert (k * a * ((y - x) / 4) <= 4 * ((y - x) / 4)) by (apply Rmult_le_compat_r; lra). lra.
Qed.
(** Two games in the two orders. *)
Lemma rstep_swap k a b s b' s' x : 0 < k -> 0 < a -> (b = b' /\ s < s') \/ (s < sg ((x - b) * a) /\ sg ((x - b') * a) < s') -> rstep k a b s (rstep k a b' s' x) < rstep k a b' s' (rstep k a b s x).
Proof.
  intros Hk Ha H. set (y := rstep k a b s x). set (z := rstep k a b' s' x). unfold rstep. assert (E : forall u v w, u < v -> sg ((u - w) * a) < sg ((v - w) * a)) by (intros u v w L; apply sg_lt; apply Rmult_lt_compat_r; lra).
  assert (YE : y = x + k * (s - sg ((x - b) * a))) by reflexivity. assert (ZE : z = x + k * (s' - sg ((x - b') * a))) by reflexivity. clearbody y z. destruct H as [[<- H]|[H1 H2]].
  - assert (L : y < z) by nra. specialize (E y z b L). nra.
  - assert (L1 : y < x) by nra. assert (L2 : x < z) by nra. pose proof (E y x b' L1). pose proof (E x z b L2). nra.
Qed.

(** Sorting the results. *)
Fixpoint oins (o : Outcomes) (l : list Outcomes) : list Outcomes :=
  match l with [] => [o] | h :: t => if Rle_dec (points o) (points h) then o :: h :: t else h :: oins o t end.
Definition osort (l : list Outcomes) : list Outcomes := fold_right oins [] l.
Definition nout (o : Outcomes) (l : list Outcomes) : nat := length (filter (fun x => match x, o with WIN, WIN | DRAW, DRAW | LOSS, LOSS => true | _, _ => false end) l).
Definition rplay (k a b : R) (l : list Outcomes) (x : R) : R := fold_left (fun y o => rstep k a b (points o) y) l x.
Lemma rplay_mono k a b l : 0 < k -> 0 < a -> k * a <= 4 -> forall x y, x <= y -> rplay k a b l x <= rplay k a b l y.
Proof. intros Hk Ha H. induction l as [|o l IH]; intros x y L; [exact L|]. cbn. apply IH. now apply rstep_mono. Qed.
Lemma rplay_ins k a b o l : 0 < k -> 0 < a -> k * a <= 4 -> forall x, rplay k a b (o :: l) x <= rplay k a b (oins o l) x.
Proof.
  intros Hk Ha H. induction l as [|h t IH]; intros x; [cbn; lra|]. cbn [oins]. destruct (Rle_dec (points o) (points h)) as [L|L]; [lra|]. apply Rle_trans with (rplay k a b (h :: o :: t) x).
  - cbn. apply rplay_mono; auto. left. apply rstep_swap; auto. left. split; [reflexivity|lra].
  - exact (IH (rstep k a b (points h) x)).
Qed.
Lemma rplay_sort k a b l : 0 < k -> 0 < a -> k * a <= 4 -> forall x, rplay k a b l x <= rplay k a b (osort l) x.
Proof.
  intros Hk Ha H. induction l as [|o l IH]; intros x; [cbn; lra|]. eapply Rle_trans; [|exact (rplay_ins k a b o (osort l) Hk Ha H x)]. exact (IH (rstep k a b (points o) x)).
Qed.
Lemma oins_skip o h n l : points h < points o -> oins o (repeat h n ++ l) = repeat h n ++ oins o l.
Proof. intros H. induction n as [|n IH]; [reflexivity|]. cbn. destruct (Rle_dec (points o) (points h)); [lra|]. now rewrite IH. Qed.
Lemma oins_front o l : (forall h, In h l -> points o <= points h) -> oins o l = o :: l.
Proof. destruct l as [|h t]; intros H; [reflexivity|]. cbn. destruct (Rle_dec (points o) (points h)) as [|N]; [reflexivity|]. exfalso. apply N, H. now left. Qed.
Lemma osort_blocks l : osort l = repeat LOSS (nout LOSS l) ++ repeat DRAW (nout DRAW l) ++ repeat WIN (nout WIN l).
Proof.
  induction l as [|o l IH]; [reflexivity|]. change (osort (o :: l)) with (oins o (osort l)). rewrite IH. destruct o; cbn [nout filter]; unfold nout in *; cbn [length repeat app].
  - rewrite !oins_skip by (cbn; lra). rewrite oins_front; [reflexivity|]. intros h Hh. apply repeat_spec in Hh. subst. cbn; lra.
  - rewrite oins_front; [reflexivity|]. intros h Hh. destruct h; cbn; lra.
  - rewrite oins_skip by (cbn; lra). rewrite oins_front; [reflexivity|]. intros h Hh. apply in_app_or in Hh. destruct Hh as [Hh|Hh]; apply repeat_spec in Hh; subst; cbn; lra.
Qed.
(** The mirror image. *)
Lemma rplay_neg k a b l : forall x, rplay k a (- b) (map invert l) (- x) = - rplay k a b l x.
Proof.
  induction l as [|o l IH]; intros x; [reflexivity|]. cbn [map rplay fold_left]. replace (rstep k a (- b) (points (invert o)) (- x)) with (- rstep k a b (points o) x); [apply IH|]. unfold rstep. rewrite points_invert. replace ((- x - - b) * a) with (- ((x - b) * a)) by ring. rewrite sg_odd. ring.
Qed.
Lemma map_repeat' {A B} (f : A -> B) x n : map f (repeat x n) = repeat (f x) n.
Proof. induction n as [|n IH]; [reflexivity|]. cbn. now rewrite IH. Qed.
Lemma nout_invert o l : nout o (map invert l) = nout (invert o) l.
Proof. unfold nout. induction l as [|h l IH]; [reflexivity|]. cbn [map filter]. destruct h, o; cbn [invert length] in *; rewrite ?IH; reflexivity. Qed.
Lemma rplay_range k a b l x : 0 < k -> 0 < a -> k * a <= 4 ->
  rplay k a b (repeat WIN (nout WIN l) ++ repeat DRAW (nout DRAW l) ++ repeat LOSS (nout LOSS l)) x <= rplay k a b l x <= rplay k a b (repeat LOSS (nout LOSS l) ++ repeat DRAW (nout DRAW l) ++ repeat WIN (nout WIN l)) x.
Proof.
  intros Hk Ha H. split; [|rewrite <- osort_blocks; now apply rplay_sort]. pose proof (rplay_sort k a (- b) (map invert l) Hk Ha H (- x)) as S. rewrite osort_blocks, !nout_invert in S. cbn [invert] in S. rewrite rplay_neg in S.
  set (w := nout WIN l) in *. set (d := nout DRAW l) in *. set (o := nout LOSS l) in *. assert (E : repeat LOSS w ++ repeat DRAW d ++ repeat WIN o = map invert (repeat WIN w ++ repeat DRAW d ++ repeat LOSS o)) by (rewrite !map_app, !map_repeat'; reflexivity). rewrite E, rplay_neg in S. lra.
Qed.
Lemma elo_rplay k ro l r : elo_rating_period (mkElo (Fin r)) (map (fun o => (mkElo (Fin ro), o)) l) (mkEloConfig (Fin k)) = mkElo (Fin (rplay k (ln 10 / 400) ro l r)).
Proof.
  pose proof (elo_period_fin k (map (fun o => (ro, o)) l) r) as E. unfold elo_gs in E. rewrite map_map in E. cbn [fst snd] in E. rewrite E. do 2 f_equal. clear E. revert r. induction l as [|o l IH]; intros r; [reflexivity|]. unfold elo_fin. cbn [map fold_left fst snd]. fold (elo_fin k (map (fun o => (ro, o)) l) (elo_upd k r ro (points o))). rewrite IH. cbn [rplay fold_left]. unfold rplay. f_equal. unfold elo_upd, rstep. rewrite elo_E_sg. unfold Rdiv. now rewrite Rmult_assoc.
Qed.
Lemma fifa_rplay k ro l r : fifa_rating_period (mkFifa (Fin r)) (map (fun o => (mkFifa (Fin ro), o, mkFifaConfig (Fin k) false false)) l) = mkFifa (Fin (rplay k (ln 10 / 600) ro l r)).
Proof.
  pose proof (fifa_period_fin (map (fun o => (ro, o, (k, false, false))) l) r) as E. unfold fifa_gs in E. rewrite map_map in E. cbn [fst snd] in E. rewrite E. do 2 f_equal. clear E. revert r. induction l as [|o l IH]; intros r; [reflexivity|]. unfold fifa_fin. cbn [map fold_left fst snd]. fold (fifa_fin (map (fun o => (ro, o, (k, false, false))) l) (ko_max false r (fifa_upd k r ro (code_W1 false o)))). rewrite IH. cbn [rplay fold_left]. unfold rplay. f_equal. unfold ko_max, fifa_upd, rstep, code_W1. rewrite fifa_We_sg. unfold Rdiv. now rewrite Rmult_assoc.
Qed.
Lemma C149_elo_proof : forall k ro r (l : list Outcomes), 0 < k -> k * ln 10 <= 1600 -> exists lo x hi,
  let n o := length (filter (fun x => match x, o with WIN, WIN | DRAW, DRAW | LOSS, LOSS => true | _, _ => false end) l) in
  let play l := elo_rating_period (mkElo (Fin r)) (map (fun o => (mkElo (Fin ro), o)) l) (mkEloConfig (Fin k)) in
  play (repeat WIN (n WIN) ++ repeat DRAW (n DRAW) ++ repeat LOSS (n LOSS)) = mkElo (Fin lo) /\ play l = mkElo (Fin x) /\
  play (repeat LOSS (n LOSS) ++ repeat DRAW (n DRAW) ++ repeat WIN (n WIN)) = mkElo (Fin hi) /\ lo <= x <= hi.
Proof.
  intros k ro r l Hk HK. pose proof ln10_close. do 3 eexists. cbv zeta beta. rewrite !elo_rplay. do 3 (split; [reflexivity|]). apply (rplay_range k (ln 10 / 400) ro l r); lra.
Qed.
Lemma C149_fifa_proof : forall k ro r (l : list Outcomes), 0 < k -> k * ln 10 <= 2400 -> exists lo x hi,
  let n o := length (filter (fun x => match x, o with WIN, WIN | DRAW, DRAW | LOSS, LOSS => true | _, _ => false end) l) in
  let play l := fifa_rating_period (mkFifa (Fin r)) (map (fun o => (mkFifa (Fin ro), o, mkFifaConfig (Fin k) false false)) l) in
  play (repeat WIN (n WIN) ++ repeat DRAW (n DRAW) ++ repeat LOSS (n LOSS)) = mkFifa (Fin lo) /\ play l = mkFifa (Fin x) /\
  play (repeat LOSS (n LOSS) ++ repeat DRAW (n DRAW) ++ repeat WIN (n WIN)) = mkFifa (Fin hi) /\ lo <= x <= hi.
Proof.
  intros k ro r l Hk HK. pose proof ln10_close. do 3 eexists. cbv zeta beta. rewrite !fifa_rplay. do 3 (split; [reflexivity|]). apply (rplay_range k (ln 10 / 600) ro l r); lra.
Qed.
(** Two games next to each other anywhere in a period. *)
Lemma C149_elo_swap_proof : forall k r (pre post : list (R * Outcomes)) o1 s1 o2 s2, 0 < k -> k * ln 10 < 1600 -> exists y e1 e2 x x',
  let g := map (fun g => (mkElo (Fin (fst g)), snd g)) in let play l := elo_rating_period (mkElo (Fin r)) (g l) (mkEloConfig (Fin k)) in
  play pre = mkElo (Fin y) /\ fst (elo_expected_score (mkElo (Fin y)) (mkElo (Fin o1))) = Fin e1 /\ fst (elo_expected_score (mkElo (Fin y)) (mkElo (Fin o2))) = Fin e2 /\
  play (pre ++ [(o1, s1); (o2, s2)] ++ post) = mkElo (Fin x) /\ play (pre ++ [(o2, s2); (o1, s1)] ++ post) = mkElo (Fin x') /\
  ((o1 = o2 /\ points s1 < points s2) \/ (points s1 < e1 /\ e2 < points s2) -> x' < x).
Proof.
  intros k r pre post o1 s1 o2 s2 Hk HK. pose proof ln10_close as LN. set (y := elo_fin k pre r). exists y, (elo_E y o1), (elo_E y o2), (elo_fin k (pre ++ [(o1, s1); (o2, s2)] ++ post) r), (elo_fin k (pre ++ [(o2, s2); (o1, s1)] ++ post) r). cbv zeta beta. rewrite !elo_expected_eval. cbn [fst].
  split; [apply elo_period_fin|]. do 2 (split; [reflexivity|]). do 2 (split; [apply elo_period_fin|]). intros H. unfold elo_fin. rewrite !fold_left_app. cbn [fold_left fst snd]. fold (elo_fin k pre r). fold y. apply (elo_fin_mono k post ltac:(lra) HK).
  assert (U : forall b s z, elo_upd k z b s = rstep k (ln 10 / 400) b s z) by (intros b s z; unfold elo_upd, rstep; rewrite elo_E_sg; unfold Rdiv; now rewrite Rmult_assoc). rewrite !U. apply rstep_swap; [auto|lra|]. rewrite !elo_E_sg in H. unfold Rdiv in *. rewrite !Rmult_assoc in H. exact H.
Qed.
Lemma C149_ingo_swap_proof : forall r a (post : list (R * N * Outcomes)) o1 a1 s1 o2 a2 s2, exists x x',
  let play l := fold_left (fun p g => fst (ingo p (mkIngo (Fin (fst (fst g))) (snd (fst g))) (snd g))) l (mkIngo (Fin r) a) in
  let perf o s := o - (100 * points s - 50) in
  play ((o1, a1, s1) :: (o2, a2, s2) :: post) = mkIngo (Fin x) a /\ play ((o2, a2, s2) :: (o1, a1, s1) :: post) = mkIngo (Fin x') a /\
  x - x' = (perf o2 s2 - perf o1 s1) / (1 + ingo_D a) ^ 2 * (ingo_D a / (1 + ingo_D a)) ^ length post.
Proof.
  intros r a post o1 a1 s1 o2 a2 s2. pose proof (ingo_D_range a) as HD. set (D := ingo_D a) in *. set (f := fun z (g : R * N * Outcomes) => ingo_upd 1 z D (fst (fst g)) (points (snd g))).
  assert (P : forall l z, fold_left (fun p g => fst (ingo p (mkIngo (Fin (fst (fst g))) (snd (fst g))) (snd g))) l (mkIngo (Fin z) a) = mkIngo (Fin (fold_left f l z)) a) by (induction l as [|g l IH]; intros z; [reflexivity|]; cbn [fold_left]; rewrite ingo_eval; cbn [fst]; apply IH).
  assert (C : forall l z z', fold_left f l z - fold_left f l z' = (z - z') * (D / (1 + D)) ^ length l). { induction l as [|g l IH]; intros z z'; [cbn; ring|]. cbn [fold_left length pow]. rewrite IH. unfold f, ingo_upd. field. lra. }
  do 2 eexists. cbv zeta beta. rewrite !P. split; [reflexivity|]. split; [reflexivity|]. cbn [fold_left]. rewrite C. f_equal. unfold f, ingo_upd, ingo_perf. cbn [fst snd]. field. lra.
Qed.
