(** Proofs about whole seasons of Elo games. *)
From Coq Require Import ZArith NArith List Bool Reals Lra Lia Arith.PeanoNat.
From Verif Require Import Arith XR Tac ModelLib ModelElo ModelFifa Spec SpecLeague ProofElo ProofFifa.
Import ListNotations.
Local Open Scope R_scope.

Lemma put_length {X} i (x : X) l : length (put i x l) = length l.
Proof. revert i. induction l as [|y l IH]; intros [|i]; cbn; auto. Qed.
Lemma put_nth_same {X} i (x : X) l : (i < length l)%nat -> nth_error (put i x l) i = Some x.
Proof. revert i. induction l as [|y l IH]; intros [|i] H; cbn in *; try lia; auto. apply IH. lia. Qed.
Lemma put_nth_other {X} i j (x : X) l : i <> j -> nth_error (put i x l) j = nth_error l j.
Proof. revert i j. induction l as [|y l IH]; intros [|i] [|j] H; cbn; auto; try lia. Qed.
Lemma put_map {X Y} (g : X -> Y) i x l : put i (g x) (map g l) = map g (put i x l).
Proof. revert i. induction l as [|y l IH]; intros [|i]; cbn; auto. now rewrite IH. Qed.
Lemma put_sum i x l y : nth_error l i = Some y -> Rsum (put i x l) = Rsum l + x - y.
Proof.
  revert i. induction l as [|z l IH]; intros [|i] H; cbn in H; try discriminate.
  - injection H as ->. cbn [put]. rewrite !Rsum_cons. ring.
  - cbn [put]. rewrite !Rsum_cons, (IH i) by auto. ring.
Qed.

(** Real-valued Elo games, and how one of them changes the pool. *)
Definition ru (a b : R) (x : Outcomes * R) : R * R := (elo_upd (snd x) a b (points (fst x)), elo_upd (snd x) b a (points (invert (fst x)))).
Lemma play_elo rs g : play (fun p q x => elo p q (fst x) (mkEloConfig (Fin (snd x)))) (map (fun r => mkElo (Fin r)) rs) g =
  map (fun r => mkElo (Fin r)) (play ru rs g).
Proof.
  destruct g as [[i j] x]. unfold play. destruct (Nat.eqb i j); auto. rewrite !nth_error_map.
  destruct (nth_error rs i) as [a|], (nth_error rs j) as [b|]; cbn [option_map]; auto. rewrite elo_eval. cbn [fst snd ru]. now rewrite <- !(put_map (fun r => mkElo (Fin r))).
Qed.
Lemma season_elo gs rs : season (fun p q x => elo p q (fst x) (mkEloConfig (Fin (snd x)))) (map (fun r => mkElo (Fin r)) rs) gs =
  map (fun r => mkElo (Fin r)) (season ru rs gs).
Proof. revert rs. unfold season. induction gs as [|g gs IH]; intros rs; cbn [fold_left]; auto. rewrite play_elo. apply IH. Qed.
Lemma play_facts rs g : let rs' := play ru rs g in
  length rs' = length rs /\ Rsum rs' = Rsum rs /\
  forall n, let '(i, j, x) := g in
    (n <> i -> n <> j -> nth n rs' 0 = nth n rs 0) /\ Rabs (nth n rs' 0 - nth n rs 0) <= Rabs (snd x) /\
    (0 < snd x -> (n = i -> fst x = WIN) -> (n = j -> fst x = LOSS) -> nth n rs 0 <= nth n rs' 0).
Proof.
  destruct g as [[i j] x]. unfold play. destruct (Nat.eqb_spec i j) as [|N].
  { split; [auto|split; [auto|]]. intros n. split; [auto|split; [|intros; lra]]. rewrite Rminus_diag_eq, Rabs_R0 by auto. apply Rabs_pos. }
  destruct (nth_error rs i) as [a|] eqn:Ei, (nth_error rs j) as [b|] eqn:Ej;
    try (split; [auto|split; [auto|]]; intros n; split; [auto|split; [|intros; lra]]; rewrite Rminus_diag_eq, Rabs_R0 by auto; apply Rabs_pos).
  cbn [ru fst snd]. split; [now rewrite !put_length|]. split.
  { rewrite (put_sum j _ _ b) by (rewrite put_nth_other; auto). rewrite (put_sum i _ _ a) by auto. pose proof (elo_conserve a b (snd x) (fst x)) as C. lra. }
  assert (Li : (i < length rs)%nat) by (apply nth_error_Some; now rewrite Ei). assert (Lj : (j < length rs)%nat) by (apply nth_error_Some; now rewrite Ej).
  intros n. set (a' := elo_upd (snd x) a b (points (fst x))). set (b' := elo_upd (snd x) b a (points (invert (fst x)))).
  assert (NI : nth i (put j b' (put i a' rs)) 0 = a'). { apply nth_error_nth. rewrite put_nth_other by auto. now apply put_nth_same. }
  assert (NJ : nth j (put j b' (put i a' rs)) 0 = b'). { apply nth_error_nth. apply put_nth_same. now rewrite put_length. }
  assert (NO : n <> i -> n <> j -> nth n (put j b' (put i a' rs)) 0 = nth n rs 0).
  { intros H1 H2. destruct (nth_error rs n) as [c|] eqn:En.
    - rewrite (nth_error_nth rs n 0 En). apply nth_error_nth. rewrite !put_nth_other by auto. exact En.
    - rewrite !nth_overflow; auto; rewrite ?put_length; now apply nth_error_None. }
  assert (B : forall u v s, 0 <= s <= 1 -> Rabs (elo_upd (snd x) u v s - u) <= Rabs (snd x)).
  { intros u v s Hs. unfold elo_upd. replace (u + snd x * (s - elo_E u v) - u) with (snd x * (s - elo_E u v)) by ring. rewrite Rabs_mult. pose proof (Rabs_pos (snd x)).
    pose proof (elo_E_range u v). assert (Rabs (s - elo_E u v) <= 1) by (apply Rabs_le; lra). nra. }
  assert (RI : nth i rs 0 = a) by now apply nth_error_nth. assert (RJ : nth j rs 0 = b) by now apply nth_error_nth.
  split; [exact NO|]. destruct (Nat.eq_dec n i) as [->|Hi]; [|destruct (Nat.eq_dec n j) as [->|Hj]].
  - rewrite NI, RI. split; [apply B, points_range|]. intros K W _. unfold a'. rewrite W by auto. unfold elo_upd. cbn [points]. pose proof (elo_E_range a b). nra.
  - rewrite NJ, RJ. split; [apply B, points_range|]. intros K _ W. unfold b'. rewrite W by auto. unfold elo_upd. cbn [invert points]. pose proof (elo_E_range b a). nra.
  - rewrite NO by auto. split; [|intros; lra]. rewrite Rminus_diag_eq, Rabs_R0 by auto. apply Rabs_pos.
Qed.
Lemma C93_season_proof : forall rs gs,
  exists rs', season (fun p q x => elo p q (fst x) (mkEloConfig (Fin (snd x)))) (map (fun r => mkElo (Fin r)) rs) gs = map (fun r => mkElo (Fin r)) rs' /\
    length rs' = length rs /\ Rsum rs' = Rsum rs /\
    (forall K n, (forall i j o k, In (i, j, (o, k)) gs -> Rabs k <= K) -> Rabs (nth n rs' 0 - nth n rs 0) <= K * INR (games_of n gs)) /\
    (forall n, (forall i j o k, In (i, j, (o, k)) gs -> 0 < k) -> won_all fst n gs -> nth n rs 0 <= nth n rs' 0).
Proof.
  intros rs gs. exists (season ru rs gs). split; [apply season_elo|]. revert rs. unfold season. induction gs as [|g gs IH]; intros rs; cbn [fold_left].
  - split; [auto|split; [auto|]]. split; [|intros; lra]. intros K n _. cbn. rewrite Rminus_diag_eq, Rabs_R0 by auto. lra.
  - destruct (play_facts rs g) as (L & S & F). destruct (IH (play ru rs g)) as (L' & S' & F' & W'). split; [congruence|]. split; [congruence|]. split.
    + intros K n HK. specialize (F n). specialize (F' K n (fun i j o k H => HK i j o k (or_intror H))). destruct g as [[i j] [o k]]. destruct F as (F1 & F2 & _). specialize (HK i j o k (or_introl eq_refl)). cbn [snd] in *.
      unfold games_of in *. cbn [filter fst snd]. set (A := nth n (fold_left _ _ _) 0) in *. set (B := nth n (play ru rs _) 0) in *.
      assert (T : Rabs (A - nth n rs 0) <= Rabs (A - B) + Rabs (B - nth n rs 0)). { replace (A - nth n rs 0) with ((A - B) + (B - nth n rs 0)) by ring. apply Rabs_triang. }
      destruct (Nat.eqb_spec n i) as [->|N1]; [cbn [orb length]; rewrite S_INR; lra|]. destruct (Nat.eqb_spec n j) as [->|N2]; [cbn [orb length]; rewrite S_INR; lra|].
      cbn [orb]. specialize (F1 N1 N2). rewrite F1, (Rminus_diag_eq (nth n rs 0) (nth n rs 0) eq_refl), Rabs_R0 in T. rewrite F1 in F'. lra.
    + intros n HK W. specialize (F n). destruct g as [[i j] [o k]]. destruct F as (_ & _ & F3). cbn [fst snd] in F3.
      destruct (W i j (o, k) (or_introl eq_refl)) as [W1 W2]. cbn [fst] in W1, W2.
      eapply Rle_trans; [apply F3; [apply (HK i j o k); now left|intros ->; auto|intros ->; auto]|]. apply W'; [intros; eapply HK; right; eauto|]. intros a b x Hx. apply W. now right.
Qed.
