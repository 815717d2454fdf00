(** Convergence of the Illinois variant of regula falsi for any continuous
    function all of whose zeros are simple, in plain real arithmetic.  No model
    code in this file. *)
From Coq Require Import ZArith List Bool Reals Lra Lia ClassicalDedekindReals.
From Verif Require Import Tac MathIllinois.
Local Open Scope R_scope.

(** ** Runs of the method as sequences.  [l], [u] are the ends of the bracket,
    [g], [h] the function values kept for them (absolute values, possibly
    halved), [up n] tells which end was moved last. *)
Definition simple_at (F : R -> R) (p : R) : Prop :=
  (exists d c, 0 < d /\ 0 < c /\ forall x, Rabs (x - p) < d -> c <= F x <= 4 * c) \/
  (exists d m, 0 < d /\ 0 < m /\ forall x, Rabs (x - p) < d -> m * Rabs (x - p) <= F x <= 4 * m * Rabs (x - p)).

Record run (F : R -> R) (tol : R) (l u g h : nat -> R) (up : nat -> bool) : Prop := mkRun {
  r_wide : forall n, tol < u n - l n;
  r_pos : forall n, 0 < g n /\ 0 < h n;
  r_up : forall n, up (S n) = true ->
    u (S n) = u n - (u n - l n) * (h n / (g n + h n)) /\ h (S n) = F (u (S n)) /\ l (S n) = l n /\
    g (S n) = (if up n then g n / 2 else g n);
  r_dn : forall n, up (S n) = false ->
    l (S n) = l n + (u n - l n) * (g n / (g n + h n)) /\ g (S n) = F (l (S n)) /\ u (S n) = u n /\
    h (S n) = (if up n then h n else h n / 2) }.

Lemma run_mirror F tol l u g h up : run F tol l u g h up ->
  run (fun x => F (- x)) tol (fun n => - u n) (fun n => - l n) h g (fun n => negb (up n)).
Proof.
  intros [W P U D]. constructor.
  - intros n. specialize (W n). lra.
  - intros n. specialize (P n). tauto.
  - intros n E. apply negb_true_iff in E. destruct (D n E) as (e1 & e2 & e3 & e4). rewrite !Ropp_involutive.
    split; [|split; [auto|split; [congruence|]]].
    + rewrite e1, (Rplus_comm (h n)). ring.
    + rewrite e4. destruct (up n); reflexivity.
  - intros n E. apply negb_false_iff in E. destruct (U n E) as (e1 & e2 & e3 & e4). rewrite !Ropp_involutive.
    split; [|split; [auto|split; [congruence|]]].
    + rewrite e1, (Rplus_comm (h n)). ring.
    + rewrite e4. destruct (up n); reflexivity.
Qed.
Lemma simple_mirror F : (forall p, simple_at F p) -> forall p, simple_at (fun x => F (- x)) p.
Proof.
  intros H p.
  assert (E : forall x, Rabs (- x - - p) = Rabs (x - p)) by (intros; rewrite <- Rabs_Ropp; f_equal; ring).
  destruct (H (- p)) as [(d & c & Hd & Hc & K)|(d & c & Hd & Hc & K)]; [left|right]; exists d, c; repeat split; auto;
    intros; specialize (K (- x)); rewrite E in K; apply K; auto.
Qed.

Lemma move_bound W a b tol : 0 < tol -> tol < W -> 0 < a -> 0 < b -> W * (b / (a + b)) <= tol / 5 -> b <= a / 4.
Proof.
  intros Ht HW Ha Hb H. assert (Hab : 0 < a + b) by lra.
  assert (b / (a + b) <= / 5).
  { apply Rmult_le_reg_l with tol; [auto|]. apply Rle_trans with (W * (b / (a + b))); [|lra].
    apply Rmult_le_compat_r; [apply Rlt_le, Rdiv_lt_0_compat|]; lra. }
  assert (b / (a + b) * (a + b) <= / 5 * (a + b)) by (apply Rmult_le_compat_r; lra).
  unfold Rdiv in H1. rewrite Rmult_assoc, Rinv_l in H1 by lra. lra.
Qed.

Section Run.
  Variables (F : R -> R) (tol : R) (l u g h : nat -> R) (up : nat -> bool).
  Hypothesis Htol : 0 < tol.
  Hypothesis HF : forall p, simple_at F p.
  Hypothesis Hr : run F tol l u g h up.

  Lemma frac01 a b : 0 < a -> 0 < b -> 0 < b / (a + b) < 1.
  Proof.
    intros. split; [apply Rdiv_lt_0_compat; lra|]. apply Rmult_lt_reg_r with (a + b); [lra|].
    unfold Rdiv. rewrite Rmult_assoc, Rinv_l; lra.
  Qed.
  Lemma u_dec n : u (S n) <= u n.
  Proof using Hr Htol.
    destruct Hr as [W P U D]. specialize (W n). destruct (P n) as [pg ph]. destruct (up (S n)) eqn:E.
    - destruct (U n E) as (e & _). rewrite e. pose proof (frac01 (g n) (h n) pg ph). nra.
    - destruct (D n E) as (_ & _ & e & _). lra.
  Qed.
  Lemma l_inc n : l n <= l (S n).
  Proof using Hr Htol.
    destruct Hr as [W P U D]. specialize (W n). destruct (P n) as [pg ph]. destruct (up (S n)) eqn:E.
    - destruct (U n E) as (_ & _ & e & _). lra.
    - destruct (D n E) as (e & _). rewrite e. pose proof (frac01 (h n) (g n) ph pg). rewrite (Rplus_comm (h n)) in H. nra.
  Qed.
  Lemma l_mono n m : (n <= m)%nat -> l n <= l m.
  Proof using Hr Htol. induction 1; [lra|]. pose proof (l_inc m). lra. Qed.
  Lemma u_mono n m : (n <= m)%nat -> u m <= u n.
  Proof using Hr Htol. induction 1; [lra|]. pose proof (u_dec m). lra. Qed.

  Lemma u_lim : exists b, (forall n, b <= u n) /\ forall e, 0 < e -> exists N, forall n, (N <= n)%nat -> u n < b + e.
  Proof using Hr Htol.
    destruct (decreasing_cv u) as [b Hb].
    - intros n. apply u_dec.
    - exists (- l 0%nat). intros x (n & ->). unfold opp_seq. pose proof (l_mono 0 n ltac:(lia)).
      pose proof (r_wide _ _ _ _ _ _ _ Hr n). lra.
    - exists b. assert (Hle : forall n, b <= u n) by (apply decreasing_ineq; [intros n; apply u_dec|auto]).
      split; auto. intros e He. destruct (Hb e He) as (N & HN). exists N. intros n Hn. specialize (HN n Hn).
      unfold R_dist in HN. apply Rabs_def2 in HN. lra.
  Qed.

  (** From some point on, an upward move means that the upper value is small. *)
  Lemma up_small : exists N, forall n, (N <= n)%nat -> up (S n) = true -> h n <= g n / 4.
  Proof using Hr Htol.
    destruct u_lim as (b & Hb & Hc). destruct (Hc (tol / 5) ltac:(lra)) as (N & HN). exists N. intros n Hn E.
    destruct Hr as [W P U D]. specialize (W n). destruct (P n) as [pg ph]. destruct (U n E) as (e & _).
    apply (move_bound (u n - l n) (g n) (h n) tol); auto.
    specialize (HN n Hn). specialize (Hb (S n)). lra.
  Qed.

  (** Moving the upper end again hardly raises the function value. *)
  Lemma up_ratio : exists N, forall n, (N <= n)%nat -> F (u (S n)) <= 4 * F (u n).
  Proof using Hr Htol HF.
    destruct u_lim as (b & Hb & Hc). destruct (HF b) as [(d & c & Hd & Hc' & K)|(d & c & Hd & Hc' & K)];
      destruct (Hc d Hd) as (N & HN); exists N; intros n Hn.
    - assert (A1 : Rabs (u n - b) < d) by (specialize (Hb n); specialize (HN n Hn); rewrite Rabs_pos_eq; lra).
      assert (A2 : Rabs (u (S n) - b) < d) by (specialize (Hb (S n)); specialize (HN (S n) ltac:(lia)); rewrite Rabs_pos_eq; lra).
      apply K in A1, A2. lra.
    - assert (A1 : Rabs (u n - b) < d) by (specialize (Hb n); specialize (HN n Hn); rewrite Rabs_pos_eq; lra).
      assert (A2 : Rabs (u (S n) - b) < d) by (specialize (Hb (S n)); specialize (HN (S n) ltac:(lia)); rewrite Rabs_pos_eq; lra).
      apply K in A1, A2. pose proof (Hb n). pose proof (Hb (S n)). pose proof (u_dec n).
      rewrite Rabs_pos_eq in A1, A2 by lra. nra.
  Qed.

  (** Only upward moves from some point on: impossible at a simple zero. *)
  Lemma not_always_up N : (forall n, (N <= n)%nat -> up n = true) -> False.
  Proof using Hr Htol HF.
    intros Hup. destruct u_lim as (b & Hb & Hc). destruct up_small as (N1 & HS).
    assert (Hg : forall k, g (N + k)%nat = g N / 2 ^ k).
    { induction k as [|k IH]; [rewrite Nat.add_0_r; cbn; field|].
      replace (N + S k)%nat with (S (N + k)) by lia.
      destruct (r_up _ _ _ _ _ _ _ Hr (N + k)%nat) as (_ & _ & _ & e); [apply Hup; lia|].
      rewrite e, (Hup (N + k)%nat) by lia. rewrite IH. cbn [pow]. field. apply pow_nonzero; lra. }
    assert (Hg0 : forall e, 0 < e -> exists M, forall n, (M <= n)%nat -> g n < e).
    { intros e He. destruct (archimed_nat (g N / e)) as (k & Hk). exists (N + k)%nat. intros n Hn.
      replace n with (N + (n - N))%nat by lia. rewrite Hg.
      assert (P2 : INR k <= 2 ^ (n - N)).
      { apply Rle_trans with (2 ^ k); [apply INR_le_pow2|]. apply Rle_pow; [lra|lia]. }
      assert (0 < 2 ^ (n - N)) by (apply pow_lt; lra).
      apply Rmult_lt_reg_r with (2 ^ (n - N)); [auto|]. replace (g N / 2 ^ (n - N) * 2 ^ (n - N)) with (g N) by (field; lra).
      apply Rlt_le_trans with (INR k * e); [|nra].
      replace (g N) with (g N / e * e) by (field; lra). apply Rmult_lt_compat_r; lra. }
    assert (Hh : forall n, (S N <= n)%nat -> h n = F (u n)).
    { intros n Hn. destruct n as [|n]; [lia|]. apply (r_up _ _ _ _ _ _ _ Hr). apply Hup. lia. }
    destruct (HF b) as [(d & c & Hd & Hc' & K)|(d & c & Hd & Hc' & K)]; destruct (Hc d Hd) as (N2 & HN2).
    - destruct (Hg0 c Hc') as (M & HM). set (n := (S N + N1 + N2 + M)%nat).
      assert (A1 : Rabs (u n - b) < d) by (specialize (Hb n); specialize (HN2 n ltac:(lia)); rewrite Rabs_pos_eq; lra).
      apply K in A1. rewrite <- (Hh n) in A1 by lia. specialize (HM n ltac:(lia)).
      pose proof (HS n ltac:(lia) (Hup (S n) ltac:(lia))). destruct (r_pos _ _ _ _ _ _ _ Hr n). lra.
    - assert (Htc : 0 < tol * c) by (apply Rmult_lt_0_compat; auto). assert (He : 0 < tol * c / 2) by lra.
      destruct (Hg0 _ He) as (M & HM). set (n := (S N + N1 + N2 + M)%nat).
      assert (A1 : Rabs (u n - b) < d) by (specialize (Hb n); specialize (HN2 n ltac:(lia)); rewrite Rabs_pos_eq; lra).
      apply K in A1. rewrite <- (Hh n) in A1 by lia. specialize (HM n ltac:(lia)).
      pose proof (HS n ltac:(lia) (Hup (S n) ltac:(lia))) as H1. destruct (r_pos _ _ _ _ _ _ _ Hr n) as [pg ph].
      pose proof (r_wide _ _ _ _ _ _ _ Hr n) as Hw. pose proof (Hb n) as Hbn. pose proof (Hb (S n)) as HbS.
      rewrite Rabs_pos_eq in A1 by lra.
      destruct (r_up _ _ _ _ _ _ _ Hr n (Hup (S n) ltac:(lia))) as (e & _).
      assert (Hub : 0 < u n - b) by nra.
      assert (Q : tol * (h n / (2 * g n)) <= u n - b).
      { apply Rle_trans with ((u n - l n) * (h n / (g n + h n))); [|lra].
        apply Rmult_le_compat; [lra|apply Rlt_le, Rdiv_lt_0_compat; lra|lra|].
        unfold Rdiv. apply Rmult_le_compat_l; [lra|]. apply Rinv_le_mono; lra. }
      assert (Q2 : tol * h n <= (u n - b) * (2 * g n)).
      { apply Rmult_le_compat_r with (r := 2 * g n) in Q; [|lra].
        replace (tol * (h n / (2 * g n)) * (2 * g n)) with (tol * h n) in Q by (field; lra). lra. }
      assert (tol * (c * (u n - b)) <= tol * h n) by (apply Rmult_le_compat_l; lra).
      assert ((u n - b) * (2 * g n) < (u n - b) * (tol * c)) by (apply Rmult_lt_compat_l; lra). lra.
  Qed.
End Run.

Section Final.
  Variables (F : R -> R) (tol : R) (l u g h : nat -> R) (up : nat -> bool).
  Hypothesis Htol : 0 < tol.
  Hypothesis HF : forall p, simple_at F p.
  Hypothesis Hr : run F tol l u g h up.

  (** Facts that hold from some point on, for both ends. *)
  Lemma eventually : exists N, forall n, (N <= n)%nat ->
    (up (S n) = true -> h n <= g n / 4) /\ (up (S n) = false -> g n <= h n / 4) /\
    F (u (S n)) <= 4 * F (u n) /\ F (l (S n)) <= 4 * F (l n).
  Proof using Hr Htol HF.
    pose proof (run_mirror _ _ _ _ _ _ _ Hr) as Hr'. pose proof (simple_mirror F HF) as HF'.
    destruct (up_small _ _ _ _ _ _ _ Htol Hr) as (N1 & H1). destruct (up_small _ _ _ _ _ _ _ Htol Hr') as (N2 & H2).
    destruct (up_ratio _ _ _ _ _ _ _ Htol HF Hr) as (N3 & H3). destruct (up_ratio _ _ _ _ _ _ _ Htol HF' Hr') as (N4 & H4).
    exists (N1 + N2 + N3 + N4)%nat. intros n Hn. cbv beta in H2, H4. split; [apply H1; lia|]. split; [|split].
    - intros E. apply H2; [lia|]. now rewrite E.
    - apply H3; lia.
    - specialize (H4 n ltac:(lia)). rewrite !Ropp_involutive in H4. exact H4.
  Qed.

  Lemma run_impossible : False.
  Proof using Hr Htol HF.
    destruct eventually as (N0 & HN). destruct Hr as [W P U D]. set (N := S N0).
    (* the same end twice: the same end for ever *)
    assert (K1 : forall n, (N <= n)%nat -> up n = up (S n) -> up (S n) = up (S (S n))).
    { intros n Hn E. destruct (HN n ltac:(lia)) as (a1 & a2 & a3 & a4). destruct (HN (S n) ltac:(lia)) as (b1 & b2 & b3 & b4).
      destruct (P n) as [pg ph]. destruct (P (S n)) as [pg' ph']. destruct n as [|n']; [lia|].
      destruct (up (S (S n'))) eqn:E1.
      - destruct (up (S (S (S n')))) eqn:E2; auto. exfalso.
        destruct (U _ E1) as (_ & e2 & _ & e4). rewrite E in e4. destruct (U _ E) as (_ & f2 & _).
        specialize (a1 eq_refl). specialize (b2 eq_refl). lra.
      - destruct (up (S (S (S n')))) eqn:E2; auto. exfalso.
        destruct (D _ E1) as (_ & e2 & _ & e4). rewrite E in e4. destruct (D _ E) as (_ & f2 & _).
        specialize (a2 eq_refl). specialize (b1 eq_refl). lra. }
    (* there and back: stays back *)
    assert (K2 : forall n, (N <= n)%nat -> up n <> up (S n) -> up (S (S n)) = up n -> up (S (S n)) = up (S (S (S n)))).
    { intros n Hn E E'. destruct (HN n ltac:(lia)) as (a1 & a2 & a3 & a4). destruct (HN (S n) ltac:(lia)) as (b1 & b2 & b3 & b4).
      destruct (HN (S (S n)) ltac:(lia)) as (c1 & c2 & c3 & c4).
      destruct (P (S n)) as [pg' ph']. destruct (P (S (S n))) as [pg'' ph'']. destruct n as [|n']; [lia|].
      destruct (up (S n')) eqn:E0.
      - assert (E1 : up (S (S n')) = false) by (destruct (up (S (S n'))); auto; congruence). rewrite E'.
        destruct (up (S (S (S (S n'))))) eqn:E3; auto. exfalso.
        destruct (U _ E0) as (_ & f2 & _). destruct (D _ E1) as (_ & _ & f3 & f4). rewrite E0 in f4.
        destruct (U _ E') as (_ & f5 & _ & f6). rewrite E1 in f6.
        specialize (b1 E'). specialize (c2 eq_refl). rewrite f3 in b3. lra.
      - assert (E1 : up (S (S n')) = true) by (destruct (up (S (S n'))); auto; congruence). rewrite E'.
        destruct (up (S (S (S (S n'))))) eqn:E3; auto. exfalso.
        destruct (D _ E0) as (_ & f2 & _). destruct (U _ E1) as (_ & _ & f3 & f4). rewrite E0 in f4.
        destruct (D _ E') as (_ & f5 & _ & f6). rewrite E1 in f6.
        specialize (b2 E'). specialize (c1 eq_refl). rewrite f3 in b4. lra. }
    (* so one end moves for ever *)
    assert (K3 : exists M, forall n, (M <= n)%nat -> up n = up M).
    { assert (K4 : forall n, (N <= n)%nat -> up n = up (S n) -> forall k, up (n + k)%nat = up n /\ up (S (n + k)) = up n).
      { intros n Hn E. induction k as [|k IH]; [rewrite Nat.add_0_r; auto|].
        replace (n + S k)%nat with (S (n + k)) by lia. destruct IH as [i1 i2]. split; auto.
        rewrite <- (K1 (n + k)%nat) by (try lia; congruence). auto. }
      assert (K5 : forall n, (N <= n)%nat -> up n = up (S n) -> exists M, forall n, (M <= n)%nat -> up n = up M).
      { intros n Hn E. exists n. intros m Hm. destruct (K4 n Hn E (m - n)%nat) as [i _]. now replace (n + (m - n))%nat with m in i by lia. }
      destruct (bool_dec (up N) (up (S N))) as [e|e]; [apply (K5 N); auto|].
      destruct (bool_dec (up (S N)) (up (S (S N)))) as [e'|e']; [apply (K5 (S N)); auto|].
      apply (K5 (S (S N))); [lia|]. apply K2; auto. destruct (up N), (up (S N)), (up (S (S N))); congruence. }
    destruct K3 as (M & HM). destruct (up M) eqn:EM.
    - apply (not_always_up F tol l u g h up Htol HF Hr M). intros n Hn. apply HM; auto.
    - apply (not_always_up _ _ _ _ _ _ _ Htol (simple_mirror F HF) (run_mirror _ _ _ _ _ _ _ Hr) M).
      intros n Hn. cbv beta. rewrite HM; auto.
  Qed.
End Final.

(** ** Functions with simple zeros *)
Lemma simple_of_deriv f p : continuity_pt f p -> (f p = 0 -> exists d, d <> 0 /\ derivable_pt_lim f p d) ->
  simple_at (fun x => Rabs (f x)) p.
Proof.
  intros Hc Hd. destruct (Req_EM_T (f p) 0) as [z|z].
  - right. destruct (Hd z) as (d & Hd0 & HD). assert (Pd : 0 < Rabs d) by now apply Rabs_pos_lt.
    destruct (HD (Rabs d / 2) ltac:(lra)) as (del & K). exists (pos del), (Rabs d / 2).
    split; [apply cond_pos|]. split; [lra|]. intros x Hx.
    destruct (Req_EM_T x p) as [->|ne].
    { rewrite z, Rminus_eq_0, Rabs_R0. lra. }
    assert (ne' : x - p <> 0) by lra. specialize (K (x - p) ne' Hx). replace (p + (x - p)) with x in K by ring. rewrite z in K.
    assert (Pq : 0 < Rabs (x - p)) by now apply Rabs_pos_lt.
    assert (E : f x = ((f x - 0) / (x - p) - d) * (x - p) + d * (x - p)) by (field; auto).
    set (q := (f x - 0) / (x - p) - d) in *.
    assert (B : Rabs (q * (x - p)) < Rabs d / 2 * Rabs (x - p)) by (rewrite Rabs_mult; apply Rmult_lt_compat_r; auto).
    assert (B2 : Rabs (d * (x - p)) = Rabs d * Rabs (x - p)) by apply Rabs_mult.
    assert (T1 := Rabs_triang (q * (x - p)) (d * (x - p))). rewrite <- E in T1.
    assert (T2 := Rabs_triang (f x) (- (q * (x - p)))). rewrite Rabs_Ropp in T2.
    replace (f x + - (q * (x - p))) with (d * (x - p)) in T2 by lra. lra.
  - left. assert (Pz : 0 < Rabs (f p)) by now apply Rabs_pos_lt.
    destruct (Hc (Rabs (f p) / 2) ltac:(lra)) as (d & Hd' & K). exists d, (Rabs (f p) / 2).
    split; [auto|]. split; [lra|]. intros x Hx. 
    assert (Q : Rabs (f x - f p) < Rabs (f p) / 2).
    { destruct (Req_EM_T x p) as [->|ne]; [rewrite Rminus_eq_0, Rabs_R0; lra|].
      apply (K x). split; [|exact Hx]. split; [exact I|auto]. }
    assert (T1 := Rabs_triang (f x - f p) (f p)). replace (f x - f p + f p) with (f x) in T1 by ring.
    assert (T2 := Rabs_triang (f x) (- (f x - f p))). rewrite Rabs_Ropp in T2.
    replace (f x + - (f x - f p)) with (f p) in T2 by ring. lra.
Qed.

(** ** The loop as a sequence of states *)
Section Loop.
  Variables (f : R -> R) (tol : R).
  Hypothesis Htol : 0 < tol.
  Record stt := mkS { sA : R; sfA : R; sB : R; sfB : R }.
  Definition stp (s : stt) : stt :=
    let C := nxt (sA s) (sfA s) (sB s) (sfB s) in
    if Rle_dec (f C * sfB s) 0 then mkS (sB s) (sfB s) C (f C) else mkS (sA s) (sfA s / 2) C (f C).
  Fixpoint it (n : nat) (s : stt) : stt := match n with O => s | S k => stp (it k s) end.
  Lemma it_S n s : it (S n) s = it n (stp s).
  Proof. induction n as [|n IH]; [reflexivity|]. cbn [it] in *. now rewrite IH. Qed.
  Definition illS n s := ill f tol n (sA s) (sfA s) (sB s) (sfB s).
  Lemma illS_S n s : illS (S n) s = if Rlt_dec tol (Rabs (sB s - sA s)) then illS n (stp s) else Some (sA s).
  Proof. unfold illS, stp. cbn [ill]. destruct (Rlt_dec tol _); auto. cbv zeta. destruct (Rle_dec _ _); reflexivity. Qed.

  Lemma none_wide s : (forall n, illS n s = None) -> forall n, tol < Rabs (sB (it n s) - sA (it n s)).
  Proof.
    intros H n. revert s H. induction n as [|n IH]; intros s H.
    - specialize (H 1%nat). rewrite illS_S in H. cbn [it]. destruct (Rlt_dec tol _); auto. discriminate.
    - rewrite it_S. apply IH. intros k. specialize (H (S k)). rewrite illS_S in H. destruct (Rlt_dec tol _); auto. discriminate.
  Qed.

  (** Invariant. *)
  Definition good (s : stt) : Prop := sfB s = f (sB s) /\ sfA s * sfB s < 0.

  Lemma nxt_pos A fA B fB : A < B -> fA * fB < 0 ->
    nxt A fA B fB = A + (B - A) * (Rabs fA / (Rabs fA + Rabs fB)) /\
    nxt A fA B fB = B - (B - A) * (Rabs fB / (Rabs fA + Rabs fB)).
  Proof.
    intros HAB HS. unfold nxt. destruct (Rlt_dec fA 0) as [h|h].
    - assert (0 < fB) by nra. rewrite (Rabs_left fA), (Rabs_pos_eq fB) by lra. split; field; lra.
    - assert (0 < fA) by (destruct (Req_EM_T fA 0); [subst; lra|lra]). assert (fB < 0) by nra.
      rewrite (Rabs_pos_eq fA), (Rabs_left fB) by lra. split; field; lra.
  Qed.
  Lemma nxt_pos' A fA B fB : B < A -> fA * fB < 0 ->
    nxt A fA B fB = B + (A - B) * (Rabs fB / (Rabs fB + Rabs fA)) /\
    nxt A fA B fB = A - (A - B) * (Rabs fA / (Rabs fB + Rabs fA)).
  Proof.
    intros HAB HS. unfold nxt. destruct (Rlt_dec fA 0) as [h|h].
    - assert (0 < fB) by nra. rewrite (Rabs_left fA), (Rabs_pos_eq fB) by lra. split; field; lra.
    - assert (0 < fA) by (destruct (Req_EM_T fA 0); [subst; lra|lra]). assert (fB < 0) by nra.
      rewrite (Rabs_pos_eq fA), (Rabs_left fB) by lra. split; field; lra.
  Qed.

  (** Hitting a zero stops the loop. *)
  Lemma zero_stops s : (forall n, tol < Rabs (sB (it n s) - sA (it n s))) -> sfB s = f (sB s) -> sfA s <> 0 -> sfB s <> 0.
  Proof using Htol.
    intros H EB HA Z. pose proof (H 0%nat) as H0. cbn [it] in H0. specialize (H 1%nat). cbn [it] in H. unfold stp in H.
    assert (EC : nxt (sA s) (sfA s) (sB s) (sfB s) = sB s) by (unfold nxt; rewrite Z; field; lra).
    rewrite EC, Z in H. rewrite Rmult_0_r in H. destruct (Rle_dec 0 0); [|lra]. cbn in H.
    rewrite Rminus_eq_0, Rabs_R0 in H. lra.
  Qed.

  Lemma good_step s : (forall n, tol < Rabs (sB (it n s) - sA (it n s))) -> good s -> good (stp s).
  Proof using Htol.
    intros H (EB & HS). assert (HA : sfA s <> 0) by (intros e; rewrite e in HS; lra).
    assert (HB : sfB s <> 0) by (intros e; rewrite e in HS; lra).
    assert (H' : forall n, tol < Rabs (sB (it n (stp s)) - sA (it n (stp s)))) by (intros n; rewrite <- it_S; apply H).
    pose proof (zero_stops (stp s) H') as Z. unfold good. unfold stp in *.
    set (C := nxt _ _ _ _) in *. destruct (Rle_dec (f C * sfB s) 0) as [h|h]; cbn [sA sB sfA sfB] in *.
    - split; auto. specialize (Z eq_refl HB). destruct (Req_EM_T (f C * sfB s) 0) as [e|e]; [|lra].
      apply Rmult_integral in e. tauto.
    - split; auto. apply Rnot_le_lt in h.
      assert (Q : 0 < sfB s * sfB s) by nra.
      apply Rmult_lt_reg_r with (sfB s * sfB s); [exact Q|]. rewrite Rmult_0_l.
      replace (sfA s / 2 * f C * (sfB s * sfB s)) with ((sfA s * sfB s) * (f C * sfB s) / 2) by field. nra.
  Qed.
  Lemma good_it s : (forall n, tol < Rabs (sB (it n s) - sA (it n s))) -> good s -> forall n, good (it n s).
  Proof using Htol.
    intros H G n. revert s H G. induction n as [|n IH]; intros s H G; [exact G|]. rewrite it_S. apply IH.
    - intros k. rewrite <- it_S. apply H.
    - apply good_step; auto.
  Qed.

  (** The sequences of a run that never stops. *)
  Definition s_up (s : stt) : bool := if Rlt_dec (sA s) (sB s) then true else false.
  Definition s_l (s : stt) : R := if s_up s then sA s else sB s.
  Definition s_u (s : stt) : R := if s_up s then sB s else sA s.
  Definition s_g (s : stt) : R := Rabs (if s_up s then sfA s else sfB s).
  Definition s_h (s : stt) : R := Rabs (if s_up s then sfB s else sfA s).
  Definition FF (x : R) : R := Rabs (f x).

  Lemma run_step s : tol < Rabs (sB s - sA s) -> good s -> 
    (s_up (stp s) = true ->
      s_u (stp s) = s_u s - (s_u s - s_l s) * (s_h s / (s_g s + s_h s)) /\ s_h (stp s) = FF (s_u (stp s)) /\ s_l (stp s) = s_l s /\
      s_g (stp s) = (if s_up s then s_g s / 2 else s_g s)) /\
    (s_up (stp s) = false ->
      s_l (stp s) = s_l s + (s_u s - s_l s) * (s_g s / (s_g s + s_h s)) /\ s_g (stp s) = FF (s_l (stp s)) /\ s_u (stp s) = s_u s /\
      s_h (stp s) = (if s_up s then s_h s else s_h s / 2)).
  Proof using Htol.
    intros HW (EB & HS). unfold stp. set (C := nxt (sA s) (sfA s) (sB s) (sfB s)).
    assert (HA : 0 < Rabs (sfA s)) by (apply Rabs_pos_lt; intros e; rewrite e in HS; lra).
    assert (HB : 0 < Rabs (sfB s)) by (apply Rabs_pos_lt; intros e; rewrite e in HS; lra).
    assert (H2 : Rabs (sfA s / 2) = Rabs (sfA s) / 2) by (unfold Rdiv; rewrite Rabs_mult, (Rabs_pos_eq (/ 2)); lra).
    unfold s_u, s_l, s_g, s_h, FF.
    destruct (Rlt_dec (sA s) (sB s)) as [h|h].
    - assert (E : s_up s = true) by (unfold s_up; destruct (Rlt_dec (sA s) (sB s)); [reflexivity|lra]). rewrite E.
      destruct (nxt_pos _ _ _ _ h HS) as (e1 & e2). fold C in e1, e2.
      pose proof (frac01 (Rabs (sfA s)) (Rabs (sfB s)) HA HB) as q1.
      pose proof (frac01 (Rabs (sfB s)) (Rabs (sfA s)) HB HA) as q2. rewrite (Rplus_comm (Rabs (sfB s))) in q2.
      assert (sA s < C) by (rewrite e1; nra). assert (C < sB s) by (rewrite e2; nra).
      destruct (Rle_dec (f C * sfB s) 0) as [hc|hc].
      + assert (E2 : s_up (mkS (sB s) (sfB s) C (f C)) = false) by (unfold s_up; cbn; destruct (Rlt_dec (sB s) C); [lra|reflexivity]).
        rewrite E2. cbn [sA sB sfA sfB]. split; [discriminate|]. intros _. auto.
      + assert (E2 : s_up (mkS (sA s) (sfA s / 2) C (f C)) = true) by (unfold s_up; cbn; destruct (Rlt_dec (sA s) C); [reflexivity|lra]).
        rewrite E2. cbn [sA sB sfA sfB]. split; [|discriminate]. intros _. auto.
    - assert (h' : sB s < sA s).
      { destruct (Req_EM_T (sA s) (sB s)) as [e|e]; [|lra]. rewrite e, Rminus_eq_0, Rabs_R0 in HW. lra. }
      assert (E : s_up s = false) by (unfold s_up; destruct (Rlt_dec (sA s) (sB s)); [lra|reflexivity]). rewrite E.
      destruct (nxt_pos' _ _ _ _ h' HS) as (e1 & e2). fold C in e1, e2.
      pose proof (frac01 (Rabs (sfB s)) (Rabs (sfA s)) HB HA) as q1.
      pose proof (frac01 (Rabs (sfA s)) (Rabs (sfB s)) HA HB) as q2. rewrite (Rplus_comm (Rabs (sfA s))) in q2.
      assert (sB s < C) by (rewrite e1; nra). assert (C < sA s) by (rewrite e2; nra).
      destruct (Rle_dec (f C * sfB s) 0) as [hc|hc].
      + assert (E2 : s_up (mkS (sB s) (sfB s) C (f C)) = true) by (unfold s_up; cbn; destruct (Rlt_dec (sB s) C); [reflexivity|lra]).
        rewrite E2. cbn [sA sB sfA sfB]. split; [|discriminate]. intros _. auto.
      + assert (E2 : s_up (mkS (sA s) (sfA s / 2) C (f C)) = false) by (unfold s_up; cbn; destruct (Rlt_dec (sA s) C); [lra|reflexivity]).
        rewrite E2. cbn [sA sB sfA sfB]. split; [discriminate|]. intros _. auto.
  Qed.

  Lemma run_of s : (forall n, tol < Rabs (sB (it n s) - sA (it n s))) -> good s ->
    run FF tol (fun n => s_l (it n s)) (fun n => s_u (it n s)) (fun n => s_g (it n s)) (fun n => s_h (it n s)) (fun n => s_up (it n s)).
  Proof using Htol.
    intros H G. pose proof (good_it s H G) as GG. constructor.
    - intros n. specialize (H n). unfold s_u, s_l, s_up. destruct (Rlt_dec _ _) as [h|h].
      + rewrite Rabs_pos_eq in H by lra. exact H.
      + rewrite Rabs_left1 in H by lra. lra.
    - intros n. destruct (GG n) as (_ & HS). unfold s_g, s_h.
      assert (HA : 0 < Rabs (sfA (it n s))) by (apply Rabs_pos_lt; intros e; rewrite e in HS; lra).
      assert (HB : 0 < Rabs (sfB (it n s))) by (apply Rabs_pos_lt; intros e; rewrite e in HS; lra).
      destruct (s_up (it n s)); auto.
    - intros n. cbn [it]. apply (run_step (it n s) (H n) (GG n)).
    - intros n. cbn [it]. apply (run_step (it n s) (H n) (GG n)).
  Qed.

  Lemma some_or_none s : (exists n x, illS n s = Some x) \/ forall n, illS n s = None.
  Proof.
    destruct (sig_forall_dec (fun n => illS n s = None)) as [(n & Hn)|H].
    - intros n. destruct (illS n s); [right; discriminate|left; reflexivity].
    - left. exists n. destruct (illS n s) as [x|]; [eauto|congruence].
    - right. exact H.
  Qed.

  Lemma ill_terminates_simple A B :
    (forall x, continuity_pt f x) -> (forall x, f x = 0 -> exists d, d <> 0 /\ derivable_pt_lim f x d) ->
    f A * f B <= 0 -> f A <> 0 \/ f B <> 0 ->
    exists n x, ill f tol n A (f A) B (f B) = Some x.
  Proof using Htol.
    intros Hc Hd HS Hz. set (s := mkS A (f A) B (f B)).
    destruct (some_or_none s) as [E|E]; [exact E|]. exfalso.
    pose proof (none_wide s E) as HW.
    assert (ZB : f A <> 0 -> f B <> 0) by (intros; apply (zero_stops s HW); auto).
    assert (ZA : f B <> 0 -> f A <> 0).
    { intros HB e. assert (H' : forall n, tol < Rabs (sB (it n (stp s)) - sA (it n (stp s)))) by (intros n; rewrite <- it_S; apply HW).
      pose proof (zero_stops (stp s) H') as Z. unfold stp, s in Z. cbn [sA sB sfA sfB] in Z.
      assert (EC : nxt A (f A) B (f B) = A) by (unfold nxt; rewrite e; field; lra).
      rewrite EC, e, Rmult_0_l in Z. destruct (Rle_dec 0 0); [|lra]. cbn in Z. apply Z; auto. }
    assert (G : good s).
    { split; [reflexivity|]. cbn. destruct (Req_EM_T (f A * f B) 0) as [e|e]; [|lra]. apply Rmult_integral in e. tauto. }
    apply (run_impossible _ _ _ _ _ _ _ Htol) with (2 := run_of s HW G).
    intros p. apply (simple_of_deriv f p); auto.
  Qed.
End Loop.
