(** Determinants by expansion along the first row, for the tridiagonal
    matrices that occur in the match quality of several teams. *)
From Coq Require Import List Reals Lra Lia Arith.PeanoNat Bool.
From Verif Require Import XR.
Import ListNotations.
Local Open Scope R_scope.

Definition sgn (i : nat) : R := (-1) ^ i.
Definition Sg (n : nat) (f : nat -> R) : R := Rsum (map f (seq 0 n)).
Definition mnr (f : nat -> nat -> R) (r c : nat) : nat -> nat -> R :=
  fun i j => f (if Nat.ltb i r then i else S i) (if Nat.ltb j c then j else S j).
Fixpoint rdet (n : nat) (f : nat -> nat -> R) : R :=
  match n with O => 1 | S n' => Sg n (fun i => f O i * rdet n' (mnr f 0 i) * sgn i) end.

Lemma Sg_ext n f g : (forall i, (i < n)%nat -> f i = g i) -> Sg n f = Sg n g.
Proof. intros H. unfold Sg. f_equal. apply map_ext_in. intros i I. apply in_seq in I. apply H. lia. Qed.
Lemma Sg_S n f : Sg (S n) f = f O + Sg n (fun i => f (S i)).
Proof. unfold Sg. cbn [seq map]. rewrite Rsum_cons, <- seq_shift, map_map. reflexivity. Qed.
Lemma Sg_0 n f : (forall i, (i < n)%nat -> f i = 0) -> Sg n f = 0.
Proof. intros H. rewrite (Sg_ext n f (fun _ => 0)) by exact H. unfold Sg. induction (seq 0 n); cbn [map]; [apply Rsum_nil|rewrite Rsum_cons; lra]. Qed.
Lemma Sg_nil f : Sg 0 f = 0.
Proof. apply Rsum_nil. Qed.
Lemma Sg_plus n f g : Sg n (fun i => f i + g i) = Sg n f + Sg n g.
Proof. apply Rsum_map_plus. Qed.
Lemma Sg_scal n c f : Sg n (fun i => c * f i) = c * Sg n f.
Proof. apply Rsum_map_scal. Qed.
Lemma sgn_0 : sgn 0 = 1. Proof. reflexivity. Qed.
Lemma sgn_S i : sgn (S i) = - sgn i. Proof. unfold sgn. cbn [pow]. ring. Qed.

Lemma rdet_S n f : rdet (S n) f = Sg (S n) (fun i => f O i * rdet n (mnr f 0 i) * sgn i).
Proof. reflexivity. Qed.
Lemma rdet_ext n : forall f g, (forall i j, (i < n)%nat -> (j < n)%nat -> f i j = g i j) -> rdet n f = rdet n g.
Proof.
  induction n as [|n IH]; intros f g H; [reflexivity|]. rewrite !rdet_S. apply Sg_ext. intros i I. rewrite H by lia. f_equal. f_equal.
  apply IH. intros a b Ha Hb. unfold mnr. apply H; [destruct (Nat.ltb a 0); lia|destruct (Nat.ltb b i); lia].
Qed.
Lemma rdet_col0 n : forall f, (forall i, (i < S n)%nat -> f i O = 0) -> rdet (S n) f = 0.
Proof.
  induction n as [|n IH]; intros f H; rewrite rdet_S; apply Sg_0; intros i I.
  - replace i with O by lia. rewrite H by lia. ring.
  - destruct i as [|i]; [rewrite H by lia; ring|]. rewrite IH; [ring|]. intros k K. unfold mnr. cbn [Nat.ltb Nat.leb]. apply H. lia.
Qed.
Lemma rdet_row n f : (forall j, (0 < j < S n)%nat -> f O j = 0) -> rdet (S n) f = f O O * rdet n (mnr f 0 0).
Proof.
  intros H. rewrite rdet_S, Sg_S, Sg_0, sgn_0; [ring|]. intros i I. rewrite H by lia. ring.
Qed.
Lemma rdet_col n f : (forall i, (0 < i < S n)%nat -> f i O = 0) -> rdet (S n) f = f O O * rdet n (mnr f 0 0).
Proof.
  intros H. rewrite rdet_S, Sg_S, Sg_0, sgn_0; [ring|]. intros i I. destruct n as [|n]; [lia|].
  rewrite (rdet_col0 n); [ring|]. intros k K. unfold mnr. cbn [Nat.ltb Nat.leb]. apply H. lia.
Qed.
Lemma rdet_row2 n f : (forall j, (1 < j < S (S n))%nat -> f O j = 0) ->
  rdet (S (S n)) f = f O O * rdet (S n) (mnr f 0 0) - f O 1%nat * rdet (S n) (mnr f 0 1).
Proof.
  intros H. rewrite rdet_S, Sg_S, Sg_S, Sg_0, sgn_S, sgn_0; [ring|]. intros i I. rewrite H by lia. ring.
Qed.

(** The tridiagonal matrix of neighbouring differences. *)
Definition tri (V : nat -> R) (i j : nat) : R :=
  if Nat.eqb i j then V i + V (S i) else if Nat.eqb j (S i) then - V j else if Nat.eqb i (S j) then - V i else 0.
Definition sh {X} (V : nat -> X) : nat -> X := fun i => V (S i).

Lemma tri_SS V i j : tri V (S i) (S j) = tri (sh V) i j.
Proof. reflexivity. Qed.
Lemma tri_00 V : tri V 0 0 = V 0%nat + V 1%nat. Proof. reflexivity. Qed.
Lemma tri_01 V : tri V 0 1 = - V 1%nat. Proof. reflexivity. Qed.
Lemma tri_10 V : tri V 1 0 = - V 1%nat. Proof. reflexivity. Qed.
Lemma tri_0S V j : tri V 0 (S (S j)) = 0. Proof. reflexivity. Qed.
Lemma tri_S0 V j : tri V (S (S j)) 0 = 0. Proof. reflexivity. Qed.

Fixpoint Pi (n : nat) (V : nat -> R) : R := match n with O => 1 | S n' => V O * Pi n' (sh V) end.
(** Elementary symmetric polynomial of degree n of the n + 1 variables
    V 0 ... V n. *)
Fixpoint El (n : nat) (V : nat -> R) : R := match n with O => 1 | S n' => V O * El n' (sh V) + Pi n (sh V) end.

Lemma rdet_tri_SS n V : rdet (S (S n)) (tri V) = (V 0%nat + V 1%nat) * rdet (S n) (tri (sh V)) - V 1%nat ^ 2 * rdet n (tri (sh (sh V))).
Proof.
  rewrite rdet_row2 by (intros [|[|j]] J; try lia; apply tri_0S). rewrite tri_00, tri_01.
  rewrite (rdet_ext (S n) (mnr (tri V) 0 0) (tri (sh V))) by reflexivity.
  rewrite (rdet_col n (mnr (tri V) 0 1)).
  - change (mnr (tri V) 0 1 0 0) with (- V 1%nat). rewrite (rdet_ext n (mnr (mnr (tri V) 0 1) 0 0) (tri (sh (sh V)))) by reflexivity. ring.
  - intros [|i] I; [lia|]. unfold mnr. cbn [Nat.ltb Nat.leb]. apply tri_S0.
Qed.
Lemma rdet_tri_1 V : rdet 1 (tri V) = V 0%nat + V 1%nat.
Proof. rewrite rdet_S, Sg_S, Sg_nil, sgn_0, tri_00. cbn [rdet]. ring. Qed.
Lemma rdet_tri n : forall V, rdet n (tri V) = El n V /\ rdet (S n) (tri V) = El (S n) V.
Proof.
  induction n as [|n IH]; intros V; [split; [reflexivity|]; rewrite rdet_tri_1; cbn [El Pi]; unfold sh; ring|].
  split; [apply IH|]. rewrite rdet_tri_SS. destruct (IH (sh V)) as [_ ->]. destruct (IH (sh (sh V))) as [-> _].
  cbn [El Pi]. unfold sh. ring.
Qed.

Ltac mn := try apply rdet_ext; intros; unfold mnr; repeat match goal with |- context [Nat.ltb ?a ?b] => destruct (Nat.ltb_spec a b) end; try reflexivity; try lia.
(** Cofactors of the matrix of size n + 1, without signs. *)
Definition K (n : nat) (V : nat -> R) (r c : nat) : R := rdet n (mnr (tri V) r c).
Lemma K_00 n V : K n V 0 0 = El n (sh V).
Proof. unfold K. rewrite (rdet_ext n (mnr (tri V) 0 0) (tri (sh V))) by reflexivity. apply rdet_tri. Qed.
Lemma K_0S n V c : K (S n) V 0 (S c) = - V 1%nat * K n (sh V) 0 c.
Proof.
  unfold K. rewrite (rdet_col n).
  - change (mnr (tri V) 0 (S c) 0 0) with (- V 1%nat). f_equal. mn.
  - intros [|i] I; [lia|]. reflexivity.
Qed.
Lemma K_S0 n V r : K (S n) V (S r) 0 = - V 1%nat * K n (sh V) r 0.
Proof.
  unfold K. rewrite (rdet_row n).
  - change (mnr (tri V) (S r) 0 0 0) with (- V 1%nat). f_equal. mn.
  - intros [|i] I; [lia|]. reflexivity.
Qed.
Lemma K_1c n V c : (c <= n)%nat -> K (S n) V 1 (S c) = (V 0%nat + V 1%nat) * K n (sh V) 0 c.
Proof.
  intros C. unfold K. rewrite (rdet_col n).
  - change (mnr (tri V) 1 (S c) 0 0) with (V 0%nat + V 1%nat). f_equal. mn.
  - intros [|i] I; [lia|]. reflexivity.
Qed.
Lemma K_r1 n V r : (r <= n)%nat -> K (S n) V (S r) 1 = (V 0%nat + V 1%nat) * K n (sh V) r 0.
Proof.
  intros C. unfold K. rewrite (rdet_row n).
  - change (mnr (tri V) (S r) 1 0 0) with (V 0%nat + V 1%nat). f_equal. mn.
  - intros [|i] I; [lia|]. reflexivity.
Qed.
Lemma K_SS n V r c : K (S (S n)) V (S (S r)) (S (S c)) =
  (V 0%nat + V 1%nat) * K (S n) (sh V) (S r) (S c) - V 1%nat ^ 2 * K n (sh (sh V)) r c.
Proof.
  unfold K. rewrite rdet_row2.
  - change (mnr (tri V) (S (S r)) (S (S c)) 0 0) with (V 0%nat + V 1%nat). change (mnr (tri V) (S (S r)) (S (S c)) 0 1) with (- V 1%nat).
    rewrite (rdet_ext (S n) (mnr (mnr (tri V) (S (S r)) (S (S c))) 0 0) (mnr (tri (sh V)) (S r) (S c))) by mn.
    rewrite (rdet_col n (mnr (mnr (tri V) (S (S r)) (S (S c))) 0 1)).
    + change (mnr (mnr (tri V) (S (S r)) (S (S c))) 0 1 0 0) with (- V 1%nat).
      rewrite (rdet_ext n (mnr (mnr (mnr (tri V) (S (S r)) (S (S c))) 0 1) 0 0) (mnr (tri (sh (sh V))) r c)) by mn. ring.
    + intros [|i] I; [lia|]. mn.
  - intros [|[|j]] J; try lia. mn.
Qed.

Definition rowform (n : nat) V (d : nat -> R) : R := Sg (S n) (fun c => sgn c * d c * K n V 0 c).
Definition colform (n : nat) V (d : nat -> R) : R := Sg (S n) (fun r => sgn r * d r * K n V r 0).
Definition quad (n : nat) V (d : nat -> R) : R := Sg (S n) (fun r => Sg (S n) (fun c => sgn r * sgn c * d r * d c * K n V r c)).

Lemma rowform_0 V d : rowform 0 V d = d O.
Proof. unfold rowform. rewrite Sg_S, Sg_nil, sgn_0. unfold K. cbn [rdet]. ring. Qed.
Lemma colform_0 V d : colform 0 V d = d O.
Proof. unfold colform. rewrite Sg_S, Sg_nil, sgn_0. unfold K. cbn [rdet]. ring. Qed.
Lemma rowform_S n V d : rowform (S n) V d = d O * El (S n) (sh V) + V 1%nat * rowform n (sh V) (sh d).
Proof.
  unfold rowform. rewrite Sg_S, sgn_0, K_00. rewrite <- Sg_scal. f_equal; [ring|]. apply Sg_ext. intros i I.
  rewrite K_0S, sgn_S. unfold sh. ring.
Qed.
Lemma colform_S n V d : colform (S n) V d = d O * El (S n) (sh V) + V 1%nat * colform n (sh V) (sh d).
Proof.
  unfold colform. rewrite Sg_S, sgn_0, K_00. rewrite <- Sg_scal. f_equal; [ring|]. apply Sg_ext. intros i I.
  rewrite K_S0, sgn_S. unfold sh. ring.
Qed.
Lemma colform_row n : forall V d, colform n V d = rowform n V d.
Proof. induction n as [|n IH]; intros V d; [now rewrite rowform_0, colform_0|]. now rewrite rowform_S, colform_S, IH. Qed.
Lemma quad_0 V d : quad 0 V d = d O ^ 2.
Proof. unfold quad. rewrite Sg_S, Sg_S, !Sg_nil, sgn_0. unfold K. cbn [rdet]. ring. Qed.
(** Splitting off the first row and column. *)
Lemma quad_split n V d : quad (S n) V d = d O ^ 2 * El (S n) (sh V) + 2 * d O * (V 1%nat * rowform n (sh V) (sh d))
  + Sg (S n) (fun r => Sg (S n) (fun c => sgn r * sgn c * sh d r * sh d c * K (S n) V (S r) (S c))).
Proof.
  unfold quad. rewrite Sg_S.
  rewrite (Sg_ext (S n) (fun i => Sg (S (S n)) (fun c => sgn (S i) * sgn c * d (S i) * d c * K (S n) V (S i) c))
    (fun i => d O * V 1%nat * (sgn i * sh d i * K n (sh V) i 0)
      + Sg (S n) (fun c => sgn i * sgn c * sh d i * sh d c * K (S n) V (S i) (S c)))).
  2: { intros i I. rewrite Sg_S, K_S0, sgn_0, sgn_S. f_equal; [unfold sh; ring|]. apply Sg_ext. intros j J. rewrite !sgn_S. unfold sh. ring. }
  rewrite Sg_plus, Sg_scal. fold (colform n (sh V) (sh d)). rewrite colform_row.
  rewrite (Sg_ext (S (S n)) _ (fun c => d O * (sgn c * d c * K (S n) V 0 c))) by (intros; rewrite sgn_0; ring).
  rewrite Sg_scal. fold (rowform (S n) V d). rewrite rowform_S. ring.
Qed.
Lemma quad_1 V d : quad 1 V d = d O ^ 2 * El 1 (sh V) + 2 * d O * (V 1%nat * rowform 0 (sh V) (sh d)) + (V 0%nat + V 1%nat) * quad 0 (sh V) (sh d).
Proof.
  rewrite quad_split. f_equal. unfold quad. rewrite !Sg_S, !Sg_nil, K_1c by lia. ring.
Qed.
Lemma quad_SS n V d : quad (S (S n)) V d = d O ^ 2 * El (S (S n)) (sh V) + 2 * d O * (V 1%nat * rowform (S n) (sh V) (sh d))
  + (V 0%nat + V 1%nat) * quad (S n) (sh V) (sh d) - V 1%nat ^ 2 * quad n (sh (sh V)) (sh (sh d)).
Proof.
  rewrite quad_split. match goal with |- ?a + ?b = ?a + ?c - ?e => enough (b = c - e) by lra end.
  unfold quad. rewrite (Sg_S (S n)), (Sg_S (S n) (fun r => Sg (S (S n)) _)). 
  rewrite (Sg_ext (S (S n)) _ (fun c => (V 0%nat + V 1%nat) * (sgn 0 * sgn c * sh d 0%nat * sh d c * K (S n) (sh V) 0 c))).
  2: { intros c C. rewrite K_1c by lia. ring. }
  rewrite Sg_scal.
  rewrite (Sg_ext (S n) _ (fun r => (V 0%nat + V 1%nat) * Sg (S (S n)) (fun c => sgn (S r) * sgn c * sh d (S r) * sh d c * K (S n) (sh V) (S r) c)
    + - V 1%nat ^ 2 * Sg (S n) (fun c => sgn r * sgn c * sh (sh d) r * sh (sh d) c * K n (sh (sh V)) r c))).
  - rewrite Sg_plus, !Sg_scal. ring.
  - intros r Hr. rewrite (Sg_S (S n)), (Sg_S (S n) (fun c => sgn (S r) * sgn c * sh d (S r) * sh d c * K (S n) (sh V) (S r) c)).
    rewrite K_r1 by lia.
    rewrite (Sg_ext (S n) _ (fun c => (V 0%nat + V 1%nat) * (sgn (S r) * sgn (S c) * sh d (S r) * sh d (S c) * K (S n) (sh V) (S r) (S c))
      + - V 1%nat ^ 2 * (sgn r * sgn c * sh (sh d) r * sh (sh d) c * K n (sh (sh V)) r c))).
    + rewrite Sg_plus, !Sg_scal. ring.
    + intros c Hc. rewrite K_SS, !sgn_S. unfold sh. ring.
Qed.

(** Sums over teams t of (c - mu t) resp. (c - mu t)^2 times the product of the other variances. *)
Fixpoint A1 (c : R) (n : nat) (V mu : nat -> R) : R := match n with O => 0 | S n' => (c - mu O) * Pi n' (sh V) + V O * A1 c n' (sh V) (sh mu) end.
Fixpoint A2 (c : R) (n : nat) (V mu : nat -> R) : R := match n with O => 0 | S n' => (c - mu O) ^ 2 * Pi n' (sh V) + V O * A2 c n' (sh V) (sh mu) end.
Fixpoint QQ (n : nat) (V mu : nat -> R) : R := match n with O => 0 | S n' => V O * QQ n' (sh V) (sh mu) + A2 (mu O) n' (sh V) (sh mu) end.
Lemma A1_move c c' n : forall V mu, A1 c (S n) V mu = (c - c') * El n V + A1 c' (S n) V mu.
Proof.
  induction n as [|n IH]; intros V mu; [cbn; ring|]. change (A1 c (S (S n)) V mu) with ((c - mu O) * Pi (S n) (sh V) + V O * A1 c (S n) (sh V) (sh mu)).
  rewrite IH. change (A1 c' (S (S n)) V mu) with ((c' - mu O) * Pi (S n) (sh V) + V O * A1 c' (S n) (sh V) (sh mu)). cbn [El]. ring.
Qed.
Lemma A2_move c c' n : forall V mu, A2 c (S n) V mu = (c - c') ^ 2 * El n V + 2 * (c - c') * A1 c' (S n) V mu + A2 c' (S n) V mu.
Proof.
  induction n as [|n IH]; intros V mu; [cbn [A1 A2 El Pi]; ring|]. change (A2 c (S (S n)) V mu) with ((c - mu O) ^ 2 * Pi (S n) (sh V) + V O * A2 c (S n) (sh V) (sh mu)).
  rewrite IH. change (A1 c' (S (S n)) V mu) with ((c' - mu O) * Pi (S n) (sh V) + V O * A1 c' (S n) (sh V) (sh mu)).
  change (A2 c' (S (S n)) V mu) with ((c' - mu O) ^ 2 * Pi (S n) (sh V) + V O * A2 c' (S n) (sh V) (sh mu)). cbn [El]. ring.
Qed.
Definition dif (mu : nat -> R) (i : nat) : R := mu i - mu (S i).
Lemma A1_S c n V mu : A1 c (S n) V mu = (c - mu O) * Pi n (sh V) + V O * A1 c n (sh V) (sh mu). Proof. reflexivity. Qed.
Lemma A2_S c n V mu : A2 c (S n) V mu = (c - mu O) ^ 2 * Pi n (sh V) + V O * A2 c n (sh V) (sh mu). Proof. reflexivity. Qed.
Lemma QQ_S n V mu : QQ (S n) V mu = V O * QQ n (sh V) (sh mu) + A2 (mu O) n (sh V) (sh mu). Proof. reflexivity. Qed.
Lemma rowform_closed n : forall V mu, rowform n V (dif mu) = A1 (mu O) (S n) (sh V) (sh mu).
Proof.
  induction n as [|n IH]; intros V mu; [rewrite rowform_0; unfold dif; cbn; unfold sh; ring|].
  rewrite rowform_S. change (sh (dif mu)) with (dif (sh mu)). rewrite IH.
  rewrite (A1_move (mu O) (sh mu O)), (A1_S _ (S n)). unfold dif. change (mu 1%nat) with (sh mu O). change (V 1%nat) with (sh V O). ring.
Qed.
Lemma quad_closed n : forall V mu, quad n V (dif mu) = QQ (S (S n)) V mu /\ quad (S n) V (dif mu) = QQ (S (S (S n))) V mu.
Proof.
  assert (ST : forall m V mu, dif mu 0%nat ^ 2 * El (S m) (sh V) + 2 * dif mu 0%nat * (sh V O * A1 (sh mu O) (S m) (sh (sh V)) (sh (sh mu)))
    + sh V O * A2 (sh mu O) (S m) (sh (sh V)) (sh (sh mu)) = A2 (mu O) (S (S m)) (sh V) (sh mu)).
  { intros m V mu. rewrite (A2_move (mu O) (sh mu O)), (A1_S _ (S m)), (A2_S (sh mu O) (S m)). unfold dif. change (mu 1%nat) with (sh mu O). ring. }
  induction n as [|n IH]; intros V mu.
  - assert (Q0 : forall V mu, quad 0 V (dif mu) = QQ 2 V mu). { intros. rewrite quad_0. unfold dif. cbn [QQ A2 Pi]. unfold sh. ring. }
    split; [apply Q0|]. rewrite quad_1. change (sh (dif mu)) with (dif (sh mu)). rewrite Q0, rowform_closed, (QQ_S 2), <- ST, (QQ_S 1 (sh V)). cbn [QQ A2 Pi]. unfold sh. ring.
  - split; [apply IH|]. rewrite quad_SS. change (sh (sh (dif mu))) with (dif (sh (sh mu))). change (sh (dif mu)) with (dif (sh mu)).
    destruct (IH (sh V) (sh mu)) as [_ ->]. destruct (IH (sh (sh V)) (sh (sh mu))) as [-> _]. rewrite rowform_closed.
    rewrite (QQ_S (S (S (S n)))), <- ST, (QQ_S (S (S n)) (sh V)). change (V 1%nat) with (sh V O). ring.
Qed.
