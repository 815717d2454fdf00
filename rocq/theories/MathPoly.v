(** A verified test that a polynomial with integer coefficients is positive on
    an interval (bisection on Taylor expansions).  No model code here. *)
From Coq Require Import ZArith List Bool Reals Lra Lia.
Import ListNotations.
Local Open Scope R_scope.

(** Coefficients in ascending order. *)
Definition peval (p : list Z) (x : R) : R := fold_right (fun c r => IZR c + x * r) 0 p.
Fixpoint padd (p q : list Z) : list Z :=
  match p, q with
  | [], _ => q
  | _, [] => p
  | a :: p', b :: q' => (a + b)%Z :: padd p' q'
  end.
Definition pscal (c : Z) (p : list Z) : list Z := map (Z.mul c) p.
Definition pmul (p q : list Z) : list Z := fold_right (fun c r => padd (pscal c q) (0%Z :: r)) [] p.
(** p(x + 1) *)
Definition pshift (p : list Z) : list Z := fold_right (fun c r => padd [c] (padd r (0%Z :: r))) [] p.
(** 2^(n-1) p(x / 2), [n] coefficients *)
Fixpoint phalf (p : list Z) : list Z :=
  match p with [] => [] | c :: p' => (c * 2 ^ Z.of_nat (length p'))%Z :: phalf p' end.
(** d^(n-1) p((a + b x) / d) *)
Fixpoint paff (a b d : Z) (p : list Z) : list Z :=
  match p with
  | [] => []
  | c :: p' => let r := paff a b d p' in padd [(c * d ^ Z.of_nat (length p'))%Z] (padd (pscal a r) (0%Z :: pscal b r))
  end.
(** Lower bound on [0,1]. *)
Definition plow (p : list Z) : Z :=
  match p with [] => 0%Z | c :: p' => fold_right (fun a s => (Z.min a 0 + s)%Z) c p' end.
Fixpoint ppos (fuel : nat) (p : list Z) : bool :=
  if (0 <? plow p)%Z then true else
  match fuel with
  | O => false
  | S f => let h := phalf p in ppos f h && ppos f (pshift h)
  end.

Lemma peval_add p : forall q x, peval (padd p q) x = peval p x + peval q x.
Proof.
  induction p as [|a p IH]; intros [|b q] x; cbn [padd]; try (unfold peval; cbn [fold_right]; ring).
  change (IZR (a + b) + x * peval (padd p q) x = (IZR a + x * peval p x) + (IZR b + x * peval q x)). rewrite IH, plus_IZR. ring.
Qed.
Lemma peval_cons c p x : peval (c :: p) x = IZR c + x * peval p x.
Proof. reflexivity. Qed.
Lemma peval_scal c p x : peval (pscal c p) x = IZR c * peval p x.
Proof. induction p as [|a p IH]; cbn [pscal map]; [unfold peval; cbn; ring|]. rewrite !peval_cons. fold (pscal c p). rewrite IH, mult_IZR. ring. Qed.
Lemma peval_mul p q x : peval (pmul p q) x = peval p x * peval q x.
Proof.
  induction p as [|a p IH]; [unfold peval; cbn; ring|]. change (pmul (a :: p) q) with (padd (pscal a q) (0%Z :: pmul p q)).
  rewrite peval_add, peval_scal, !peval_cons, IH. ring.
Qed.
Lemma peval_shift p x : peval (pshift p) x = peval p (x + 1).
Proof.
  induction p as [|a p IH]; [reflexivity|]. change (pshift (a :: p)) with (padd [a] (padd (pshift p) (0%Z :: pshift p))).
  rewrite !peval_add, !peval_cons, IH. unfold peval at 1. cbn [fold_right]. ring.
Qed.
Lemma pow_IZR2 d n : IZR (d ^ Z.of_nat n) = IZR d ^ n.
Proof. symmetry. apply pow_IZR. Qed.
Lemma peval_half p x : 2 * peval (phalf p) x = 2 ^ length p * peval p (x / 2).
Proof.
  induction p as [|a p IH]; [unfold peval; cbn; ring|]. cbn [phalf length]. rewrite !peval_cons, mult_IZR, pow_IZR2. cbn [pow].
  replace (2 * (IZR a * 2 ^ length p + x * peval (phalf p) x)) with (2 * IZR a * 2 ^ length p + x * (2 * peval (phalf p) x)) by ring.
  rewrite IH. field.
Qed.
Lemma peval_aff a b d p x : IZR d <> 0 ->
  IZR d * peval (paff a b d p) x = IZR d ^ length p * peval p ((IZR a + IZR b * x) / IZR d).
Proof.
  intros Hd. induction p as [|c p IH]; [unfold peval; cbn; ring|]. cbn [paff length]. rewrite !peval_add, !peval_cons, !peval_scal, mult_IZR, pow_IZR2. cbn [pow].
  unfold peval at 1. cbn [fold_right].
  match goal with |- ?l = _ => replace l with (IZR d * IZR c * IZR d ^ length p + (IZR a + IZR b * x) * (IZR d * peval (paff a b d p) x)) by ring end.
  rewrite IH. field. auto.
Qed.
Lemma plow_le p x : 0 <= x <= 1 -> IZR (plow p) <= peval p x.
Proof.
  intros Hx. destruct p as [|c p]; [unfold peval; cbn; lra|]. rewrite peval_cons. cbn [plow].
  assert (H : forall p y, 0 <= y <= 1 -> IZR (fold_right (fun a s => (Z.min a 0 + s)%Z) c p) <= IZR c + y * peval p x).
  { clear p. induction p as [|a p IH]; intros y Hy; cbn [fold_right]; [unfold peval; cbn; lra|]. rewrite plus_IZR, peval_cons.
    assert (IZR (Z.min a 0) <= y * IZR a).
    { destruct (Z.min_spec a 0) as [[L ->]|[L ->]]; apply IZR_lt in L || apply IZR_le in L; nra. }
    assert (B : 0 <= y * x <= 1) by (split; nra). specialize (IH (y * x) B). nra. }
  apply H; auto.
Qed.
Lemma ppos_sound fuel : forall p, ppos fuel p = true -> forall x, 0 <= x <= 1 -> 0 < peval p x.
Proof.
  assert (L : forall p x, (0 <? plow p)%Z = true -> 0 <= x <= 1 -> 0 < peval p x).
  { intros p x H Hx. apply Z.ltb_lt, IZR_lt in H. pose proof (plow_le p x Hx). lra. }
  induction fuel as [|f IH]; intros p; cbn [ppos]; destruct (0 <? plow p)%Z eqn:E; try discriminate; intros H x Hx; auto.
  apply andb_prop in H. destruct H as [H1 H2].
  assert (P : 0 < 2 ^ length p) by (apply pow_lt; lra).
  destruct (Rle_dec x (1 / 2)).
  - pose proof (IH _ H1 (2 * x) ltac:(lra)) as K. pose proof (peval_half p (2 * x)) as Q. replace (2 * x / 2) with x in Q by field. nra.
  - pose proof (IH _ H2 (2 * x - 1) ltac:(lra)) as K. rewrite peval_shift in K. replace (2 * x - 1 + 1) with (2 * x) in K by ring.
    pose proof (peval_half p (2 * x)) as Q. replace (2 * x / 2) with x in Q by field. nra.
Qed.
(** Positivity on [a/d, (a+b)/d]. *)
Lemma ppos_on fuel a b d p : (0 < b)%Z -> (0 < d)%Z -> ppos fuel (paff a b d p) = true ->
  forall x, IZR a / IZR d <= x <= IZR (a + b) / IZR d -> 0 < peval p x.
Proof.
  intros Hb Hd H x Hx. apply IZR_lt in Hb, Hd. rewrite plus_IZR in Hx. set (y := (IZR d * x - IZR a) / IZR b).
  assert (D1 : IZR a <= x * IZR d) by (apply Rmult_le_reg_r with (/ IZR d); [apply Rinv_0_lt_compat; auto|]; rewrite Rmult_assoc, Rinv_r by lra; unfold Rdiv in Hx; lra).
  assert (D2 : x * IZR d <= IZR a + IZR b) by (apply Rmult_le_reg_r with (/ IZR d); [apply Rinv_0_lt_compat; auto|]; rewrite Rmult_assoc, Rinv_r by lra; unfold Rdiv in Hx; lra).
  assert (Y : 0 <= y <= 1).
  { unfold y, Rdiv. assert (0 < / IZR b) by (apply Rinv_0_lt_compat; auto). split; [apply Rmult_le_pos; lra|].
    rewrite <- (Rinv_r (IZR b)) by lra. apply Rmult_le_compat_r; lra. }
  pose proof (ppos_sound _ _ H y Y) as K. pose proof (peval_aff a b d p y ltac:(lra)) as Q.
  replace ((IZR a + IZR b * y) / IZR d) with x in Q by (unfold y; field; lra).
  assert (0 < IZR d ^ length p) by (apply pow_lt; auto). nra.
Qed.
