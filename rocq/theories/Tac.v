(** Tactics and real-number facts shared by the proofs. *)
From Coq Require Import ZArith NArith List Bool Reals Lra Lia.
From Verif Require Import Arith XR.
Local Open Scope R_scope.

Lemma Rpower_gt0 x y : 0 < Rpower x y.
Proof. apply exp_pos. Qed.
Lemma Rmin_pos' a b : 0 < a -> 0 < b -> 0 < Rmin a b.
Proof. apply Rmin_pos. Qed.
Lemma Rmin_nonneg a b : 0 <= a -> 0 <= b -> 0 <= Rmin a b.
Proof. intros; apply Rmin_glb; auto. Qed.

(** Positivity prover for goals [0 < e], [0 <= e], [e <> 0]. *)
Ltac pos1 :=
  match goal with
  | |- 0 < ?e => first [assumption | lra]
  | |- 0 <= ?e => first [assumption | lra | apply Rle_0_sqr | apply sqrt_pos | apply Rabs_pos]
  end.
Ltac pos :=
  match goal with
  | |- ?e <> 0 => first [assumption | apply Rgt_not_eq; unfold Rgt; pos]
  | |- ?e > 0 => unfold Rgt; pos
  | |- ?e >= 0 => apply Rle_ge; pos
  | |- 0 < exp _ => apply exp_pos
  | |- 0 < Rpower _ _ => apply exp_pos
  | |- 0 < PI => apply PI_RGT_0
  | |- _ => solve [pos1]
  | |- 0 < ?a * ?b => apply Rmult_lt_0_compat; pos
  | |- 0 < ?a / ?b => apply Rdiv_lt_0_compat; pos
  | |- 0 < / ?a => apply Rinv_0_lt_compat; pos
  | |- 0 < ?a ^ _ => apply pow_lt; pos
  | |- 0 < sqrt ?a => apply sqrt_lt_R0; pos
  | |- 0 < Rmin _ _ => apply Rmin_pos'; pos
  | |- 0 < Rmax ?a ?b => first [ solve [apply Rlt_le_trans with a; [pos|apply Rmax_l]]
                               | solve [apply Rlt_le_trans with b; [pos|apply Rmax_r]]]
  | |- 0 < ?a + ?b => first [ solve [apply Rplus_lt_0_compat; pos]
                            | solve [apply Rplus_lt_le_0_compat; pos]
                            | solve [apply Rplus_le_lt_0_compat; pos]]
  | |- 0 <= ?a * ?a => apply Rle_0_sqr
  | |- 0 <= ?a * ?b => apply Rmult_le_pos; pos
  | |- 0 <= ?a / ?b => unfold Rdiv; apply Rmult_le_pos; [pos | apply Rlt_le, Rinv_0_lt_compat; pos]
  | |- 0 <= / ?a => apply Rlt_le, Rinv_0_lt_compat; pos
  | |- 0 <= ?a + ?b => apply Rplus_le_le_0_compat; pos
  | |- 0 <= Rmin _ _ => apply Rmin_nonneg; pos
  | |- 0 <= ?a ^ _ => apply pow_le; pos
  | |- 0 <= _ => apply Rlt_le; pos
  end.

(** Evaluate arithmetic on finite numbers. *)
Ltac xr1 :=
  match goal with
  | |- context [@frecip XR XRA (Fin ?a)] => rewrite (xr_recip a) by pos
  | |- context [@fdiv XR XRA (Fin ?a) (Fin ?b)] => rewrite (xr_div a b) by pos
  | |- context [@fsqrt XR XRA (Fin ?a)] => rewrite (xr_sqrt a) by pos
  | |- context [@fln XR XRA (Fin ?a)] => rewrite (xr_ln a) by pos
  | |- context [@fln1p XR XRA (Fin ?a)] => rewrite (xr_ln1p a) by pos
  | |- context [@fpow XR XRA (Fin ?a) (Fin ?b)] => rewrite (xr_pow a b) by pos
  | |- context [@fpowi XR XRA (Fin ?a) (-2)] => rewrite (xr_powim2 a) by pos
  | |- context [@fpowi XR XRA (Fin ?a) (-1)] => rewrite (xr_powim1 a) by pos
  end.
Ltac xr := repeat (progress (autorewrite with xr) || xr1).

Lemma Fin_inj a b : Fin a = Fin b -> a = b.
Proof. congruence. Qed.
Lemma Fin_eq a b : a = b -> Fin a = Fin b.
Proof. congruence. Qed.

Lemma Rinv_lt_mono a b : 0 < a -> a < b -> / b < / a.
Proof. intros; apply Rinv_lt_contravar; auto. apply Rmult_lt_0_compat; lra. Qed.
Lemma Rinv_le_mono a b : 0 < a -> a <= b -> / b <= / a.
Proof. intros; apply Rinv_le_contravar; auto. Qed.
Lemma Rinv_lt_1 a : 1 < a -> / a < 1.
Proof. intros; rewrite <- Rinv_1; apply Rinv_lt_mono; lra. Qed.
Lemma Rinv_le_1 a : 1 <= a -> / a <= 1.
Proof. intros; rewrite <- Rinv_1; apply Rinv_le_mono; lra. Qed.
Lemma Rdiv_lt_1 a b : 0 < b -> a < b -> a / b < 1.
Proof. intros. apply Rmult_lt_reg_r with b; auto. unfold Rdiv; rewrite Rmult_assoc, Rinv_l by lra; lra. Qed.
Lemma Rdiv_le_1 a b : 0 < b -> a <= b -> a / b <= 1.
Proof. intros. apply Rmult_le_reg_r with b; auto. unfold Rdiv; rewrite Rmult_assoc, Rinv_l by lra; lra. Qed.

(** The logistic curve 1/(1+b^(-x/s)) in the form used everywhere. *)
Lemma logistic_bounds e : 0 < e -> 0 < / (1 + e) < 1.
Proof. intros; split; [pos | apply Rinv_lt_1; lra]. Qed.
Lemma logistic_compl e : 0 < e -> 1 - / (1 + e) = / (1 + / e).
Proof. intros; field; lra. Qed.
Lemma Rpower_neg x y : Rpower x (- y) = / Rpower x y.
Proof. apply Rpower_Ropp. Qed.
Lemma Rpower_zero x : Rpower x 0 = 1.
Proof. unfold Rpower. rewrite Rmult_0_l. apply exp_0. Qed.
Lemma Rpower_mono x y z : 1 < x -> y < z -> Rpower x y < Rpower x z.
Proof. intros; now apply Rpower_lt. Qed.

Lemma fold_left_ext {A B} (f g : A -> B -> A) l a :
  (forall x y, f x y = g x y) -> fold_left f l a = fold_left g l a.
Proof. intros H. revert a. induction l as [|y l IH]; intros a; cbn; auto. now rewrite H. Qed.
Lemma ln_mono a b : 0 < a -> a <= b -> ln a <= ln b.
Proof. intros Ha [H| ->]; [apply Rlt_le, ln_increasing; auto | lra]. Qed.
Lemma exp_mono a b : a <= b -> exp a <= exp b.
Proof. intros [H| ->]; [apply Rlt_le, exp_increasing; auto | lra]. Qed.
Lemma sqrt_ge_1 x : 1 <= x -> 1 <= sqrt x.
Proof. intros. rewrite <- sqrt_1 at 1. now apply sqrt_le_1_alt. Qed.
