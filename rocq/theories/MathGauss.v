(** The Gaussian integral, and the normal distribution function near infinity. *)
From Coq Require Import Reals Lra Lia.
From Coquelicot Require Import Coquelicot.
Local Open Scope R_scope.

Definition ge (t : R) : R := exp (- t ^ 2).
Lemma ge_cont x : continuous ge x.
Proof. apply (ex_derive_continuous ge). unfold ge. auto_derive. exact I. Qed.
Lemma ge_RInt a b : ex_RInt ge a b.
Proof. apply (ex_RInt_continuous ge). intros; apply ge_cont. Qed.
Definition G (x : R) : R := RInt ge 0 x.
Lemma G_deriv x : is_derive G x (ge x).
Proof.
  unfold G. apply (is_derive_RInt ge (fun x => RInt ge 0 x) 0 x); [|apply ge_cont]. apply filter_forall. intros y. apply (RInt_correct ge), ge_RInt.
Qed.
Definition Bf (x t : R) : R := exp (- (x ^ 2 * (1 + t ^ 2))) / (1 + t ^ 2).
Lemma q1 t : 0 < 1 + t ^ 2. Proof. pose proof (pow2_ge_0 t). lra. Qed.
Lemma Bf_deriv x t : is_derive (fun u => Bf u t) x (- (2 * x) * exp (- (x ^ 2 * (1 + t ^ 2)))).
Proof.
  pose proof (q1 t) as Q. apply (is_derive_ext (fun u => exp (- (u * u * (1 + t ^ 2))) / (1 + t ^ 2))); [intros u; unfold Bf; replace (u ^ 2) with (u * u) by ring; reflexivity|].
  replace (x ^ 2) with (x * x) by ring. set (q := 1 + t ^ 2) in *. auto_derive; [lra|]. generalize (exp (- (x * x * q))). intros e. field. lra.
Qed.
Lemma Bf_cont x t : continuous (Bf x) t.
Proof. pose proof (q1 t). apply (ex_derive_continuous (Bf x)). unfold Bf. auto_derive. lra. Qed.
Definition Bi (x : R) : R := RInt (Bf x) 0 1.
Lemma Bi_deriv x : is_derive Bi x (- 2 * ge x * G x).
Proof.
  unfold Bi. evar_last.
  - apply (is_derive_RInt_param Bf 0 1 x).
    + apply filter_forall. intros y t _. eexists. apply Bf_deriv.
    + intros t _. apply (continuity_2d_pt_ext (fun u v => - (2 * u) * exp (- (u ^ 2 * (1 + v ^ 2))))).
      { intros u v. symmetry. apply is_derive_unique, Bf_deriv. }
      apply continuity_2d_pt_mult.
      * apply continuity_2d_pt_opp, continuity_2d_pt_mult; [apply continuity_2d_pt_const|apply continuity_2d_pt_id1].
      * apply (continuity_1d_2d_pt_comp exp); [apply derivable_continuous_pt, derivable_pt_exp|].
        apply continuity_2d_pt_opp, continuity_2d_pt_mult.
        -- apply (continuity_1d_2d_pt_comp (fun u => u ^ 2) (fun u _ => u)); [apply derivable_continuous_pt, derivable_pt_pow|apply continuity_2d_pt_id1].
        -- apply continuity_2d_pt_plus; [apply continuity_2d_pt_const|].
           apply (continuity_1d_2d_pt_comp (fun u => u ^ 2) (fun _ v => v)); [apply derivable_continuous_pt, derivable_pt_pow|apply continuity_2d_pt_id2].
    + apply filter_forall. intros y. apply (ex_RInt_continuous (Bf y)). intros; apply Bf_cont.
  - rewrite (RInt_ext _ (fun t => scal (- 2 * ge x) (scal x (ge (x * t + 0))))).
    + etransitivity; [apply (RInt_scal (fun t => scal x (ge (x * t + 0))) 0 1 (- 2 * ge x))|].
      * apply (ex_RInt_comp_lin ge x 0 0 1). apply ge_RInt.
      * pose proof (RInt_comp_lin ge x 0 0 1) as L. rewrite Rmult_0_r, Rmult_1_r, !Rplus_0_r in L. etransitivity; [apply f_equal, L, ge_RInt|]. reflexivity.
    + intros t _. etransitivity; [apply (is_derive_unique _ _ _ (Bf_deriv x t))|]. unfold scal; cbn -[pow]. unfold mult; cbn -[pow]. unfold ge.
      replace (- (x ^ 2 * (1 + t ^ 2))) with (- x ^ 2 + - (x * t + 0) ^ 2) by ring. rewrite exp_plus. ring.
Qed.
Lemma Bi_0 : Bi 0 = PI / 4.
Proof.
  unfold Bi. rewrite (RInt_ext _ (fun t => / (1 + t ^ 2))).
  - rewrite <- atan_1. replace (atan 1) with (atan 1 - atan 0) by (rewrite atan_0; ring).
    apply is_RInt_unique. apply (is_RInt_derive atan (fun t => / (1 + t ^ 2))).
    + intros t _. evar_last; [apply is_derive_atan|]. unfold Rsqr. pose proof (q1 t). field. nra.
    + intros t _. pose proof (q1 t). apply (ex_derive_continuous (fun t => / (1 + t ^ 2))). auto_derive. lra.
  - intros t _. unfold Bf. replace (- (0 ^ 2 * (1 + t ^ 2))) with 0 by ring. rewrite exp_0. apply Rmult_1_l.
Qed.
Lemma G_0 : G 0 = 0. Proof. unfold G. rewrite RInt_point. reflexivity. Qed.
Lemma gauss_eq x : G x ^ 2 + Bi x = PI / 4.
Proof.
  assert (D : forall t, is_derive (fun x => G x ^ 2 + Bi x) t 0).
  { intros t. evar_last.
    - apply (is_derive_plus (fun x => G x ^ 2) Bi); [|apply Bi_deriv]. apply (is_derive_ext (fun x => G x * G x)); [intros u; change (G u * G u = G u ^ 2 :> R); ring|].
      apply (is_derive_mult G G); [apply G_deriv|apply G_deriv|intros; apply Rmult_comm].
    - unfold plus, mult; cbn. ring. }
  assert (E : forall t, (fun x => G x ^ 2 + Bi x) t = (fun x => G x ^ 2 + Bi x) 0).
  { intros t. destruct (MVT_gen (fun x => G x ^ 2 + Bi x) 0 t (fun _ => 0)) as [c [_ H]].
    - intros; apply D.
    - intros y _. apply continuity_pt_filterlim. apply (ex_derive_continuous (fun x => G x ^ 2 + Bi x)). eexists. apply D.
    - lra. }
  pose proof (E x) as H. cbv beta in H. rewrite H, G_0, Bi_0. ring.
Qed.
Lemma Bi_bound x : 0 <= Bi x <= ge x.
Proof.
  unfold Bi. split.
  - apply RInt_ge_0; [lra|apply (ex_RInt_continuous (Bf x)); intros; apply Bf_cont|]. intros t _. unfold Bf, Rdiv. apply Rmult_le_pos; [left; apply exp_pos|left; apply Rinv_0_lt_compat, q1].
  - replace (ge x) with (RInt (fun _ => ge x) 0 1) by (rewrite RInt_const; unfold scal; cbn; unfold mult; cbn; ring).
    apply RInt_le; [lra|apply (ex_RInt_continuous (Bf x)); intros; apply Bf_cont|apply ex_RInt_const|]. intros t _. unfold Bf, ge. pose proof (q1 t). pose proof (pow2_ge_0 t). pose proof (pow2_ge_0 x).
    assert (I : 0 < / (1 + t ^ 2) <= 1) by (split; [apply Rinv_0_lt_compat; lra|rewrite <- Rinv_1; apply Rinv_le_contravar; lra]).
    assert (L : exp (- (x ^ 2 * (1 + t ^ 2))) <= exp (- x ^ 2)). { assert (- (x ^ 2 * (1 + t ^ 2)) <= - x ^ 2) as [Q|Q] by nra; [left; apply exp_increasing, Q|rewrite Q; lra]. }
    pose proof (exp_pos (- (x ^ 2 * (1 + t ^ 2)))). unfold Rdiv. nra.
Qed.
