(** Property theorems in IEEE-754 double precision, continued (C118): how far the
    computed Weng-Lin updates of teams are from the published formulas. *)
From Coq Require Import ZArith NArith List Bool Reals Lra Lia.
From Flocq Require Import IEEE754.BinarySingleNaN.
From Verif Require Import Arith XR B64 SpecB64 SpecAcc SpecAcc5 ModelLib ModelWengLin MathB64 ProofB64 ProofB64b ProofB64c MathAcc ProofAcc ProofAcc2 MathAccWL ProofAccWL ProofAccWL2 Spec.
Import ListNotations.
Local Open Scope R_scope.

(** C118: two teams. *)
@THM C118_f64_weng_lin_two C118_two_proof
(** C118: the team in any position of a match of up to 51 teams. *)
@THM C118_f64_weng_lin_multi C118_multi_proof
(** C118: expected scores of two players, two teams, many teams. *)
@THM C118_f64_weng_lin_expected C118_expected_proof
@THM C118_f64_weng_lin_expected_two C118_expected_two_proof
@THM C118_f64_weng_lin_expected_multi C118_expected_multi_proof

(** Two players rated 25 and 30 against one rated 40, beta = 4, tolerance 1. *)
Example C118_case : let p m s := mkWL (b64_of_Z m) (b64_of_Z s) in let t1 := [p 25%Z 8%Z; p 30%Z 4%Z] in let t2 := [p 40%Z 2%Z] in
  exp_accurate libm_rounded /\ wl_usual 2 t1 /\ wl_usual 2 t2 /\ num_in 1 100 (b64_of_Z 4) /\ num_in (9 / 10 ^ 7) 1 (b64_of_Z 1) /\
  wl_small 4 (map wl_re t1) (map wl_re t2).
Proof.
  assert (H : forall z lo hi, (Z.abs z <= 2 ^ 53)%Z -> lo <= IZR z <= hi -> num_in lo hi (b64_of_Z z)).
  { intros z lo hi Hz B. destruct (ext_ofZ z Hz) as [F E]. split; [exact F|]. rewrite <- (ext_fin _ F), E. exact B. }
  assert (E : forall z, (Z.abs z <= 2 ^ 53)%Z -> B2R (b64_of_Z z) = IZR z) by (intros z Hz; destruct (ext_ofZ z Hz) as [F E]; rewrite <- (ext_fin _ F); exact E).
  intros p t1 t2. split; [exact libm_exp_accurate|].
  assert (P : forall m s, (Z.abs m <= 2 ^ 53)%Z -> (Z.abs s <= 2 ^ 53)%Z -> -500 <= IZR m <= 500 -> / 1000 <= IZR s <= 100 -> num_in (- 500) 500 (wl_rating (p m s)) /\ num_in (/ 1000) 100 (wl_uncertainty (p m s)))
    by (intros m s H1 H2 H3 H4; split; apply H; auto).
  split; [split; [discriminate|split; [simpl; lia|unfold t1; apply Forall_cons; [|apply Forall_cons; [|constructor]]; (apply P; [vm_compute; discriminate|vm_compute; discriminate|lra|lra])]]|].
  split; [split; [discriminate|split; [simpl; lia|unfold t2; apply Forall_cons; [|constructor]; (apply P; [vm_compute; discriminate|vm_compute; discriminate|lra|lra])]]|].
  split; [apply H; [vm_compute; discriminate|lra]|]. split; [apply H; [vm_compute; discriminate|lra]|].
  assert (R1 : map wl_re t1 = [(25, 8); (30, 4)]) by (unfold t1, p, wl_re; cbn [map wl_rating wl_uncertainty]; rewrite !E by (vm_compute; discriminate); reflexivity).
  assert (R2 : map wl_re t2 = [(40, 2)]) by (unfold t2, p, wl_re; cbn [map wl_rating wl_uncertainty]; rewrite !E by (vm_compute; discriminate); reflexivity).
  rewrite R1, R2. unfold wl_small, wl_theta, wl_s2, wlc. cbn [map fst snd]. unfold Rsum. cbn [fold_right]. assert (C : 1 <= sqrt (8 ^ 2 + (4 ^ 2 + 0) + (2 ^ 2 + 0) + 2 * 4 ^ 2)) by (rewrite <- sqrt_1 at 1; apply sqrt_le_1_alt; lra).
  split; (rewrite Rabs_pos_eq by lra; lra).
Qed.
