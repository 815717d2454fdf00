(** Proofs of C144, Glicko-Boost. *)
From Coq Require Import ZArith NArith List Bool Reals Lra Lia.
From Verif Require Import Arith XR Tac ModelLib ModelBoost Spec SpecSettle ProofElo ProofGlicko ProofBoost ProofEvenly ProofLong ProofSweep.
Import ListNotations.
Local Open Scope R_scope.

Lemma boost_base c r RD games : 0 < RD -> 0 <= bc_b0 c -> 0 < bc_b1 c -> exists D, Rmin RD (bc_b1 c) <= D /\ boost_rd c r RD games = Rmin (glicko_rd r D games) 350.
Proof.
  intros HR H0 H1. unfold boost_rd. cbv zeta. eexists. split; [|reflexivity]. destruct (Rlt_dec (bc_k c) (boost_Z r games)) as [L|L]; [|apply Rmin_l]. destruct (Req_EM_T (bc_k c) 0) as [K|K]; [apply Rmin_l|].
  eapply Rle_trans; [apply Rmin_r|]. assert (0 <= glicko_rd r RD games) by (unfold glicko_rd; apply sqrt_pos). assert (0 <= (boost_Z r games - bc_k c) * bc_b0 c) by (apply Rmult_le_pos; lra). assert (0 <= (1 + (boost_Z r games - bc_k c) * bc_b0 c) * glicko_rd r RD games) by (apply Rmult_le_pos; lra). lra.
Qed.
Lemma C144_boost_proof : forall r RD ro RDo o w c, 0 < RD -> 0 <= bc_b0 c -> 0 < bc_b1 c ->
  let cfg := mkBoostConfig (Fin (bc_eta c)) (Fin (bc_k c)) (Fin (bc_b0 c)) (Fin (bc_b1 c)) (Fin (bc_a0 c)) (Fin (bc_a1 c)) (Fin (bc_a2 c)) (Fin (bc_a3 c)) (Fin (bc_a4 c)) in
  let E := gE r (ro - (if w : bool then bc_eta c else - bc_eta c)) RDo in let l := r + (points o - E) / (gq * gg RDo * E * (1 - E)) in exists x d,
  (forall n, (1 <= n)%nat -> glicko_boost_rating_period (mkBoost (Fin r) (Fin RD)) (repeat (mkBoost (Fin ro) (Fin RDo), o, w) n) cfg = mkBoost (Fin (x n)) (Fin (d n))) /\
  Un_cv x l /\ forall n, (1 <= n)%nat -> (r < l -> r < x n < l) /\ (l < r -> l < x n < r) /\ (l = r -> x n = r).
Proof.
  intros r RD ro RDo o w c HR H0 H1 cfg E l. set (rj := ro - (if w then bc_eta c else - bc_eta c)) in *. set (gs := repeat (rj, RDo, points o)).
  exists (fun n => boost_r c r RD (gs n)), (fun n => boost_end c (boost_r c r RD (gs n)) (boost_rd c r RD (gs n))). split.
  { intros n Hn. pose proof (C35_period_proof r RD c (repeat (ro, RDo, o, w) n) HR H0 (Rlt_le _ _ H1) (rep_ne _ n Hn)) as F. cbv zeta in F. rewrite !map_rep in F. exact F. }
  pose proof (gE_range r rj RDo) as HE. fold E in HE. pose proof (gg_pos RDo) as G. pose proof gq_pos as Q. set (W := gq ^ 2 * gg RDo ^ 2 * E * (1 - E)).
  assert (HW : 0 < W) by (pose proof (pow_lt gq 2 Q); pose proof (pow_lt (gg RDo) 2 G); unfold W; do 3 (apply Rmult_lt_0_compat; [|try lra]); lra).
  set (B := Rmin RD (bc_b1 c)). assert (HB : 0 < B) by (now apply Rmin_pos).
  assert (X : forall n, (1 <= n)%nat -> exists D t, B <= D /\ t = Rmin (glicko_rd r D (gs n)) 350 /\ boost_r c r RD (gs n) = r + (l - r) * (INR n * W * t ^ 2) /\ t ^ 2 = Rmin (/ (/ D ^ 2 + INR n * W)) (350 ^ 2)).
  { intros n Hn. destruct (boost_base c r RD (gs n) HR H0 H1) as (D & HD & EB). fold B in HD. exists D, (boost_rd c r RD (gs n)). split; [auto|]. split; [auto|]. split.
    - unfold boost_r, gM, gs. rewrite map_rep, Rsum_rep. fold E. unfold l, W. field. repeat split; lra.
    - rewrite EB. unfold glicko_rd. assert (GD : gd2inv r (gs n) = INR n * W) by (unfold gd2inv, gs; rewrite map_rep, Rsum_rep; fold E; unfold W; ring). rewrite GD. pose proof (pos_INR n) as P. assert (0 < / D ^ 2) by (apply Rinv_0_lt_compat, pow_lt; lra). assert (Z : 0 < / (/ D ^ 2 + INR n * W)) by (apply Rinv_0_lt_compat; assert (0 <= INR n * W) by (apply Rmult_le_pos; lra); lra).
      set (z := / (/ D ^ 2 + INR n * W)) in *. pose proof (sqrt_pos z) as S. pose proof (pow2_sqrt z ltac:(lra)) as SZ. unfold Rmin. destruct (Rle_dec (sqrt z) 350), (Rle_dec z (350 ^ 2)); try lra; cbn [pow] in *; nra. }
  assert (Y : forall n, (1 <= n)%nat -> exists D k, B <= D /\ boost_r c r RD (gs n) = r + (l - r) * k /\ 0 < k < 1 /\ k = Rmin (INR n * W / (/ D ^ 2 + INR n * W)) (INR n * W * 350 ^ 2)).
  { intros n Hn. destruct (X n Hn) as (D & t & HD & _ & ER & ET). assert (PN : 1 <= INR n) by (apply le_INR in Hn; cbn [INR] in Hn; lra). assert (ID : 0 < / D ^ 2) by (apply Rinv_0_lt_compat, pow_lt; lra). assert (NW : 0 < INR n * W) by (apply Rmult_lt_0_compat; lra).
    assert (EK : INR n * W * t ^ 2 = Rmin (INR n * W / (/ D ^ 2 + INR n * W)) (INR n * W * 350 ^ 2)). { rewrite ET. unfold Rdiv. symmetry. unfold Rmin. destruct (Rle_dec (INR n * W * / (/ D ^ 2 + INR n * W)) (INR n * W * 350 ^ 2)) as [L|L], (Rle_dec (/ (/ D ^ 2 + INR n * W)) (350 ^ 2)) as [M|M]; try reflexivity; exfalso; [apply Rmult_le_reg_l in L; [contradiction|auto]|apply L; apply Rmult_le_compat_l; lra]. }
    exists D, (INR n * W * t ^ 2). split; [auto|]. split; [auto|]. split; [|auto]. rewrite EK. split; [apply Rmin_pos; [apply Rdiv_lt_0_compat; lra|apply Rmult_lt_0_compat; lra]|]. eapply Rle_lt_trans; [apply Rmin_l|]. apply Rmult_lt_reg_r with (/ D ^ 2 + INR n * W); [lra|]. unfold Rdiv. rewrite Rmult_assoc, Rinv_l; lra. }
  split.
  - intros eps He. assert (IB : 0 < / B ^ 2) by (apply Rinv_0_lt_compat, pow_lt; lra). set (A := Rabs (l - r)). assert (HA : 0 <= A) by apply Rabs_pos.
    destruct (INR_big (A * / B ^ 2 / (W * eps) + / (W * 350 ^ 2) + 1)) as [n0 Hn0]. exists (S n0). intros n Hn. assert (Hn' : (1 <= n)%nat) by lia. destruct (Y n Hn') as (D & k & HD & ER & K & EK). unfold R_dist. rewrite ER. replace (r + (l - r) * k - l) with (- ((l - r) * (1 - k))) by ring. rewrite Rabs_Ropp, Rabs_mult, (Rabs_pos_eq (1 - k)) by lra. fold A.
    assert (PN : INR n0 <= INR n) by (apply le_INR; lia). assert (WE : 0 < W * eps) by (now apply Rmult_lt_0_compat). assert (P1 : 0 <= A * / B ^ 2 / (W * eps)) by (apply Rmult_le_pos; [apply Rmult_le_pos; lra|left; now apply Rinv_0_lt_compat]). assert (P2 : 0 < / (W * 350 ^ 2)) by (apply Rinv_0_lt_compat, Rmult_lt_0_compat; lra).
    assert (N1 : A * / B ^ 2 < INR n * (W * eps)). { assert (L : A * / B ^ 2 / (W * eps) < INR n) by lra. apply (Rmult_lt_compat_r (W * eps)) in L; [|auto]. replace (A * / B ^ 2 / (W * eps) * (W * eps)) with (A * / B ^ 2) in L by (field; repeat split; lra). exact L. }
    assert (N2 : 1 <= INR n * W * 350 ^ 2). { assert (L : / (W * 350 ^ 2) <= INR n) by lra. apply (Rmult_le_compat_r (W * 350 ^ 2)) in L; [|apply Rmult_le_pos; lra]. rewrite Rinv_l in L by (apply Rgt_not_eq, Rmult_lt_0_compat; lra). lra. }
    assert (ID : 0 < / D ^ 2 <= / B ^ 2) by (split; [apply Rinv_0_lt_compat, pow_lt; lra|apply Rinv_le_contravar; [apply pow_lt; lra|apply pow_incr; lra]]). assert (NW : 0 < INR n * W) by (apply Rmult_lt_0_compat; [|auto]; lra).
    assert (K1 : k = INR n * W / (/ D ^ 2 + INR n * W)). { rewrite EK in *. apply Rmin_left. destruct (Rle_dec (INR n * W / (/ D ^ 2 + INR n * W)) (INR n * W * 350 ^ 2)) as [|M]; [auto|]. rewrite Rmin_right in K by lra. lra. }
    set (q := / D ^ 2) in *. replace (1 - k) with (q / (q + INR n * W)) by (rewrite K1; field; lra). apply Rmult_lt_reg_r with (q + INR n * W); [lra|]. replace (A * (q / (q + INR n * W)) * (q + INR n * W)) with (A * q) by (field; lra). assert (A * q <= A * / B ^ 2) by (apply Rmult_le_compat_l; lra). nra.
  - intros n Hn. destruct (Y n Hn) as (D & k & _ & -> & K & _). repeat split; intros; nra.
Qed.
