(** Property theorems in IEEE-754 double precision, continued: Glicko-2's iteration
    stops (C116). [g2_calm] is in SpecAcc4.v, [g2_updated] in SpecAcc3.v. *)
From Coq Require Import ZArith NArith List Bool Reals Lra Lia.
From Flocq Require Import Core.Raux IEEE754.BinarySingleNaN.
From Verif Require Import Arith B64 SpecB64 SpecAcc SpecAcc3 SpecAcc4 ModelLib Spec ModelGlicko2
  MathB64 MathAcc MathAcc2 ProofB64 ProofB64b ProofB64c ProofAcc ProofAccG2 ProofG2T.
Import Spec ListNotations.
Local Open Scope R_scope.

(** C116: for every amount of fuel from some [N] on, the functions return, and
    what they return does not depend on it. *)
@THM C116_f64_glicko2_total C116_game_proof
@THM C116_f64_glicko2_total_usual C116_usual_proof
@THM C116_f64_glicko2_total_period C116_period_proof

(** The default configuration (tau 0.5, tolerance 10^-6): a player of 1700 beats
    one of 1500. *)
Example C116_case : exists N q1 q2, let p1 := mkGlicko2 (b64_of_Z 1700) (b64_of_Z 60) (b64_lit 6 100) in let p2 := mkGlicko2 (b64_of_Z 1500) (b64_of_Z 200) (b64_lit 6 100) in
  let tau := b64_lit 5 10 in let tol := b64_lit 1 1000000 in
  (forall k, glicko2 (A := B64A libm_rounded) (N + k) p1 p2 WIN (mkGlicko2Config tau tol) = Some (q1, q2)) /\
  g2_updated q1 1700 60 (B2R (b64_lit 6 100)) (B2R tau) (B2R tol) [(g2mu 1500, g2phi 200, 1)] /\
  g2_updated q2 1500 200 (B2R (b64_lit 6 100)) (B2R tau) (B2R tol) [(g2mu 1700, g2phi 60, 0)].
Proof.
  assert (H : forall z, (Z.abs z <= 2 ^ 53)%Z -> finite (b64_of_Z z) /\ B2R (b64_of_Z z) = IZR z).
  { intros z Hz. destruct (ext_ofZ z Hz) as [F E]. split; [exact F|]. rewrite <- (ext_fin _ F), E. reflexivity. }
  destruct (H 1700%Z ltac:(vm_compute; discriminate)) as [F1 E1]. destruct (H 60%Z ltac:(vm_compute; discriminate)) as [F2 E2].
  destruct (H 1500%Z ltac:(vm_compute; discriminate)) as [F3 E3]. destruct (H 200%Z ltac:(vm_compute; discriminate)) as [F4 E4].
  pose proof (lit_ap 6 100 1 ltac:(lia) ltac:(lia) ltac:(rewrite Rabs_pos_eq; lra) ltac:(apply okB; lra)) as [Fs As]. pose proof (lit_ap 5 10 1 ltac:(lia) ltac:(lia) ltac:(rewrite Rabs_pos_eq; lra) ltac:(apply okB; lra)) as [Ft At].
  pose proof (lit_ap 1 1000000 (/ 10 ^ 5) ltac:(lia) ltac:(lia) ltac:(rewrite Rabs_pos_eq; lra) ltac:(apply okB; lra)) as [Fo Ao].
  rewrite (ext_fin _ Fs) in As. rewrite (ext_fin _ Ft) in At. rewrite (ext_fin _ Fo) in Ao. unfold u0 in As, At, Ao. apply Rabs_le_inv in As. apply Rabs_le_inv in At. apply Rabs_le_inv in Ao.
  pose proof (C116_f64_glicko2_total_usual libm_rounded (mkGlicko2 (b64_of_Z 1700) (b64_of_Z 60) (b64_lit 6 100)) (mkGlicko2 (b64_of_Z 1500) (b64_of_Z 200) (b64_lit 6 100)) WIN (mkGlicko2Config (b64_lit 5 10) (b64_lit 1 1000000))
    libm_exp_accurate libm_lnw_accurate libm_hypots_accurate) as T. cbn [g2_rating g2_deviation g2_volatility g2_tau g2_convergence_tolerance points invert] in T. rewrite ?E1, ?E2, ?E3, ?E4 in T.
  apply T; try (split; [assumption|]); rewrite ?E1, ?E2, ?E3, ?E4; try assumption; try lra. rewrite Rabs_pos_eq; lra.
Qed.
(** A win and a loss against two equal opponents are calm. *)
Example C116_period_case : exists N q, let p := mkGlicko2 (b64_of_Z 1500) (b64_of_Z 200) (b64_lit 6 100) in
  let tau := b64_lit 5 10 in let tol := b64_lit 1 1000000 in
  (forall k, glicko2_rating_period (A := B64A libm_rounded) (N + k) p [(p, WIN); (p, LOSS)] (mkGlicko2Config tau tol) = Some q) /\
  g2_updated q 1500 200 (B2R (b64_lit 6 100)) (B2R tau) (B2R tol) [(g2mu 1500, g2phi 200, 1); (g2mu 1500, g2phi 200, 0)].
Proof.
  assert (H : forall z, (Z.abs z <= 2 ^ 53)%Z -> finite (b64_of_Z z) /\ B2R (b64_of_Z z) = IZR z).
  { intros z Hz. destruct (ext_ofZ z Hz) as [F E]. split; [exact F|]. rewrite <- (ext_fin _ F), E. reflexivity. }
  destruct (H 1500%Z ltac:(vm_compute; discriminate)) as [F3 E3]. destruct (H 200%Z ltac:(vm_compute; discriminate)) as [F4 E4].
  pose proof (lit_ap 6 100 1 ltac:(lia) ltac:(lia) ltac:(rewrite Rabs_pos_eq; lra) ltac:(apply okB; lra)) as [Fs As]. pose proof (lit_ap 5 10 1 ltac:(lia) ltac:(lia) ltac:(rewrite Rabs_pos_eq; lra) ltac:(apply okB; lra)) as [Ft At].
  pose proof (lit_ap 1 1000000 (/ 10 ^ 5) ltac:(lia) ltac:(lia) ltac:(rewrite Rabs_pos_eq; lra) ltac:(apply okB; lra)) as [Fo Ao].
  rewrite (ext_fin _ Fs) in As. rewrite (ext_fin _ Ft) in At. rewrite (ext_fin _ Fo) in Ao. unfold u0 in As, At, Ao. apply Rabs_le_inv in As. apply Rabs_le_inv in At. apply Rabs_le_inv in Ao.
  set (p := mkGlicko2 (b64_of_Z 1500) (b64_of_Z 200) (b64_lit 6 100)).
  pose proof (C116_f64_glicko2_total_period libm_rounded p [(p, WIN); (p, LOSS)] (mkGlicko2Config (b64_lit 5 10) (b64_lit 1 1000000))
    libm_exp_accurate libm_lnw_accurate libm_hypots_accurate) as T. unfold p in T. cbn [g2_rating g2_deviation g2_volatility g2_tau g2_convergence_tolerance points map fst snd length] in T. rewrite ?E3, ?E4 in T.
  apply T; try (split; [assumption|]); rewrite ?E3, ?E4; try assumption; try lra; try lia.
  - assert (Q : num_in (- 10 ^ 4) (10 ^ 4) (b64_of_Z 1500) /\ num_in 1 350 (b64_of_Z 200) /\ Rabs (1500 - 1500) <= 800).
    { split; [split; [exact F3|lra]|]. split; [split; [exact F4|lra]|]. rewrite Rminus_diag_eq, Rabs_R0 by reflexivity. lra. }
    apply Forall_cons; [cbn [fst g2_rating g2_deviation]; rewrite E3; exact Q|]. apply Forall_cons; [cbn [fst g2_rating g2_deviation]; rewrite E3; exact Q|apply Forall_nil].
  - unfold g2_calm. cbv zeta. set (games := [_; _]). assert (V : 0 < g2v (g2mu 1500) games) by (apply v_pos; discriminate).
    assert (M : g2M (g2mu 1500) games = 0).
    { assert (E : g2E (g2mu 1500) (g2mu 1500) (g2phi 200) = / 2). { unfold g2E. replace (- g2g (g2phi 200) * (g2mu 1500 - g2mu 1500)) with 0 by ring. rewrite exp_0. lra. }
      unfold g2M, games. cbn. rewrite E. set (G := g2g (g2phi 200)). change (G * (1 - / 2) + (G * (0 - / 2) + 0) = 0). lra. }
    rewrite M, Rmult_0_r. pose proof (pow2_ge_0 (g2phi 200)). lra.
Qed.
