(** Property theorems in IEEE-754 double precision, continued: Glicko-2 (C115).
    [g2_updated] (SpecAcc3.v) compares with Glickman's formulas over the reals. *)
From Coq Require Import ZArith NArith List Bool Reals Lra Lia.
From Flocq Require Import Core.Raux IEEE754.BinarySingleNaN.
From Verif Require Import Arith B64 SpecB64 SpecAcc SpecAcc3 ModelLib Spec ModelGlicko2
  MathB64 MathAcc MathAcc2 ProofB64 ProofB64b ProofB64c ProofAcc ProofAccG2.
Import Spec ListNotations.
Local Open Scope R_scope.

(** C115: one game; a game without an upset, where no further condition is
    needed; a rating period. *)
@THM C115_f64_glicko2_game C115_game_proof
@THM C115_f64_glicko2_usual C115_usual_proof
@THM C115_f64_glicko2_period C115_period_proof
(** Expected scores and the growth of the deviation. *)
@THM C115_f64_glicko2_expected C115_expected_proof
@THM C115_f64_glicko2_expected_period C115_expected_period_proof
@THM C115_f64_glicko2_decay C115_decay_proof

(** The correctly rounded libm meets the contracts. *)
Example C115_libm_case : exp_accurate libm_rounded /\ lnw_accurate libm_rounded /\ hypots_accurate libm_rounded.
Proof. exact (conj libm_exp_accurate (conj libm_lnw_accurate libm_hypots_accurate)). Qed.
(** A player of 1700 beats one of 1500 (deviations 60 and 200, volatility 0.06,
    tau 0.5, tolerance 2): the hypotheses hold and the function returns. *)
Example C115_case : exists q1 q2, let p1 := mkGlicko2 (b64_of_Z 1700) (b64_of_Z 60) (b64_lit 6 100) in let p2 := mkGlicko2 (b64_of_Z 1500) (b64_of_Z 200) (b64_lit 6 100) in
  let tau := b64_lit 5 10 in let tol := b64_of_Z 2 in
  glicko2 (A := B64A libm_rounded) 1 p1 p2 WIN (mkGlicko2Config tau tol) = Some (q1, q2) /\
  g2_updated q1 1700 60 (B2R (b64_lit 6 100)) (B2R tau) 2 [(g2mu 1500, g2phi 200, 1)] /\
  g2_updated q2 1500 200 (B2R (b64_lit 6 100)) (B2R tau) 2 [(g2mu 1700, g2phi 60, 0)].
Proof.
  assert (H : forall z, (Z.abs z <= 2 ^ 53)%Z -> finite (b64_of_Z z) /\ B2R (b64_of_Z z) = IZR z).
  { intros z Hz. destruct (ext_ofZ z Hz) as [F E]. split; [exact F|]. rewrite <- (ext_fin _ F), E. reflexivity. }
  destruct (H 1700%Z ltac:(vm_compute; discriminate)) as [F1 E1]. destruct (H 60%Z ltac:(vm_compute; discriminate)) as [F2 E2].
  destruct (H 1500%Z ltac:(vm_compute; discriminate)) as [F3 E3]. destruct (H 200%Z ltac:(vm_compute; discriminate)) as [F4 E4]. destruct (H 2%Z ltac:(vm_compute; discriminate)) as [F5 E5].
  pose proof (lit_ap 6 100 1 ltac:(lia) ltac:(lia) ltac:(rewrite Rabs_pos_eq; lra) ltac:(apply okB; lra)) as [Fs As]. pose proof (lit_ap 5 10 1 ltac:(lia) ltac:(lia) ltac:(rewrite Rabs_pos_eq; lra) ltac:(apply okB; lra)) as [Ft At].
  rewrite (ext_fin _ Fs) in As. rewrite (ext_fin _ Ft) in At. unfold u0 in As, At. apply Rabs_le_inv in As. apply Rabs_le_inv in At.
  assert (G : Rabs (1700 - 1500) <= 800) by (rewrite Rabs_pos_eq; lra).
  destruct (game_quick libm_rounded 0 (b64_of_Z 1700) (b64_of_Z 60) (b64_lit 6 100) (b64_of_Z 1500) (b64_of_Z 200) (b64_lit 6 100) (b64_lit 5 10) (b64_of_Z 2) WIN libm_exp_accurate libm_lnw_accurate) as (q1 & q2 & Q);
    try (split; [assumption|]); rewrite ?E1, ?E2, ?E3, ?E4, ?E5; cbn [no_upset]; try assumption; try lra.
  exists q1, q2. cbv zeta. split; [exact Q|].
  pose proof (C115_f64_glicko2_usual libm_rounded 1 (mkGlicko2 (b64_of_Z 1700) (b64_of_Z 60) (b64_lit 6 100)) (mkGlicko2 (b64_of_Z 1500) (b64_of_Z 200) (b64_lit 6 100)) q1 q2 WIN (mkGlicko2Config (b64_lit 5 10) (b64_of_Z 2))
    libm_exp_accurate libm_lnw_accurate libm_hypots_accurate) as T. cbn [g2_rating g2_deviation g2_volatility g2_tau g2_convergence_tolerance points invert] in T. rewrite ?E1, ?E2, ?E3, ?E4, ?E5 in T.
  apply T; try (split; [assumption|]); rewrite ?E1, ?E2, ?E3, ?E4, ?E5; try assumption; try lra.
Qed.
