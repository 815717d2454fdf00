(** Property theorems in IEEE-754 double precision, continued: Glicko-2 with a tiny
    system constant never returns (C117). *)
From Coq Require Import ZArith NArith List Bool Reals Lra Lia.
From Flocq Require Import Core.Core IEEE754.BinarySingleNaN.
From Verif Require Import Arith B64 SpecB64 SpecAcc SpecAcc3 SpecAcc4 ModelLib Spec ModelGlicko2
  MathB64 MathAcc MathAcc2 ProofB64 ProofB64b ProofB64c ProofAcc ProofAccG2 ProofG2H.
Import Spec ListNotations.
Local Open Scope R_scope.

(** C117: no amount of fuel is enough, for every result that is no upset. *)
@THM C117_f64_glicko2_tiny_tau_refuted C117_game_proof
@THM C117_f64_glicko2_tiny_tau_period_refuted C117_period_proof

(** [tau_tiny] (ProofG2H.v) is 2^-120. *)
Example C117_tau_case : num_in (/ 10 ^ 150) (/ 10 ^ 34) tau_tiny.
Proof.
  assert (E : B2R tau_tiny = / 2 ^ 120) by (unfold tau_tiny, B2R, F2R; cbn -[pow Rinv]; lra).
  split; [reflexivity|]. rewrite E. split; apply Rinv_le_contravar; try (apply pow_lt; lra); rewrite !pow_IZR; apply IZR_le; vm_compute; discriminate.
Qed.
(** Two fresh players draw. *)
Example C117_case : forall fuel, glicko2 (A := B64A libm_rounded) fuel (mkGlicko2 (b64_of_Z 1500) (b64_of_Z 350) (b64_lit 6 100)) (mkGlicko2 (b64_of_Z 1500) (b64_of_Z 350) (b64_lit 6 100)) DRAW
  (mkGlicko2Config tau_tiny (b64_lit 1 1000000)) = None.
Proof.
  intro fuel. assert (H : forall z, (Z.abs z <= 2 ^ 53)%Z -> finite (b64_of_Z z) /\ B2R (b64_of_Z z) = IZR z).
  { intros z Hz. destruct (ext_ofZ z Hz) as [F E]. split; [exact F|]. rewrite <- (ext_fin _ F), E. reflexivity. }
  destruct (H 1500%Z ltac:(vm_compute; discriminate)) as [F3 E3]. destruct (H 350%Z ltac:(vm_compute; discriminate)) as [F4 E4].
  pose proof (lit_ap 6 100 1 ltac:(lia) ltac:(lia) ltac:(rewrite Rabs_pos_eq; lra) ltac:(apply okB; lra)) as [Fs As]. rewrite (ext_fin _ Fs) in As. unfold u0 in As. apply Rabs_le_inv in As.
  assert (Q : Rabs (1500 - 1500) <= 300) by (rewrite Rminus_diag_eq, Rabs_R0 by reflexivity; lra).
  apply (C117_f64_glicko2_tiny_tau_refuted libm_rounded fuel _ _ _ _ libm_exp_accurate libm_lnw_accurate); cbn [g2_rating g2_deviation g2_volatility g2_tau]; try exact C117_tau_case; try (split; [assumption|]); rewrite ?E3, ?E4; try lra.
Qed.
