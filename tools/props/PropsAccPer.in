(** Property theorems in IEEE-754 double precision, continued: Elo, FIFA, EGF and Ingo rating periods (C113). *)
From Coq Require Import ZArith NArith List Bool Reals Lra Lia.
From Flocq Require Import Core.Raux IEEE754.BinarySingleNaN.
From Verif Require Import Arith XR B64 SpecB64 SpecAcc ModelLib Spec ModelElo ModelFifa ModelEgf ModelIngo
  MathB64 ProofB64 ProofB64b ProofB64c ProofB64g ProofAcc ProofAcc2 ProofAcc3 ProofAccPer.
Import Spec ListNotations.
Local Open Scope R_scope.

(** C113: the whole period is close to the exact updates applied one after the other
    (Elo, FIFA), to the exact sum of changes (EGF), to the exact tournament formula (Ingo). *)
@THM C113_f64_elo_period C113_elo_proof
@THM C113_f64_fifa_period C113_fifa_proof
@THM C113_f64_egf_period C113_egf_proof
@THM C113_f64_ingo_period C113_ingo_proof

(** The correctly rounded libm meets the contracts. *)
Example C113_libm_case : pow10_accurate libm_rounded /\ exp_accurate libm_rounded /\ ln_accurate libm_rounded /\ ln1p_accurate libm_rounded /\ pow16_accurate libm_rounded.
Proof. exact (conj libm_pow_accurate (conj libm_exp_accurate (conj libm_ln_accurate (conj libm_ln1p_accurate libm_pow16_accurate)))). Qed.
(** 200 games at k = 32; FIFA importances of 60 and 25, one of them a knockout decided by penalties;
    an EGF player of 1500 against 2000 with a handicap of 3; Ingo ratings of 200 and 130. *)
Example C113_case : num_in (- 10 ^ 4) (10 ^ 4) (b64_of_Z 1500) /\ num_in (- 10 ^ 4) (10 ^ 4) (b64_of_Z 2000) /\ num_in 0 1000 (b64_of_Z 32) /\
  INR (length (repeat (mkElo (b64_of_Z 2000), LOSS) 200)) * B2R (b64_of_Z 32) <= 8000 /\
  Forall (fun g => num_in (- 10 ^ 4) (10 ^ 4) (fifa_rating (fst (fst g))) /\ num_in 0 1000 (fifa_importance (snd g)))
    [(mkFifa (b64_of_Z 1500), WIN, mkFifaConfig (b64_of_Z 60) true true); (mkFifa (b64_of_Z 2000), DRAW, mkFifaConfig (b64_of_Z 25) false false)] /\
  Rsum (map (fun g => B2R (fifa_importance (snd g)))
    [(mkFifa (b64_of_Z 1500), WIN, mkFifaConfig (b64_of_Z 60) true true); (mkFifa (b64_of_Z 2000), DRAW, mkFifaConfig (b64_of_Z 25) false false)]) <= 8000 /\
  num_in (-900) 3200 (b64_of_Z 1500) /\ num_in (-900) 3200 (b64_of_Z 2000) /\ num_in (-20) 20 (b64_of_Z 3) /\
  egf_adj (egf_h1 (B2R (b64_of_Z 3))) (B2R (b64_of_Z 1500)) <= 3200 /\ egf_adj (egf_h2 (B2R (b64_of_Z 3))) (B2R (b64_of_Z 2000)) <= 3200 /\
  num_in (- 10 ^ 4) (10 ^ 4) (b64_of_Z 200) /\ num_in (- 10 ^ 4) (10 ^ 4) (b64_of_Z 130).
Proof.
  assert (V : forall z, (Z.abs z <= 2 ^ 53)%Z -> B2R (b64_of_Z z) = IZR z).
  { intros z Hz. destruct (ext_ofZ z Hz) as [F E]. rewrite <- (ext_fin _ F). exact E. }
  assert (H : forall z lo hi, (Z.abs z <= 2 ^ 53)%Z -> lo <= IZR z <= hi -> num_in lo hi (b64_of_Z z)).
  { intros z lo hi Hz B. split; [exact (proj1 (ext_ofZ z Hz))|]. rewrite V by exact Hz. exact B. }
  rewrite repeat_length. cbn [fst snd fifa_rating fifa_importance]. repeat match goal with |- _ /\ _ => split | |- Forall _ _ => constructor end; cbn [fst snd fifa_rating fifa_importance]; try (apply H; [vm_compute; discriminate|lra]).
  - rewrite V by (vm_compute; discriminate). rewrite INR_IZR_INZ. simpl Z.of_nat. lra.
  - unfold Rsum. cbn [map fold_right snd fifa_importance]. rewrite !V by (vm_compute; discriminate). lra.
  - rewrite !V by (vm_compute; discriminate). unfold egf_adj, egf_h1. destruct (Rlt_dec 3 0); try lra; destruct (Req_EM_T _ 0); lra.
  - rewrite !V by (vm_compute; discriminate). unfold egf_adj, egf_h2. destruct (Rlt_dec 3 0); try lra; destruct (Req_EM_T _ 0); lra.
Qed.
