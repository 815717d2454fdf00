(** Property theorems for EGF (egf.rs). *)
From Coq Require Import ZArith NArith List Bool Reals Lra.
From Verif Require Import Arith XR ModelLib ModelEgf Spec ProofEgf.
Import ListNotations.
Local Open Scope R_scope.

(** C13: the published update and expectation, for ratings and
    handicap-adjusted ratings below 3300. *)
@THM C13_egf_update C13_proof
(* Handicap 3 for player two, ratings 1000 and 2000. *)
Example C13_case : 1000 < 3300 /\ 2000 < 3300 /\
  egf_adj (egf_h1 3) 1000 < 3300 /\ egf_adj (egf_h2 3) 2000 < 3300.
Proof.
  unfold egf_adj, egf_h1, egf_h2. destruct (Rlt_dec 3 0); [lra|].
  destruct (Req_EM_T 0 0), (Req_EM_T 3 0); lra.
Qed.

(** C14 for [egf]: never below -900, for every input including infinite and
    NaN ones.  Missing: [egf_rating_period], refuted below. *)
@THM C14_egf_floor_partial C14_proof
@THM C14_egf_period_floor_refuted C14_refuted_proof

(** C15 below 3300: a win raises the rating.  Missing: ratings above 3300,
    refuted below. *)
@THM C15_egf_win_partial C15_partial_proof
Example C15_case : exists r1' r2',
  egf (mkEgf (Fin 1000)) (mkEgf (Fin 2000)) WIN (mkEgfConfig (Fin 3)) = (mkEgf (Fin r1'), mkEgf (Fin r2')).
Proof. destruct C13_case as (a & b & c & d). rewrite (proj2 (proj2 (C13_egf_update _ _ WIN _ a b c d))). eauto. Qed.
(** C15 is false above 3300: a win turns 3400 into -900. *)
@THM C15_egf_win_refuted C15_refuted_proof

(** C16: mirror symmetry. *)
@THM C16_egf_mirror C16_proof

(** C73: a rating period adds up the single-game changes, all computed from
    the rating at the start of the period. *)
@THM C73_egf_period C73_proof
Example C73_case : forall opp o H, In (opp, o, H) [(2000, LOSS, 3); (2000, WIN, 3)] ->
  egf_adj (egf_h1 H) 1000 < 3300 /\ egf_adj (egf_h2 H) opp < 3300.
Proof. intros * [[= <- <- <-]|[[= <- <- <-]|[]]]; split; apply C13_case. Qed.
