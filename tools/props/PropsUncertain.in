(** Property theorems: results against opponents whose rating is less certain (C134). *)
From Coq Require Import ZArith NArith List Bool Reals Lra Lia.
From Verif Require Import Arith XR ModelLib ModelGlicko ModelSticko ModelBoost ModelWengLin ModelTS
  Spec SpecTS SpecInTS ProofGlicko ProofTS ProofUncertain ProofWhoB.
Import Spec ListNotations.
Local Open Scope R_scope.

(** C134: for the player who is not the favourite a win (or a draw) against an opponent
    whose rating is less certain brings less, but it brings something; and likewise
    for the losses of the player who is not the underdog. *)
@THM C134_uncertain_glicko C134_glicko_proof
@THM C134_uncertain_sticko C134_sticko_proof
(** Glicko-Boost, unless the win against the more certain opponent is boosted. *)
@THM C134_uncertain_boost C134_boost_proof
@THM C134_uncertain_weng_lin C134_wl_proof
@THM C134_uncertain_trueskill_partial C134_ts_proof
(** A player with RD 350 gains more from an equal with RD 30 than from one with RD 1. *)
@THM C134_fresh_glicko_refuted C134_glicko_fresh_refuted_proof
(** A favourite can gain more by beating the opponent whose rating is less certain. *)
@THM C134_favourite_glicko_refuted C134_glicko_favourite_refuted_proof
@THM C134_favourite_weng_lin_refuted C134_wl_refuted_proof

(* RD 200 with c = 63.2 stays below the bound. *)
Example C134_glicko_case : 0 < 200 /\ 200 ^ 2 + 63.2 ^ 2 <= 347 ^ 2 /\ 0 < 50 < 200 /\ 1500 <= 1600. Proof. lra. Qed.
Example C134_sticko_case : 0 < 150 /\ 150 ^ 2 + 10 ^ 2 <= 347 ^ 2 /\ 0 < 30 < 350 /\ 0 <= 10. Proof. lra. Qed.
Example C134_weng_lin_case : exists x x',
  wl_rating (fst (weng_lin (mkWL (Fin 20) (Fin (25 / 3))) (mkWL (Fin 25) (Fin 1)) WIN (mkWLConfig (Fin (25 / 6)) (Fin 0.000001)))) = Fin x /\
  wl_rating (fst (weng_lin (mkWL (Fin 20) (Fin (25 / 3))) (mkWL (Fin 25) (Fin 6)) WIN (mkWLConfig (Fin (25 / 6)) (Fin 0.000001)))) = Fin x' /\ 20 < x' < x.
Proof. destruct (C134_uncertain_weng_lin 20 (25 / 3) 25 1 6 (25 / 6) 0.000001 WIN) as (x & x' & E & E' & A & _); try lra. exists x, x'. repeat split; auto; apply A; auto; lra. Qed.
(* Without a draw margin, 20 points apart, the default beta. *)
Example C134_trueskill_case : Rabs (45 - 25) + 0 <= 26 * sqrt (2 * (25 / 6) ^ 2 + (25 / 3) ^ 2 + 1 ^ 2).
Proof. rewrite Rabs_right by lra. assert (1 <= sqrt (2 * (25 / 6) ^ 2 + (25 / 3) ^ 2 + 1 ^ 2)) by (rewrite <- sqrt_1 at 1; apply sqrt_le_1_alt; lra). lra. Qed.
(* Glicko-Boost with the default k and eta against an opponent rated 30 points higher. *)
Example C134_boost_case : 0 < 200 <= 347 /\ 1500 <= 1530 - 30 /\ / (1 + 1.96 ^ 2) <= gE 1500 (1530 - 30) 50.
Proof. replace (1530 - 30) with 1500 by lra. rewrite gE_self. assert (/ (1 + 1.96 ^ 2) <= / 2) by (apply Rinv_le_contravar; lra). repeat split; lra. Qed.
