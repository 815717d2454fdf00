(** Property theorems: the expected scores of three players fit together (C130). *)
From Coq Require Import ZArith NArith List Bool Reals Lra Lia.
From Verif Require Import Arith XR ModelLib ModelElo ModelFifa ModelIngo ModelUscf ModelEgf ModelDwz ModelGlicko ModelGlicko2 ModelWengLin ModelTS
  Spec SpecTS SpecInTS ProofTriangle.
Import Spec ListNotations.
Local Open Scope R_scope.

(** C130: in the systems without uncertainty the odds multiply along a chain of players. *)
@THM C130_odds_elo C130_elo_proof
@THM C130_odds_fifa C130_fifa_proof
@THM C130_odds_uscf C130_uscf_proof
@THM C130_odds_dwz C130_dwz_proof
@THM C130_odds_egf C130_egf_proof
(** Ingo: the advantages over 1/2 add up. *)
@THM C130_advantage_ingo C130_ingo_proof
(** Glicko, Glicko-2, Weng-Lin: a favourite of a favourite is a favourite. *)
@THM C130_chain_glicko C130_glicko_proof
@THM C130_chain_glicko2 C130_glicko2_proof
@THM C130_chain_weng_lin C130_wl_proof
(** TrueSkill: the same up to the error of the approximated normal distribution. *)
@THM C130_chain_trueskill C130_ts_proof
(** With uncertainties the odds do not multiply: for every favourite and opponent
    there is a lower rated player against whom less is expected. *)
@THM C130_uncertain_opponent_glicko C130_glicko_refuted_proof
@THM C130_uncertain_opponent_weng_lin C130_wl_refuted_proof

(* 400 points between the first two and the last two players: odds of 10 to 1 twice, of 100 to 1 together. *)
Example C130_case : exists z, fst (elo_expected_score (mkElo (Fin 1800)) (mkElo (Fin 1000))) = Fin z /\ z / (1 - z) = 100.
Proof.
  destruct (C130_odds_elo 1800 1400 1000) as (x & y & z & Ex & Ey & Ez & _ & _ & _ & O). exists z. split; [exact Ez|]. rewrite O.
  assert (T : forall a b, a - b = 400 -> forall u, fst (elo_expected_score (mkElo (Fin a)) (mkElo (Fin b))) = Fin u -> u = 10 / 11).
  { intros a b D u. rewrite ProofElo.elo_expected_eval. cbn [fst]. intros [= <-]. unfold elo_E. replace ((b - a) / 400) with (Ropp 1) by lra.
    rewrite Rpower_Ropp, Rpower_1 by lra. field. }
  rewrite (T 1800 1400 ltac:(lra) x Ex), (T 1400 1000 ltac:(lra) y Ey). field.
Qed.
Example C130_other_case : 2000 < 3300 /\ 0 < 25 / 6 /\ 1400 < 1500 /\ 0 <= 50 < 350.
Proof. lra. Qed.
