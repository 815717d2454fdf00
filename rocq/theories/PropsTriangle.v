(** Property theorems: the expected scores of three players fit together (C130). *)
From Coq Require Import ZArith NArith List Bool Reals Lra Lia.
From Verif Require Import Arith XR ModelLib ModelElo ModelFifa ModelIngo ModelUscf ModelEgf ModelDwz ModelGlicko ModelGlicko2 ModelWengLin ModelTS
  Spec SpecTS SpecInTS ProofTriangle.
Import Spec ListNotations.
Local Open Scope R_scope.

(** C130: in the systems without uncertainty the odds multiply along a chain of players. *)
Theorem C130_odds_elo : forall a b c, exists x y z,
  fst (elo_expected_score (mkElo (Fin a)) (mkElo (Fin b))) = Fin x /\ fst (elo_expected_score (mkElo (Fin b)) (mkElo (Fin c))) = Fin y /\
  fst (elo_expected_score (mkElo (Fin a)) (mkElo (Fin c))) = Fin z /\ 0 < x < 1 /\ 0 < y < 1 /\ 0 < z < 1 /\
  z / (1 - z) = x / (1 - x) * (y / (1 - y)).
Proof. exact C130_elo_proof. Qed.
Print Assumptions C130_odds_elo.
Theorem C130_odds_fifa : forall a b c, exists x y z,
  fst (fifa_expected_score (mkFifa (Fin a)) (mkFifa (Fin b))) = Fin x /\ fst (fifa_expected_score (mkFifa (Fin b)) (mkFifa (Fin c))) = Fin y /\
  fst (fifa_expected_score (mkFifa (Fin a)) (mkFifa (Fin c))) = Fin z /\ 0 < x < 1 /\ 0 < y < 1 /\ 0 < z < 1 /\
  z / (1 - z) = x / (1 - x) * (y / (1 - y)).
Proof. exact C130_fifa_proof. Qed.
Print Assumptions C130_odds_fifa.
Theorem C130_odds_uscf : forall a n b n' c n'', exists x y z,
  fst (uscf_expected_score (mkUscf (Fin a) n) (mkUscf (Fin b) n')) = Fin x /\ fst (uscf_expected_score (mkUscf (Fin b) n') (mkUscf (Fin c) n'')) = Fin y /\
  fst (uscf_expected_score (mkUscf (Fin a) n) (mkUscf (Fin c) n'')) = Fin z /\ 0 < x < 1 /\ 0 < y < 1 /\ 0 < z < 1 /\
  z / (1 - z) = x / (1 - x) * (y / (1 - y)).
Proof. exact C130_uscf_proof. Qed.
Print Assumptions C130_odds_uscf.
Theorem C130_odds_dwz : forall a i k b i' k' c i'' k'', exists x y z,
  fst (dwz_expected_score (mkDwz (Fin a) i k) (mkDwz (Fin b) i' k')) = Fin x /\ fst (dwz_expected_score (mkDwz (Fin b) i' k') (mkDwz (Fin c) i'' k'')) = Fin y /\
  fst (dwz_expected_score (mkDwz (Fin a) i k) (mkDwz (Fin c) i'' k'')) = Fin z /\ 0 < x < 1 /\ 0 < y < 1 /\ 0 < z < 1 /\
  z / (1 - z) = x / (1 - x) * (y / (1 - y)).
Proof. exact C130_dwz_proof. Qed.
Print Assumptions C130_odds_dwz.
Theorem C130_odds_egf : forall a b c, a < 3300 -> b < 3300 -> c < 3300 -> exists x y z,
  fst (egf_expected_score (mkEgf (Fin a)) (mkEgf (Fin b)) egf_config_new) = Fin x /\ fst (egf_expected_score (mkEgf (Fin b)) (mkEgf (Fin c)) egf_config_new) = Fin y /\
  fst (egf_expected_score (mkEgf (Fin a)) (mkEgf (Fin c)) egf_config_new) = Fin z /\ 0 < x < 1 /\ 0 < y < 1 /\ 0 < z < 1 /\
  z / (1 - z) = x / (1 - x) * (y / (1 - y)).
Proof. exact C130_egf_proof. Qed.
Print Assumptions C130_odds_egf.
(** Ingo: the advantages over 1/2 add up. *)
Theorem C130_advantage_ingo : forall a k b k' c k'', exists x y z,
  fst (ingo_expected_score (mkIngo (Fin a) k) (mkIngo (Fin b) k')) = Fin x /\ fst (ingo_expected_score (mkIngo (Fin b) k') (mkIngo (Fin c) k'')) = Fin y /\
  fst (ingo_expected_score (mkIngo (Fin a) k) (mkIngo (Fin c) k'')) = Fin z /\ z - 1 / 2 = (x - 1 / 2) + (y - 1 / 2).
Proof. exact C130_ingo_proof. Qed.
Print Assumptions C130_advantage_ingo.
(** Glicko, Glicko-2, Weng-Lin: a favourite of a favourite is a favourite. *)
Theorem C130_chain_glicko : forall a RDa b RDb c RDc, exists x y z,
  fst (glicko_expected_score (mkGlicko (Fin a) (Fin RDa)) (mkGlicko (Fin b) (Fin RDb))) = Fin x /\
  fst (glicko_expected_score (mkGlicko (Fin b) (Fin RDb)) (mkGlicko (Fin c) (Fin RDc))) = Fin y /\
  fst (glicko_expected_score (mkGlicko (Fin a) (Fin RDa)) (mkGlicko (Fin c) (Fin RDc))) = Fin z /\
  (1 / 2 <= x -> 1 / 2 <= y -> 1 / 2 <= z) /\ (1 / 2 <= x -> 1 / 2 < y -> 1 / 2 < z) /\ (1 / 2 < x -> 1 / 2 <= y -> 1 / 2 < z).
Proof. exact C130_glicko_proof. Qed.
Print Assumptions C130_chain_glicko.
Theorem C130_chain_glicko2 : forall a RDa sa b RDb sb c RDc sc, exists x y z,
  fst (glicko2_expected_score (mkGlicko2 (Fin a) (Fin RDa) (Fin sa)) (mkGlicko2 (Fin b) (Fin RDb) (Fin sb))) = Fin x /\
  fst (glicko2_expected_score (mkGlicko2 (Fin b) (Fin RDb) (Fin sb)) (mkGlicko2 (Fin c) (Fin RDc) (Fin sc))) = Fin y /\
  fst (glicko2_expected_score (mkGlicko2 (Fin a) (Fin RDa) (Fin sa)) (mkGlicko2 (Fin c) (Fin RDc) (Fin sc))) = Fin z /\
  (1 / 2 <= x -> 1 / 2 <= y -> 1 / 2 <= z) /\ (1 / 2 <= x -> 1 / 2 < y -> 1 / 2 < z) /\ (1 / 2 < x -> 1 / 2 <= y -> 1 / 2 < z).
Proof. exact C130_glicko2_proof. Qed.
Print Assumptions C130_chain_glicko2.
Theorem C130_chain_weng_lin : forall a sa b sb c sc beta kappa, 0 < beta -> exists x y z,
  fst (wl_expected_score (mkWL (Fin a) (Fin sa)) (mkWL (Fin b) (Fin sb)) (mkWLConfig (Fin beta) kappa)) = Fin x /\
  fst (wl_expected_score (mkWL (Fin b) (Fin sb)) (mkWL (Fin c) (Fin sc)) (mkWLConfig (Fin beta) kappa)) = Fin y /\
  fst (wl_expected_score (mkWL (Fin a) (Fin sa)) (mkWL (Fin c) (Fin sc)) (mkWLConfig (Fin beta) kappa)) = Fin z /\
  (1 / 2 <= x -> 1 / 2 <= y -> 1 / 2 <= z) /\ (1 / 2 <= x -> 1 / 2 < y -> 1 / 2 < z) /\ (1 / 2 < x -> 1 / 2 <= y -> 1 / 2 < z).
Proof. exact C130_wl_proof. Qed.
Print Assumptions C130_chain_weng_lin.
(** TrueSkill: the same up to the error of the approximated normal distribution. *)
Theorem C130_chain_trueskill : forall a sa b sb c sc dp beta tau, 0 < beta -> exists x y z,
  fst (ts_expected_score (ts_in (a, sa)) (ts_in (b, sb)) (ts_cfg dp beta tau)) = Fin x /\
  fst (ts_expected_score (ts_in (b, sb)) (ts_in (c, sc)) (ts_cfg dp beta tau)) = Fin y /\
  fst (ts_expected_score (ts_in (a, sa)) (ts_in (c, sc)) (ts_cfg dp beta tau)) = Fin z /\
  (0.5000001 <= x -> 0.5000001 <= y -> 0.4999999 < z).
Proof. exact C130_ts_proof. Qed.
Print Assumptions C130_chain_trueskill.
(** With uncertainties the odds do not multiply: for every favourite and opponent
    there is a lower rated player against whom less is expected. *)
Theorem C130_uncertain_opponent_glicko : forall a RDa b RDb, b < a -> 0 <= RDb < 350 -> exists c x z, c < b /\
  fst (glicko_expected_score (mkGlicko (Fin a) (Fin RDa)) (mkGlicko (Fin b) (Fin RDb))) = Fin x /\
  fst (glicko_expected_score (mkGlicko (Fin a) (Fin RDa)) (mkGlicko (Fin c) (Fin 350))) = Fin z /\ 1 / 2 < z < x.
Proof. exact C130_glicko_refuted_proof. Qed.
Print Assumptions C130_uncertain_opponent_glicko.
Theorem C130_uncertain_opponent_weng_lin : forall a sa b sb sc beta kappa, 0 < beta -> b < a -> 0 <= sb < sc -> exists c x z, c < b /\
  fst (wl_expected_score (mkWL (Fin a) (Fin sa)) (mkWL (Fin b) (Fin sb)) (mkWLConfig (Fin beta) kappa)) = Fin x /\
  fst (wl_expected_score (mkWL (Fin a) (Fin sa)) (mkWL (Fin c) (Fin sc)) (mkWLConfig (Fin beta) kappa)) = Fin z /\ 1 / 2 < z < x.
Proof. exact C130_wl_refuted_proof. Qed.
Print Assumptions C130_uncertain_opponent_weng_lin.

(* 400 points between the first two and the last two players: odds of 10 to 1 twice, of 100 to 1 together. *)
Example C130_case : exists z, fst (elo_expected_score (mkElo (Fin 1800)) (mkElo (Fin 1000))) = Fin z /\ z / (1 - z) = 100.
Proof.
  destruct (C130_odds_elo 1800 1400 1000) as (x & y & z & Ex & Ey & Ez & _ & _ & _ & O). exists z. split; [exact Ez|]. rewrite O.
  assert (T : forall a b, a - b = 400 -> forall u, fst (elo_expected_score (mkElo (Fin a)) (mkElo (Fin b))) = Fin u -> u = 10 / 11).
  { intros a b D u. rewrite ProofElo.elo_expected_eval. cbn [fst]. intros [= <-]. unfold elo_E. replace ((b - a) / 400) with (Ropp 1) by lra.
    rewrite Rpower_Ropp, Rpower_1 by lra. field. }
  rewrite (T 1800 1400 ltac:(lra) x Ex), (T 1400 1000 ltac:(lra) y Ey). field.
Qed.
Example C130_other_case : 2000 < 3300 /\ 0 < 25 / 6 /\ 1400 < 1500 /\ 0 <= 50 < 350.
Proof. lra. Qed.
