(** Property theorems: what the winner may expect from a rematch (C131). *)
From Coq Require Import ZArith NArith List Bool Reals Lra Lia.
From Verif Require Import Arith XR ModelLib ModelElo ModelFifa ModelIngo ModelUscf ModelEgf ModelDwz ModelGlicko ModelGlicko2 ModelWengLin ModelTS
  Spec SpecTS SpecInTS ProofRematch ProofRematch2.
Import Spec ListNotations.
Local Open Scope R_scope.

(** C131: a win raises the winner's expected score for a rematch. *)
@THM C131_rematch_elo C131_elo_proof
@THM C131_rematch_fifa C131_fifa_proof
@THM C131_rematch_dwz C131_dwz_proof
@THM C131_rematch_uscf C131_uscf_proof
@THM C131_rematch_weng_lin C131_wl_win_proof
@THM C131_rematch_glicko C131_glicko_win_proof
@THM C131_rematch_trueskill_favourite C131_ts_fav_proof
(** Where the uncertainties grow between the games: at least for the underdog, who
    also gains by a draw. *)
@THM C131_underdog_glicko C131_glicko_proof
@THM C131_underdog_glicko2 C131_glicko2_proof
@THM C131_underdog_weng_lin C131_wl_proof
@THM C131_underdog_trueskill C131_ts_proof
@THM C131_underdog_egf C131_egf_proof
(** Ingo: exactly the winners with an expected score below 1. *)
@THM C131_rematch_ingo C131_ingo_proof
(** Beating a far weaker opponent lowers the expected score for the rematch. *)
@THM C131_favourite_glicko_refuted C131_glicko_refuted_proof
@THM C131_favourite_glicko2_refuted C131_glicko2_refuted_proof
@THM C131_favourite_trueskill_refuted C131_ts_refuted_proof
@THM C131_provisional_uscf_refuted C131_uscf_refuted_proof
@THM C131_favourite_egf_refuted C131_egf_refuted_proof

(* A club player beats a stronger one. *)
Example C131_elo_case : 0 < 32. Proof. lra. Qed.
Example C131_count_case : (1 <= 5)%N /\ (1 <= 12)%N /\ (8 < 20)%N /\ (8 < 9)%N /\ 100 <= 1500. Proof. repeat split; try lia; lra. Qed.
(* A new player beats an established one, with the default c of 63.2. *)
Example C131_glicko_case : exists e e', fst (glicko_expected_score (mkGlicko (Fin 1500) (Fin 350)) (mkGlicko (Fin 1700) (Fin 50))) = Fin e /\
  fst (glicko_expected_score (fst (glicko (mkGlicko (Fin 1500) (Fin 350)) (mkGlicko (Fin 1700) (Fin 50)) WIN (mkGlickoConfig (Fin 63.2))))
    (snd (glicko (mkGlicko (Fin 1500) (Fin 350)) (mkGlicko (Fin 1700) (Fin 50)) WIN (mkGlickoConfig (Fin 63.2))))) = Fin e' /\ e < e'.
Proof.
  pose proof (C131_underdog_glicko 1500 350 1700 50 63.2 WIN ltac:(lra) ltac:(lra) ltac:(lra) (or_introl eq_refl)) as H. cbv zeta in H.
  destruct (glicko (mkGlicko (Fin 1500) (Fin 350)) (mkGlicko (Fin 1700) (Fin 50)) WIN (mkGlickoConfig (Fin 63.2))) as [q1 q2]. exact H.
Qed.
(* The default settings of Glicko-2, Weng-Lin and TrueSkill. *)
Example C131_glicko2_case : 0 < 0.06 /\ 0 < 0.5 /\ 0 < 0.000001 /\ 0.5 ^ 2 * 0.06 ^ 2 <= 1 / 10 /\ 1500 <= 1700. Proof. repeat split; lra. Qed.
Example C131_wl_case : 0 < 25 / 3 /\ 0 < 25 / 6 /\ 0 < 0.000001 <= 1 /\ 20 < 25. Proof. repeat split; lra. Qed.
Example C131_ts_case : 0 < 25 / 3 /\ 0 < 25 / 6 /\ 0 <= 0.1 <= 1 /\ 20 <= 25 /\ (25 / 300) ^ 2 <= 2 * (25 / 6) ^ 2 + (25 / 3) ^ 2 /\ 25 / 300 <> 0. Proof. repeat split; lra. Qed.
(* A provisional player (1800) beats another one (1200). *)
Example C131_uscf_case : (4 <= 8)%N /\ (7 <= 8)%N /\ 100 <= 1200 /\ 1200 + 400 < 1800. Proof. repeat split; try lia; lra. Qed.
Example C131_egf_case : -900 <= 1000 /\ 1000 <= 1500 /\ 1500 <= 3100 /\ 2000 <= 2400 <= 2700. Proof. repeat split; lra. Qed.
