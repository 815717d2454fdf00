(** Property theorems: every game adds certainty, and uncertain ratings move more (C114). *)
From Coq Require Import ZArith NArith List Bool Reals Lra Lia.
From Verif Require Import Arith XR ModelLib ModelElo ModelGlicko ModelSticko ModelWengLin ModelUscf ModelDwz Spec ProofInfo.
Import Spec ListNotations.
Local Open Scope R_scope.

(** C114 (Glicko): one more game, anywhere in the period and whatever its result, leaves a smaller deviation. *)
@THM C114_glicko_more_games C114_glicko_more_games_proof
(** The less certain of two equally rated players moves further in the same direction and stays less certain. *)
@THM C114_glicko_uncertain_moves_more C114_glicko_uncertain_proof
(** Of two opponents known equally well, the closer one tells more. *)
@THM C114_glicko_close_opponent C114_glicko_close_proof
(** Of two opponents rated like the player, the better known one tells more ... *)
@THM C114_glicko_certain_opponent C114_glicko_opp_proof
(** ... but far enough from the own rating it is the other way round. *)
@THM C114_glicko_far_opponent C114_glicko_far_proof
(** C114 (Weng-Lin): the same move rule, for every outcome. *)
@THM C114_weng_lin_uncertain_moves_more C114_wl_proof
(** C114 (USCF, DWZ): experience damps the change. *)
@THM C114_uscf_experience C114_uscf_proof
@THM C114_dwz_experience C114_dwz_proof
(** C114 (Sticko): one more game raises the variance by at most [h]. *)
@THM C114_sticko_more_games C114_sticko_proof

(** Deviations of 200 and 300 with c = 63; ratings 1500, 1600 and 1900; opponents of deviation 30 and 300;
    uncertainties of 2 and 25/3; 20 and 60 games; indices 3 and 10. *)
Example C114_case : (0 < 200 < 300 /\ 200 ^ 2 + 63 ^ 2 < 350 ^ 2) /\ Rabs (1500 - 1600) < Rabs (1500 - 1900) /\ 0 < 30 < 300 /\ 0 < 2 < 25 / 3 /\
  (8 < 20 <= 60)%N /\ (60 + N.of_nat (length [(1500, 20%N, WIN); (1700, 3%N, LOSS)]) < 2 ^ 64)%N /\ (1 <= 3 <= 10)%N.
Proof.
  repeat split; try lra; try lia. rewrite !Rabs_left by lra. lra.
Qed.
(** The hypothesis on [c] is needed: above the cap of 350 both players start the period equally uncertain. *)
Example C114_cap : forall o, fst (glicko (mkGlicko (Fin 1500) (Fin 360)) (mkGlicko (Fin 1500) (Fin 50)) o (mkGlickoConfig (Fin 0))) =
  fst (glicko (mkGlicko (Fin 1500) (Fin 400)) (mkGlicko (Fin 1500) (Fin 50)) o (mkGlickoConfig (Fin 0))).
Proof. exact C114_cap_proof. Qed.
