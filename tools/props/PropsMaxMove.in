(** Property theorems: how far one game or one rating period can move a rating (C129). *)
From Coq Require Import ZArith NArith List Bool Reals Lra Lia.
From Verif Require Import Arith XR ModelLib ModelElo ModelFifa ModelIngo ModelUscf ModelEgf ModelDwz ModelGlicko ModelSticko ModelBoost ModelGlicko2 ModelWengLin ModelTS
  Spec SpecTS SpecInTS ProofMaxMove.
Import Spec ListNotations.
Local Open Scope R_scope.

(** C129: bounds that do not depend on the opponents or their results. *)
@THM C129_max_fifa C129_fifa_proof
@THM C129_max_dwz C129_dwz_proof
@THM C129_max_egf C129_egf_proof
@THM C129_max_uscf C129_uscf_proof
@THM C129_max_glicko C129_glicko_proof
@THM C129_max_boost C129_boost_proof
@THM C129_max_glicko2 C129_glicko2_proof
@THM C129_max_weng_lin C129_wl_proof
(** Sticko has such a bound only without the pull towards the opponents. *)
@THM C129_max_sticko_partial C129_sticko_proof
(** TrueSkill: a bound that grows with the difference of the ratings. *)
@THM C129_max_trueskill_partial C129_ts_proof

(** No bound of this kind exists for TrueSkill, Ingo, provisional USCF players,
    and Sticko with a positive pull, where even a loss can gain any number of points. *)
@THM C129_max_trueskill_refuted C129_ts_refuted_proof
@THM C129_max_ingo_refuted C129_ingo_refuted_proof
@THM C129_max_uscf_provisional_refuted C129_uscf_refuted_proof
@THM C129_max_sticko_refuted C129_sticko_refuted_proof
(** In the default configuration of Sticko a gap of 1000 points turns the result
    around: the loser gains and the winner loses points. *)
@THM C129_sticko_turned_refuted C129_sticko_turned_proof

(* A provisional Glicko player (deviation 350) can move by at most 710.5 points in one game. *)
Example C129_case : exists r' d', glicko_rating_period (mkGlicko (Fin 1500) (Fin 350))
  (map (fun '(rj, RDj, o) => (mkGlicko (Fin rj) (Fin RDj), o)) [(2500, 50, WIN)]) (mkGlickoConfig (Fin 0)) = mkGlicko (Fin r') (Fin d') /\ Rabs (r' - 1500) < gq * 122500.
Proof.
  destruct (C129_max_glicko 1500 350 0 [(2500, 50, WIN)] ltac:(lra) ltac:(discriminate)) as (r' & d' & E & B). exists r', d'. split; [exact E|].
  rewrite Rmin_left in B by lra. cbn [length INR] in B. lra.
Qed.
Example C129_fifa_case : List.Forall (fun '(_, _, imp, _, _) => 0 < imp) [(1300, WIN, 25, true, false); (1500, DRAW, 5, false, true)].
Proof. repeat constructor; lra. Qed.
Example C129_egf_case : forall opp o H, In (opp, o, H) [(2000, LOSS, 0); (1900, WIN, 0)] -> egf_adj (egf_h1 H) 1000 < 3300 /\ egf_adj (egf_h2 H) opp < 3300.
Proof.
  intros opp o H [[= <- <- <-]|[[= <- <- <-]|[]]]; unfold egf_adj, egf_h1, egf_h2; destruct (Rlt_dec 0 0); try lra; destruct (Req_EM_T 0 0); lra.
Qed.
Example C129_uscf_case : (8 < 20)%N /\ (20 + N.of_nat (length [((1300, 5%N), WIN); ((1500, 50%N), LOSS)]) < 2 ^ 64)%N /\ 0 <= 14.
Proof. split; [reflexivity|]. split; [reflexivity|lra]. Qed.
Example C129_other_case : 0 < 350 /\ 0 <= 10 /\ 0 < 0.06 /\ 0 < 0.000001 <= 1 /\ WIN <> DRAW /\ 0 < 2.
Proof. repeat split; try lra. discriminate. Qed.
