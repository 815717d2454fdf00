(** Property theorems: a better result in one game of a rating period (C121). *)
From Coq Require Import ZArith NArith List Bool Reals Lra Lia.
From Coquelicot Require Import Coquelicot.
From Verif Require Import Arith XR Tac ModelLib ModelElo ModelFifa ModelIngo ModelUscf ModelEgf ModelDwz ModelGlicko ModelSticko ModelBoost ModelWengLin Spec
  ProofElo ProofFifa ProofIngo ProofUscf ProofEgf ProofEgf2 ProofDwz ProofGlicko ProofSticko ProofBoost ProofBoost2 ProofMono ProofMonoWL.
Import Spec ListNotations.
Local Open Scope R_scope.

(** C121 (Elo): turning one result of a period into a better one ends in a strictly higher rating ... *)
@THM C121_elo_better C121_elo_proof
(** ... as long as k ln 10 < 1600: beyond, draws can follow that undo or reverse the gain. *)
@THM C121_elo_refuted C121_elo_refuted_proof
(** C121 (FIFA): never worse, and strictly better without knockout and shoot-out. *)
@THM C121_fifa_better C121_fifa_proof
(** C121 (Ingo): a lower number is better. *)
@THM C121_ingo_better C121_ingo_proof
(** C121 (USCF), provisional or not, with bonus points. *)
@THM C121_uscf_better C121_uscf_proof
(** C121 (DWZ), although acceleration and brake depend on the result. *)
@THM C121_dwz_better C121_dwz_proof
(** C121 (EGF): strictly unless both results leave the game at the floor of -900. *)
@THM C121_egf_better C121_egf_proof
(** C121 (Glicko, Sticko): and the deviation is the same. *)
@THM C121_glicko_better C121_glicko_proof
@THM C121_sticko_better C121_sticko_proof
(** C121 (Glicko-Boost), partial: when both totals lie on the same side of the threshold k. *)
@THM C121_boost_partial C121_boost_partial_proof
(** C121 (Glicko-Boost) fails across the threshold with the default configuration: 12 points from 16 games
    leave a new player below where 11.5 points would have. *)
@THM C121_boost_refuted C121_boost_refuted_proof
(** C121 (Weng-Lin) fails: for every player, first opponent and configuration there is a run of wins after which
    the player would be rated higher had the first game been drawn instead of won. *)
@THM C121_weng_lin_refuted C121_weng_lin_refuted_proof

(** The default k of 32 and FIFA importances up to 60; a k of 1000. *)
Example C121_case : 0 < 32 /\ 32 * ln 10 < 1600 /\ 1600 < 1000 * ln 10 /\ points DRAW < points WIN /\
  List.Forall (fun g : R * Outcomes * (R * bool * bool) => let i := fst (fst (snd g)) in 0 < i /\ i * ln 10 < 2400) [(1500, WIN, (60, false, false)); (1400, LOSS, (25, true, true))].
Proof. pose proof ProofBoost2.ln10_close. cbn. repeat split; try lra. repeat constructor; cbn; lra. Qed.
(** A player of rating 1000 in an EGF game with handicap 0 against 1100. *)
Example C121_egf_case : 1000 < 3300 /\ egf_adj (egf_h1 0) 1000 < 3300 /\ egf_adj (egf_h2 0) 1100 < 3300.
Proof. unfold egf_adj, egf_h1, egf_h2. repeat (destruct (Rlt_dec _ _) || destruct (Rle_dec _ _) || destruct (Req_EM_T _ _)); lra. Qed.
(** Weng-Lin's defaults: uncertainty 25/3 and tolerance 0.000001. *)
Example C121_wl_case : 0 < 25 / 3 /\ 0 < / 1000000 < 1. Proof. lra. Qed.
(** The default Glicko-Boost configuration, and the same without the threshold. *)
Example C121_boost_case : bc_k (bdef 0) = 0 /\ 0 <= bc_k (bdef (196 / 100)) /\ 0 <= bc_b0 (bdef 0) /\ 0 <= bc_b1 (bdef 0). Proof. cbn. lra. Qed.
