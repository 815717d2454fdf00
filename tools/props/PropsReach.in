(** Long runs: what a program can reach by calling the functions over and over. *)
From Coq Require Import ZArith NArith List Bool Reals Lra Lia.
From Verif Require Import Arith XR ModelLib ModelElo ModelFifa ModelIngo ModelUscf ModelEgf ModelDwz ModelGlicko ModelSticko
  ModelBoost ModelGlicko2 ModelWengLin ModelTS Spec SpecInTS SpecReach SpecLeague ProofEgf2 ProofReach ProofLeague.
Import ListNotations.
Local Open Scope R_scope.

(** C90: what a handicap does, for adjusted ratings below 3300. *)
@THM C90_egf_stone C90_stone_proof
@THM C90_egf_handicap_helps C90_helps_proof
(* Ratings 2000 and 1500; four and five stones. *)
Example C90_case : 2000 < 3300 /\ 0 < 4 /\ 1500 + 100 * (4 + 1 / 2) < 3300 /\ 1 <= 4 /\ 4 < 5 /\ 1500 + 100 * (5 - 1 / 2) < 3300.
Proof. lra. Qed.

(** C91: winning all the time does not keep an EGF rating up; too large a
    handicap resets both players. *)
@THM C91_egf_streak_refuted C91_streak_proof
@THM C91_egf_handicap_refuted C91_handicap_proof
(* Ratings 2700 and 2500 and nine stones for player two. *)
Example C91_case : 2700 < 3300 /\ 2500 < 3300 /\ 0 < 9 /\ 3300 < 2500 + 100 * (9 - 1 / 2).
Proof. lra. Qed.

(** C92: every rating that can be reached is a number in the documented range. *)
@THM C92_reach_elo C92_elo_proof
@THM C92_reach_fifa C92_fifa_proof
@THM C92_reach_ingo C92_ingo_proof
@THM C92_reach_uscf_partial C92_uscf_proof
@THM C92_reach_dwz C92_dwz_proof
@THM C92_reach_glicko C92_glicko_proof
@THM C92_reach_sticko C92_sticko_proof
@THM C92_reach_boost C92_boost_proof
@THM C92_reach_glicko2 C92_glicko2_proof
@THM C92_reach_weng_lin C92_wl_proof
@THM C92_reach_trueskill_partial C92_ts_proof
(** Fresh players are valid, and so is what they become after games and periods. *)
Example C92_case : elo_valid (mkElo (Fin 1000)) /\ glicko_valid (mkGlicko (Fin 1500) (Fin 350)) /\ wl_valid (25/3) (mkWL (Fin 25) (Fin (25/3))) /\
  dwz_valid (mkDwz (Fin 1200) 3 26) /\ ts_valid (mkTS (Fin 25) (Fin (25/3))) /\
  (let p := mkGlicko (Fin 1500) (Fin 350) in let q := mkGlicko (Fin 1800) (Fin 40) in let cfg := mkGlickoConfig (Fin 63) in
   reach glicko_valid glicko_move (glicko_rating_period (fst (glicko p q WIN cfg)) [(q, LOSS); (p, DRAW)] cfg)).
Proof.
  repeat split; try (do 3 eexists; split; [reflexivity|lia]); try (do 2 eexists; split; [reflexivity|lra]); [eexists; reflexivity|].
  cbv zeta.
  assert (P : glicko_valid (mkGlicko (Fin 1500) (Fin 350))) by (do 2 eexists; split; [reflexivity|lra]).
  assert (Q : glicko_valid (mkGlicko (Fin 1800) (Fin 40))) by (do 2 eexists; split; [reflexivity|lra]).
  eapply reach_move; [|apply glicko_mp]. intros y [<-|[<-|[<-|[]]]]; try now apply reach_start.
  eapply reach_move; [|apply glicko_m1]. intros y [<-|[<-|[]]]; now apply reach_start.
Qed.

(** C93: a whole season of Elo games in a pool of players. *)
@THM C93_elo_season C93_season_proof
(* Three players; the first one wins all its games. *)
Example C93_case : let gs := [(0%nat, 1%nat, (WIN, 32)); (1%nat, 2%nat, (DRAW, 16)); (2%nat, 0%nat, (LOSS, 32))] in
  won_all fst 0 gs /\ games_of 0 gs = 2%nat /\ (forall i j o k, In (i, j, (o, k)) gs -> 0 < k /\ Rabs k <= 32).
Proof.
  split; [|split; [reflexivity|]].
  - intros a b x H. repeat destruct H as [[= <- <- <-]|H]; try contradiction; cbn; split; intros; try reflexivity; discriminate.
  - intros i j o k H. repeat destruct H as [[= <- <- <- <-]|H]; try contradiction; (split; [lra|]); rewrite Rabs_pos_eq; lra.
Qed.
