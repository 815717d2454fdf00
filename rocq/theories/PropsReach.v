(** Long runs: what a program can reach by calling the functions over and over. *)
From Coq Require Import ZArith NArith List Bool Reals Lra Lia.
From Verif Require Import Arith XR ModelLib ModelElo ModelFifa ModelIngo ModelUscf ModelEgf ModelDwz ModelGlicko ModelSticko
  ModelBoost ModelGlicko2 ModelWengLin ModelTS Spec SpecInTS SpecReach SpecLeague ProofEgf2 ProofReach ProofLeague.
Import ListNotations.
Local Open Scope R_scope.

(** C90: what a handicap does, for adjusted ratings below 3300. *)
Theorem C90_egf_stone : forall r1 r2 H, r1 < 3300 -> 0 < H -> r2 + 100 * (H + 1 / 2) < 3300 ->
  egf_expected_score (mkEgf (Fin r1)) (mkEgf (Fin r2)) (mkEgfConfig (Fin (H + 1))) =
  egf_expected_score (mkEgf (Fin r1)) (mkEgf (Fin (r2 + 100))) (mkEgfConfig (Fin H)).
Proof. exact C90_stone_proof. Qed.
Print Assumptions C90_egf_stone.
Theorem C90_egf_handicap_helps : forall r1 r2 H H', r1 < 3300 -> 1 <= H -> H < H' -> r2 + 100 * (H' - 1 / 2) < 3300 ->
  exists e0 e e',
    egf_expected_score (mkEgf (Fin r1)) (mkEgf (Fin r2)) (mkEgfConfig (Fin 0)) = (Fin e0, Fin (1 - e0)) /\
    egf_expected_score (mkEgf (Fin r1)) (mkEgf (Fin r2)) (mkEgfConfig (Fin H)) = (Fin e, Fin (1 - e)) /\
    egf_expected_score (mkEgf (Fin r1)) (mkEgf (Fin r2)) (mkEgfConfig (Fin H')) = (Fin e', Fin (1 - e')) /\
    e' < e < e0.
Proof. exact C90_helps_proof. Qed.
Print Assumptions C90_egf_handicap_helps.
(* Ratings 2000 and 1500; four and five stones. *)
Example C90_case : 2000 < 3300 /\ 0 < 4 /\ 1500 + 100 * (4 + 1 / 2) < 3300 /\ 1 <= 4 /\ 4 < 5 /\ 1500 + 100 * (5 - 1 / 2) < 3300.
Proof. lra. Qed.

(** C91: winning all the time does not keep an EGF rating up; too large a
    handicap resets both players. *)
Theorem C91_egf_streak_refuted : forall r opp, r < 3300 -> opp < 3300 ->
  exists n, Nat.iter n (fun p => fst (egf p (mkEgf (Fin opp)) WIN egf_config_new)) (mkEgf (Fin r)) = mkEgf (Fin (-900)) /\
    exists r', Nat.iter (n - 1) (fun p => fst (egf p (mkEgf (Fin opp)) WIN egf_config_new)) (mkEgf (Fin r)) = mkEgf (Fin r') /\ 3300 < r'.
Proof. exact C91_streak_proof. Qed.
Print Assumptions C91_egf_streak_refuted.
Theorem C91_egf_handicap_refuted : forall r1 r2 o H, r1 < 3300 -> r2 < 3300 -> 0 < H -> 3300 < r2 + 100 * (H - 1 / 2) ->
  egf (mkEgf (Fin r1)) (mkEgf (Fin r2)) o (mkEgfConfig (Fin H)) = (mkEgf (Fin (-900)), mkEgf (Fin (-900))) /\
  egf_expected_score (mkEgf (Fin r1)) (mkEgf (Fin r2)) (mkEgfConfig (Fin H)) = (NaN, NaN).
Proof. exact C91_handicap_proof. Qed.
Print Assumptions C91_egf_handicap_refuted.
(* Ratings 2700 and 2500 and nine stones for player two. *)
Example C91_case : 2700 < 3300 /\ 2500 < 3300 /\ 0 < 9 /\ 3300 < 2500 + 100 * (9 - 1 / 2).
Proof. lra. Qed.

(** C92: every rating that can be reached is a number in the documented range. *)
Theorem C92_reach_elo : forall p, reach elo_valid elo_move p -> elo_valid p.
Proof. exact C92_elo_proof. Qed.
Print Assumptions C92_reach_elo.
Theorem C92_reach_fifa : forall p, reach fifa_valid fifa_move p -> fifa_valid p.
Proof. exact C92_fifa_proof. Qed.
Print Assumptions C92_reach_fifa.
Theorem C92_reach_ingo : forall p, reach ingo_valid ingo_move p -> ingo_valid p.
Proof. exact C92_ingo_proof. Qed.
Print Assumptions C92_reach_ingo.
Theorem C92_reach_uscf_partial : forall p, reach uscf_valid uscf_move p -> uscf_valid p.
Proof. exact C92_uscf_proof. Qed.
Print Assumptions C92_reach_uscf_partial.
Theorem C92_reach_dwz : forall p, reach dwz_valid dwz_move p -> dwz_valid p.
Proof. exact C92_dwz_proof. Qed.
Print Assumptions C92_reach_dwz.
Theorem C92_reach_glicko : forall p, reach glicko_valid glicko_move p -> glicko_valid p.
Proof. exact C92_glicko_proof. Qed.
Print Assumptions C92_reach_glicko.
Theorem C92_reach_sticko : forall p, reach sticko_valid sticko_move p -> sticko_valid p.
Proof. exact C92_sticko_proof. Qed.
Print Assumptions C92_reach_sticko.
Theorem C92_reach_boost : forall p, reach boost_valid boost_move p -> boost_valid p.
Proof. exact C92_boost_proof. Qed.
Print Assumptions C92_reach_boost.
Theorem C92_reach_glicko2 : forall p, reach glicko2_valid glicko2_move p -> glicko2_valid p.
Proof. exact C92_glicko2_proof. Qed.
Print Assumptions C92_reach_glicko2.
Theorem C92_reach_weng_lin : forall u0 p, reach (wl_valid u0) wl_move p -> wl_valid u0 p.
Proof. exact C92_wl_proof. Qed.
Print Assumptions C92_reach_weng_lin.
Theorem C92_reach_trueskill_partial : forall p, reach ts_valid ts_move p -> ts_valid p.
Proof. exact C92_ts_proof. Qed.
Print Assumptions C92_reach_trueskill_partial.
(** Fresh players are valid, and so is what they become after games and periods. *)
Example C92_case : elo_valid (mkElo (Fin 1000)) /\ glicko_valid (mkGlicko (Fin 1500) (Fin 350)) /\ wl_valid (25/3) (mkWL (Fin 25) (Fin (25/3))) /\
  dwz_valid (mkDwz (Fin 1200) 3 26) /\ ts_valid (mkTS (Fin 25) (Fin (25/3))) /\
  (let p := mkGlicko (Fin 1500) (Fin 350) in let q := mkGlicko (Fin 1800) (Fin 40) in let cfg := mkGlickoConfig (Fin 63) in
   reach glicko_valid glicko_move (glicko_rating_period (fst (glicko p q WIN cfg)) [(q, LOSS); (p, DRAW)] cfg)).
Proof.
  repeat split; try (do 3 eexists; split; [reflexivity|lia]); try (do 2 eexists; split; [reflexivity|lra]); [eexists; reflexivity|].
  cbv zeta.
  assert (P : glicko_valid (mkGlicko (Fin 1500) (Fin 350))) by (do 2 eexists; split; [reflexivity|lra]).
  assert (Q : glicko_valid (mkGlicko (Fin 1800) (Fin 40))) by (do 2 eexists; split; [reflexivity|lra]).
  eapply reach_move; [|apply glicko_mp]. intros y [<-|[<-|[<-|[]]]]; try now apply reach_start.
  eapply reach_move; [|apply glicko_m1]. intros y [<-|[<-|[]]]; now apply reach_start.
Qed.

(** C93: a whole season of Elo games in a pool of players. *)
Theorem C93_elo_season : forall rs gs,
  exists rs', season (fun p q x => elo p q (fst x) (mkEloConfig (Fin (snd x)))) (map (fun r => mkElo (Fin r)) rs) gs = map (fun r => mkElo (Fin r)) rs' /\
    length rs' = length rs /\ Rsum rs' = Rsum rs /\
    (forall K n, (forall i j o k, In (i, j, (o, k)) gs -> Rabs k <= K) -> Rabs (nth n rs' 0 - nth n rs 0) <= K * INR (games_of n gs)) /\
    (forall n, (forall i j o k, In (i, j, (o, k)) gs -> 0 < k) -> won_all fst n gs -> nth n rs 0 <= nth n rs' 0).
Proof. exact C93_season_proof. Qed.
Print Assumptions C93_elo_season.
(* Three players; the first one wins all its games. *)
Example C93_case : let gs := [(0%nat, 1%nat, (WIN, 32)); (1%nat, 2%nat, (DRAW, 16)); (2%nat, 0%nat, (LOSS, 32))] in
  won_all fst 0 gs /\ games_of 0 gs = 2%nat /\ (forall i j o k, In (i, j, (o, k)) gs -> 0 < k /\ Rabs k <= 32).
Proof.
  split; [|split; [reflexivity|]].
  - intros a b x H. repeat destruct H as [[= <- <- <-]|H]; try contradiction; cbn; split; intros; try reflexivity; discriminate.
  - intros i j o k H. repeat destruct H as [[= <- <- <- <-]|H]; try contradiction; (split; [lra|]); rewrite Rabs_pos_eq; lra.
Qed.
