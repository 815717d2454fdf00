(** Property theorems for USCF (uscf.rs). *)
From Coq Require Import ZArith NArith List Bool Reals Lra Lia.
From Verif Require Import Arith XR ModelLib ModelElo ModelUscf Spec ProofElo ProofUscf.
Import ListNotations.
Local Open Scope R_scope.

(** C09 for [uscf]: at least 100 for every input, including infinite and NaN
    ratings and settings.  Missing: [uscf_rating_period], refuted below. *)
Theorem C09_uscf_floor_partial : forall (p1 p2 : USCFRating XR) o (c : USCFConfig XR),
  fleb (Fin 100) (uscf_rating (fst (uscf p1 p2 o c))) = true /\
  fleb (Fin 100) (uscf_rating (snd (uscf p1 p2 o c))) = true.
Proof. exact C09_proof. Qed.
Print Assumptions C09_uscf_floor_partial.
(** C09 is false for [uscf_rating_period]: from 100 down to -100. *)
Theorem C09_uscf_period_floor_refuted : exists (p opp : USCFRating XR),
  fleb (Fin 100) (uscf_rating p) = true /\ fleb (Fin 100) (uscf_rating opp) = true /\
  uscf_rating_period p [(opp, LOSS)] uscf_config_new = mkUscf (Fin (-100)) 2.
Proof. exact C09_refuted_proof. Qed.
Print Assumptions C09_uscf_period_floor_refuted.

(** C10, one game: both players are classified independently. *)
Theorem C10_uscf_game : forall r1 n1 r2 n2 o t,
  uscf (mkUscf (Fin r1) n1) (mkUscf (Fin r2) n2) o (mkUscfConfig (Fin t)) =
  (mkUscf (Fin (Rmax 100
      (if (n1 <=? 8)%N
       then uscf_prov (IZR (Z.of_N n1)) r1 1 r2 (match o with WIN => 1 | _ => 0 end) (match o with LOSS => 1 | _ => 0 end)
       else uscf_upd r1 (IZR (Z.of_N n1)) 1 (points o) (elo_E r1 r2) t)))
     ((n1 + 1) mod 2 ^ 64)%N,
   mkUscf (Fin (Rmax 100
      (if (n2 <=? 8)%N
       then uscf_prov (IZR (Z.of_N n2)) r2 1 r1 (match o with LOSS => 1 | _ => 0 end) (match o with WIN => 1 | _ => 0 end)
       else uscf_upd r2 (IZR (Z.of_N n2)) 1 (1 - points o) (elo_E r2 r1) t)))
     ((n2 + 1) mod 2 ^ 64)%N).
Proof. exact C10_proof. Qed.
Print Assumptions C10_uscf_game.
Example C10_case : uscf_rating (fst (uscf (mkUscf (Fin 1300) 0) (mkUscf (Fin 1500) 20) WIN (mkUscfConfig (Fin 14))))
  = Fin 1900.
Proof.
  rewrite C10_uscf_game. cbn [fst uscf_rating N.leb N.compare Z.of_N]. unfold uscf_prov.
  f_equal. rewrite Rmax_right; lra.
Qed.
(** C10, rating period with any positive number of results
    ((opponent rating, opponent games), outcome). *)
Theorem C10_uscf_period : forall r n rs t, rs <> [] -> (n + N.of_nat (length rs) < 2 ^ 64)%N ->
  uscf_rating_period (mkUscf (Fin r) n) (map (fun g => (mkUscf (Fin (fst (fst g))) (snd (fst g)), snd g)) rs)
    (mkUscfConfig (Fin t)) =
  mkUscf (Fin
    (if (n <=? 8)%N
     then uscf_prov (IZR (Z.of_N n)) r (INR (length rs)) (Rsum (map (fun g => fst (fst g)) rs) / INR (length rs))
            (INR (count_wins (map snd rs))) (INR (count_losses (map snd rs)))
     else uscf_upd r (IZR (Z.of_N n)) (length rs) (Rsum (map (fun g => points (snd g)) rs))
            (Rsum (map (fun g => elo_E r (fst (fst g))) rs)) t)) (n + N.of_nat (length rs))%N.
Proof. exact C10_period_proof. Qed.
Print Assumptions C10_uscf_period.
Example C10_period_case : [((1300, 5%N), WIN); ((1500, 50%N), LOSS)] <> [] /\
  (20 + N.of_nat (length [((1300, 5%N), WIN); ((1500, 50%N), LOSS)]) < 2 ^ 64)%N.
Proof. split; [congruence|cbn; lia]. Qed.

(** C11: game counters, in every arithmetic (below the usize limit). *)
Theorem C11_uscf_games : forall (F : Type) (A : Arith F) (p q : USCFRating F) o rs c,
  ((uscf_games p + 1 < 2 ^ 64)%N -> uscf_games (fst (uscf p q o c)) = (uscf_games p + 1)%N) /\
  ((uscf_games q + 1 < 2 ^ 64)%N -> uscf_games (snd (uscf p q o c)) = (uscf_games q + 1)%N) /\
  ((uscf_games p + N.of_nat (length rs) < 2 ^ 64)%N ->
     uscf_games (uscf_rating_period p rs c) = (uscf_games p + N.of_nat (length rs))%N) /\
  uscf_rating_period p [] c = p.
Proof. exact C11_proof. Qed.
Print Assumptions C11_uscf_games.
Example C11_case : (uscf_games (mkUscf (Fin 1300) 12) + 1 < 2 ^ 64)%N. Proof. cbn; lia. Qed.

(** C12: the bonus of an established player's period. *)
Theorem C12_uscf_bonus : forall r n rs t, (8 < n)%N -> rs <> [] -> (n + N.of_nat (length rs) < 2 ^ 64)%N ->
  let K := 800 / (uscf_Ne r (IZR (Z.of_N n)) + INR (length rs)) in
  let D := K * (Rsum (map (fun g => points (snd g)) rs) - Rsum (map (fun g => elo_E r (fst (fst g))) rs)) in
  exists b,
    uscf_rating (uscf_rating_period (mkUscf (Fin r) n)
      (map (fun g => (mkUscf (Fin (fst (fst g))) (snd (fst g)), snd g)) rs) (mkUscfConfig (Fin t))) = Fin (r + D + b) /\
    0 <= b /\
    ((length rs < 3)%nat -> b = 0) /\
    ((3 <= length rs)%nat -> b = Rmax 0 (D - t * sqrt (INR (Nat.min (length rs) 4)))).
Proof. exact C12_proof. Qed.
Print Assumptions C12_uscf_bonus.
Example C12_case : (8 < 20)%N. Proof. lia. Qed.
Example C12_bonus_positive : forall r n, (8 < n)%N ->
  0 < uscf_bonus 3 (uscf_K r (NR n) 3) 3 (3 * elo_E r r) (1/100).
Proof.
  intros r n Hn. unfold uscf_bonus; cbn [Nat.ltb Nat.leb Nat.min]. rewrite elo_E_equal.
  apply Rlt_le_trans with (uscf_K r (NR n) 3 * (3 - 3 * (1 / 2)) - 1 / 100 * sqrt (INR 3)); [|apply Rmax_r].
  assert (sqrt (INR 3) <= 2) by (cbn [INR]; rewrite <- (sqrt_square 2) by lra; apply sqrt_le_1; lra).
  assert (800 / 53 <= uscf_K r (NR n) 3).
  { unfold uscf_K, Rdiv. apply Rmult_le_compat_l; [lra|]. pose proof (uscf_Ne_nonneg r n).
    apply Rinv_le_contravar; [lra|]. enough (uscf_Ne r (NR n) <= 50) by lra.
    unfold uscf_Ne. destruct (Rlt_dec r 2355).
    - eapply Rle_trans; [apply Rmin_l|apply Rmin_r].
    - apply Rmin_r. }
  lra.
Qed.

(** C72: an established player's win raises the rating, a loss never does. *)
Theorem C72_uscf_direction : forall r1 n1 r2 n2 t, (8 < n1)%N ->
  exists w d l,
    uscf_rating (fst (uscf (mkUscf (Fin r1) n1) (mkUscf (Fin r2) n2) WIN (mkUscfConfig (Fin t)))) = Fin w /\
    uscf_rating (fst (uscf (mkUscf (Fin r1) n1) (mkUscf (Fin r2) n2) DRAW (mkUscfConfig (Fin t)))) = Fin d /\
    uscf_rating (fst (uscf (mkUscf (Fin r1) n1) (mkUscf (Fin r2) n2) LOSS (mkUscfConfig (Fin t)))) = Fin l /\
    l <= d <= w /\ r1 < w /\ (100 <= r1 -> d < w) /\ (100 <= r1 -> l <= r1) /\ (100 < r1 -> l < r1).
Proof. exact C72_proof. Qed.
Print Assumptions C72_uscf_direction.
