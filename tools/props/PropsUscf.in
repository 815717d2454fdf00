(** Property theorems for USCF (uscf.rs). *)
From Coq Require Import ZArith NArith List Bool Reals Lra Lia.
From Verif Require Import Arith XR ModelLib ModelElo ModelUscf Spec ProofElo ProofUscf.
Import ListNotations.
Local Open Scope R_scope.

(** C09 for [uscf]: at least 100 for every input, including infinite and NaN
    ratings and settings.  Missing: [uscf_rating_period], refuted below. *)
@THM C09_uscf_floor_partial C09_proof
(** C09 is false for [uscf_rating_period]: from 100 down to -100. *)
@THM C09_uscf_period_floor_refuted C09_refuted_proof

(** C10, one game: both players are classified independently. *)
@THM C10_uscf_game C10_proof
Example C10_case : uscf_rating (fst (uscf (mkUscf (Fin 1300) 0) (mkUscf (Fin 1500) 20) WIN (mkUscfConfig (Fin 14))))
  = Fin 1900.
Proof.
  rewrite C10_uscf_game. cbn [fst uscf_rating N.leb N.compare Z.of_N]. unfold uscf_prov.
  f_equal. rewrite Rmax_right; lra.
Qed.
(** C10, rating period with any positive number of results
    ((opponent rating, opponent games), outcome). *)
@THM C10_uscf_period C10_period_proof
Example C10_period_case : [((1300, 5%N), WIN); ((1500, 50%N), LOSS)] <> [] /\
  (20 + N.of_nat (length [((1300, 5%N), WIN); ((1500, 50%N), LOSS)]) < 2 ^ 64)%N.
Proof. split; [congruence|cbn; lia]. Qed.

(** C11: game counters, in every arithmetic (below the usize limit). *)
@THM C11_uscf_games C11_proof
Example C11_case : (uscf_games (mkUscf (Fin 1300) 12) + 1 < 2 ^ 64)%N. Proof. cbn; lia. Qed.

(** C12: the bonus of an established player's period. *)
@THM C12_uscf_bonus C12_proof
Example C12_case : (8 < 20)%N. Proof. lia. Qed.
Example C12_bonus_positive : forall r n, (8 < n)%N ->
  0 < uscf_bonus 3 (uscf_K r (NR n) 3) 3 (3 * elo_E r r) (1/100).
Proof.
  intros r n Hn. unfold uscf_bonus; cbn [Nat.ltb Nat.leb Nat.min]. rewrite elo_E_equal.
  apply Rlt_le_trans with (uscf_K r (NR n) 3 * (3 - 3 * (1 / 2)) - 1 / 100 * sqrt (INR 3)); [|apply Rmax_r].
  assert (sqrt (INR 3) <= 2) by (cbn [INR]; rewrite <- (sqrt_square 2) by lra; apply sqrt_le_1; lra).
  assert (800 / 53 <= uscf_K r (NR n) 3).
  { unfold uscf_K, Rdiv. apply Rmult_le_compat_l; [lra|]. pose proof (uscf_Ne_nonneg r n).
    apply Rinv_le_contravar; [lra|]. enough (uscf_Ne r (NR n) <= 50) by lra.
    unfold uscf_Ne. destruct (Rlt_dec r 2355).
    - eapply Rle_trans; [apply Rmin_l|apply Rmin_r].
    - apply Rmin_r. }
  lra.
Qed.

(** C72: an established player's win raises the rating, a loss never does. *)
@THM C72_uscf_direction C72_proof
