(** Property theorems: the order of two Glicko-2 or DWZ players after the same result (C95). *)
From Coq Require Import ZArith NArith List Bool Reals Lra Lia.
From Verif Require Import Arith XR ModelLib ModelGlicko2 ModelDwz Spec ProofOrderG2 ProofOrderDwz.
Import Spec ListNotations.
Local Open Scope R_scope.

(** C95: two Glicko-2 players who differ in the rating only and get the same result
    against the same opponent stay in order.  Partial: ratings closer together than the
    possible effect of different new volatilities (0.02 points by default) are left out. *)
@THM C95_order_glicko2_partial C95_glicko2_proof

(* The default configuration, fresh players 0.02 points apart. *)
Example C95_glicko2_case : 0.5 ^ 2 * 0.06 ^ 2 <= 1 / 10 /\
  let up := 0.06 ^ 2 * exp (3 / 2 * 0.5 ^ 2 * 0.06 ^ 2 + 0.000001) in let down := 0.06 ^ 2 * exp (- (0.5 ^ 2 * 0.06 ^ 2 / 8 + 0.000001)) in
  (350 / (1737178 / 10000)) ^ 2 + up <= 4.065 /\ 20 * (1737178 / 10000) * (up - down) <= 1500.02 - 1500.
Proof.
  split; [lra|]. intros up down. assert (U : up <= 0.0036049).
  { unfold up. replace (3 / 2 * 0.5 ^ 2 * 0.06 ^ 2 + 0.000001) with (- - 0.001351) by lra. rewrite exp_Ropp. pose proof (exp_ineq1_le (- 0.001351)). assert (/ exp (- 0.001351) <= / 0.998649) by (apply Rinv_le_contravar; lra). lra. }
  assert (D : 0.0035995 <= down) by (unfold down; pose proof (exp_ineq1_le (- (0.5 ^ 2 * 0.06 ^ 2 / 8 + 0.000001))); lra). split; lra.
Qed.

(** C95: DWZ players stay in order after a win, and after every result when they have
    played at least four tournaments or are on the same side of 1300. *)
@THM C95_order_dwz C95_dwz_proof
(** The brake ends at 1300: a new adult player rated 1300 who loses falls below one rated
    1299 who loses against the same opponent. *)
@THM C95_order_dwz_refuted C95_dwz_refuted_proof

Example C95_dwz_case : (1 <= 4)%N /\ 0 <= 1250 < 1350 /\ (4 <= 4)%N. Proof. repeat split; try lia; lra. Qed.
(* The whole example: both lose against a 1200. *)
Example C95_dwz_refuted_case : exists n n', dwz_rating (fst (dwz (mkDwz (Fin 1300) 1 30) (mkDwz (Fin 1200) 5 40) LOSS)) = Fin n /\
  dwz_rating (fst (dwz (mkDwz (Fin 1299) 1 30) (mkDwz (Fin 1200) 5 40) LOSS)) = Fin n' /\ n < n'.
Proof. apply C95_order_dwz_refuted; try lia; lra. Qed.
