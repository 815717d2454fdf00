(** Order of games, translations and changes of scale. *)
From Coq Require Import ZArith NArith List Bool Reals Lra Lia Permutation.
From Verif Require Import Arith XR ModelLib ModelElo ModelFifa ModelIngo ModelUscf ModelEgf ModelGlicko ModelSticko ModelGlicko2 ModelWengLin ModelTS
  Spec SpecIn SpecTS SpecInTS ProofShift.
Import Spec ListNotations.
Local Open Scope R_scope.

(** C109: the order of the games of a USCF or EGF period does not matter. *)
@THM C109_uscf_order C109_uscf_proof
@THM C109_egf_order C109_egf_proof
Example C109_case : Permutation [(1300, 5%N, WIN); (1500, 50%N, LOSS)] [(1500, 50%N, LOSS); (1300, 5%N, WIN)] /\
  (20 + N.of_nat (length [(1300, 5%N, WIN); (1500, 50%N, LOSS)]) < 2 ^ 64)%N.
Proof. split; [constructor|cbn; lia]. Qed.

(** C110: adding x to every rating adds x to every new rating. *)
@THM C110_shift_elo C110_elo_proof
@THM C110_shift_fifa C110_fifa_proof
@THM C110_shift_ingo C110_ingo_proof
@THM C110_shift_glicko C110_glicko_proof
@THM C110_shift_sticko C110_sticko_proof
@THM C110_shift_glicko2 C110_glicko2_proof
@THM C110_shift_glicko2_period C110_glicko2_period_proof
@THM C110_shift_weng_lin C110_wl_shift_proof
@THM C110_shift_trueskill C110_ts_shift_proof
(** Multiplying every rating, uncertainty and scale parameter by l multiplies the
    results by l. *)
@THM C110_scale_weng_lin C110_wl_scale_proof
@THM C110_scale_trueskill C110_ts_scale_proof
(** One against one: both. *)
@THM C110_weng_lin_1v1 C110_wl_1v1_proof
@THM C110_trueskill_1v1 C110_ts_1v1_proof
Example C110_case : wl_ok [(25, 25/3); (30, 4)] /\ length [(25, 25/3); (30, 4)] = length [(20, 3); (25, 8)] /\ [(1400, 30, WIN)] <> [].
Proof. split; [split; [discriminate|repeat constructor; cbn; lra]|]. split; [reflexivity|discriminate]. Qed.
