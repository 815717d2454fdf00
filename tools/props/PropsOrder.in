(** Comparing two games: stronger opponents, higher-rated players, and the boost. *)
From Coq Require Import ZArith NArith List Bool Reals Lra Lia.
From Verif Require Import Arith XR ModelLib ModelElo ModelFifa ModelIngo ModelUscf ModelEgf ModelDwz ModelGlicko ModelSticko
  ModelBoost ModelWengLin Spec ProofGlicko ProofBoost2 ProofOrder ProofOrder2.
Import ListNotations.
Local Open Scope R_scope.

(** C94: the same result against a stronger opponent is worth more. *)
@THM C94_stronger_elo C94_elo_proof
@THM C94_stronger_fifa C94_fifa_proof
@THM C94_stronger_ingo C94_ingo_proof
@THM C94_stronger_uscf C94_uscf_proof
@THM C94_stronger_egf C94_egf_proof
@THM C94_stronger_dwz C94_dwz_proof
@THM C94_stronger_glicko C94_glicko_proof
@THM C94_stronger_sticko C94_sticko_proof
@THM C94_stronger_weng_lin C94_wl_proof
@THM C94_stronger_boost_refuted C94_boost_refuted_proof
(* EGF with four stones for player two; Sticko and Weng-Lin near their defaults. *)
Example C94_case : egf_adj (egf_h1 4) 2000 < 3300 /\ egf_adj (egf_h2 4) 1600 < 3300 /\ Rabs 0 <= 0.24 /\ 0 <= 2 /\ 0 < 0.000001 <= 1 /\ (1 <= 2)%N.
Proof.
  unfold egf_adj, egf_h1, egf_h2. destruct (Rlt_dec 4 0); [lra|]. destruct (Rlt_dec 0 4); [|lra]. destruct (Req_EM_T 0 0), (Req_EM_T 4 0); rewrite ?Rabs_R0; repeat split; try lra; lia.
Qed.

(** C95: the same result against the same opponent keeps two players in order. *)
@THM C95_order_elo C95_elo_proof
@THM C95_order_elo_refuted C95_elo_refuted_proof
@THM C95_order_fifa C95_fifa_proof
@THM C95_order_fifa_refuted C95_fifa_refuted_proof
@THM C95_order_ingo C95_ingo_proof
@THM C95_order_uscf_partial C95_uscf_proof
@THM C95_order_uscf_refuted C95_uscf_refuted_proof
@THM C95_order_egf C95_egf_proof
@THM C95_order_glicko C95_glicko_proof
@THM C95_order_weng_lin C95_wl_proof
(* k = 32 and the largest FIFA importance 60 are far below the bounds, k = 700 is above. *)
Example C95_case : 32 * ln 10 < 1600 /\ 60 * ln 10 < 2400 /\ 1600 < 700 * ln 10 /\ 2400 < 1050 * ln 10 /\ -900 <= 1500 < 3300.
Proof. pose proof ln10_close. lra. Qed.

(** C96: the boost of exceptional performances. *)
@THM C96_boost_helps_partial C96_helps_proof
@THM C96_boost_refuted C96_refuted_proof
(* A fresh player, rated 1500, beats one rated 1770 with deviation 30. *)
Example C96_case : 18 / 100 <= gE 1500 (1770 - 30) 30 < / (1 + (196 / 100) ^ 2).
Proof.
  assert (G : 99 / 100 <= gg 30). { pose proof (gg_range 30). assert (99 / 100 <= gg 30 ^ 2) by (apply gg_sq_lo; lra). nra. }
  pose proof exp_3. pose proof exp_4.
  pose proof (gE_bounds 1500 (1770 - 30) 30 (1366 / 1000) (1382 / 1000) (38417 / 10000) 4 ltac:(lra) G ltac:(lra) ltac:(lra) ltac:(lra) ltac:(lra) ltac:(lra) ltac:(lra)). lra.
Qed.
