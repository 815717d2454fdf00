(** Property theorems: n equal games against one opponent in one rating period (C144). *)
From Coq Require Import ZArith NArith List Bool Reals Lra Lia.
From Verif Require Import Arith XR ModelLib ModelIngo ModelDwz ModelUscf ModelEgf ModelGlicko ModelSticko ModelBoost ModelGlicko2 Spec SpecSettle ProofSweep ProofSweep2 ProofSweep3.
Import ListNotations.
Local Open Scope R_scope.

(** C144, Glicko: the rating after n equal results, n = 0, 1, 2, ..., and its limit. *)
@THM C144_glicko_sweep C144_glicko_proof
(** A period of draws carries a player past the opponent. *)
@THM C144_glicko_draws_pass_refuted C144_glicko_pass_proof
@THM C144_sticko_sweep C144_sticko_proof
(** Glicko-Boost: whether or not the boost applies, the rating stays before the same limit. *)
@THM C144_boost_sweep C144_boost_proof
(** Glicko-2: the same limit (on its own scale), with an error at most proportional to 1/n. *)
@THM C144_glicko2_sweep C144_glicko2_proof
(** When the volatility step is sure to end, for every number of games. *)
@THM C144_glicko2_returns C144_glicko2_returns_proof
@THM C144_glicko2_draws_pass_refuted C144_glicko2_pass_proof
@THM C144_dwz_sweep C144_dwz_proof
@THM C144_dwz_draws_pass_refuted C144_dwz_pass_proof
(** Ingo: the same games one after the other move the rating further. *)
@THM C144_ingo_sweep C144_ingo_proof
(** Provisional USCF players: one period or one game at a time, the result is the same. *)
@THM C144_uscf_provisional C144_uscf_prov_proof
(** Established USCF players. *)
@THM C144_uscf_not_better C144_uscf_slow_proof
@THM C144_uscf_better C144_uscf_wins_proof
(** EGF: exactly n times the change of one game, without any limit. *)
@THM C144_egf_sweep C144_egf_proof

(* A player rated 1900 who draws often enough against one rated 1500 ends below 1500. *)
Example C144_case : exists N, forall n, (N <= n)%nat -> exists x d,
  glicko_rating_period (mkGlicko (Fin 1900) (Fin 350)) (repeat (mkGlicko (Fin 1500) (Fin 50), DRAW) n) (mkGlickoConfig (Fin 0)) = mkGlicko (Fin x) (Fin d) /\ x < 1500.
Proof.
  destruct (C144_glicko_draws_pass_refuted 1900 350 1500 50 0 ltac:(lra) ltac:(lra)) as [N H]. exists N. intros n L. destruct (H n L) as (x & d & E & _ & X). exists x, d. split; [exact E|]. apply X. lra.
Qed.
Example C144_ingo_case : let x n := 150 + (100 - (100 * points WIN - 50) - 150) * (INR n / (INR n + ingo_D 30)) in x 1%nat = 150 - 100 / 21 /\ x 3%nat = 150 - 300 / 23.
Proof. cbn. split; field. Qed.
Example C144_uscf_case : 100 <= 1500 /\ (9 <= 20)%N /\ 0 <= 14 /\ points LOSS <= elo_E 1500 1600.
Proof. repeat split; try lra; try lia. cbn. unfold elo_E. apply Rmult_le_pos; [lra|]. left. apply Rinv_0_lt_compat. pose proof (exp_pos ((1600 - 1500) / 400 * ln 10)). unfold Rpower. lra. Qed.
Example C144_egf_case : 2000 < 3300 /\ 1900 < 3300 /\ egf_adj (egf_h1 3) 2000 < 3300 /\ egf_adj (egf_h2 3) 1900 < 3300.
Proof. unfold egf_h1, egf_h2, egf_adj. repeat (destruct Rlt_dec; try lra); repeat (destruct Req_EM_T; try lra); lra. Qed.
Example C144_boost_case : exists c, 0 < 350 /\ 0 <= bc_b0 c /\ 0 < bc_b1 c.
Proof. exists (Build_boost_cfg 30 (196/100) (20139/100000) (175/10) 1 1 1 1 1). cbn. lra. Qed.
(* A Glicko-2 player rated 1600 who draws often enough against one rated 1500 ends below 1500; the period returns. *)
Example C144_glicko2_case : exists n, (1 <= n)%nat /\ exists fuel x d s',
  glicko2_rating_period fuel (mkGlicko2 (Fin 1600) (Fin 200) (Fin (6 / 100))) (repeat (mkGlicko2 (Fin 1500) (Fin 0) (Fin (6 / 100)), DRAW) n) (mkGlicko2Config (Fin (1 / 2)) (Fin (1 / 1000000))) = Some (mkGlicko2 (Fin x) (Fin d) (Fin s')) /\ x < 1500.
Proof.
  destruct (C144_glicko2_draws_pass_refuted 1600 200 (6 / 100) 1500 0 (6 / 100) (1 / 2) (1 / 1000000) ltac:(lra) ltac:(lra) ltac:(lra) ltac:(lra) ltac:(lra)) as [N H]. exists (S N). split; [lia|].
  assert (G : g2g (g2phi 0) = 1) by (unfold g2g, g2phi, g2s; replace (1 + 3 * (0 / (1737178 / 10000)) ^ 2 / PI ^ 2) with 1 by (field; apply PI_neq0); rewrite sqrt_1; lra).
  destruct (C144_glicko2_returns 1600 200 (6 / 100) 1500 0 (6 / 100) DRAW (1 / 2) (1 / 1000000) (S N) ltac:(lra) ltac:(lra) ltac:(lra) ltac:(lia)) as [M R].
  { rewrite G. set (E := g2E _ _ _). assert (B : 1 / 2 <= E <= 3 / 4).
    { unfold E, g2E. rewrite G. unfold g2mu, g2s. match goal with |- context [exp ?z] => set (u := z) end. assert (U : -1 <= u <= 0) by (unfold u; lra). pose proof exp_le_3 as X. pose proof (exp_pos u).
      assert (U1 : exp u <= 1) by (rewrite <- exp_0; destruct (proj2 U) as [L|L]; [left; now apply exp_increasing|rewrite L; apply Rle_refl]).
      assert (U2 : 1 / 3 <= exp u). { apply Rle_trans with (exp (-1)). - replace (-1) with (- (1)) by ring. rewrite exp_Ropp. apply Rmult_le_reg_r with (exp 1); [apply exp_pos|]. rewrite Rinv_l; [lra|apply Rgt_not_eq, exp_pos]. - destruct (proj1 U) as [L|L]; [left; now apply exp_increasing|rewrite L; apply Rle_refl]. }
      split; apply Rmult_le_reg_r with (1 + exp u); try lra; rewrite Rinv_l by lra; lra. }
    cbn [points]. assert (Y : 3 / 16 <= E * (1 - E)) by nra. assert (Z : Rabs ((1 / 2 - E) / (1 * E * (1 - E))) <= 4 / 3).
    { rewrite Rmult_1_l. apply Rabs_le. set (w := E * (1 - E)) in *. assert (Q : (1 / 2 - E) / w * w = 1 / 2 - E) by (field; lra). split; apply Rmult_le_reg_r with w; try lra; rewrite Q; lra. }
    rewrite <- pow2_abs. set (z := Rabs _) in *. assert (0 <= z) by apply Rabs_pos. unfold g2phi, g2s. apply Rle_trans with ((4 / 3) ^ 2); [apply pow_incr; lra|lra]. }
  destruct (R M (le_n M)) as [p P]. destruct (H (S N) M p ltac:(lia) P) as (x & d & s' & -> & _ & X). exists M, x, d, s'. split; [exact P|]. apply X. lra.
Qed.
