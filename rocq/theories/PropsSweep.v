(** Property theorems: n equal games against one opponent in one rating period (C144). *)
From Coq Require Import ZArith NArith List Bool Reals Lra Lia.
From Verif Require Import Arith XR ModelLib ModelIngo ModelDwz ModelUscf ModelEgf ModelGlicko ModelSticko ModelBoost ModelGlicko2 Spec SpecSettle ProofSweep ProofSweep2 ProofSweep3.
Import ListNotations.
Local Open Scope R_scope.

(** C144, Glicko: the rating after n equal results, n = 0, 1, 2, ..., and its limit. *)
Theorem C144_glicko_sweep : forall r RD ro RDo o c, 0 < RD -> let E := gE r ro RDo in let l := r + (points o - E) / (gq * gg RDo * E * (1 - E)) in
  let m := / (gpre RD c ^ 2 * gq ^ 2 * gg RDo ^ 2 * E * (1 - E)) in let x n := r + (l - r) * (INR n / (INR n + m)) in
  0 < m /\ settles x l /\ forall n, glicko_rating_period (mkGlicko (Fin r) (Fin RD)) (repeat (mkGlicko (Fin ro) (Fin RDo), o) n) (mkGlickoConfig (Fin c)) = mkGlicko (Fin (x n)) (Fin (gpre RD c * sqrt (m / (INR n + m)))).
Proof. exact C144_glicko_proof. Qed.
Print Assumptions C144_glicko_sweep.
(** A period of draws carries a player past the opponent. *)
Theorem C144_glicko_draws_pass_refuted : forall r RD ro RDo c, 0 < RD -> r <> ro -> exists N, forall n, (N <= n)%nat -> exists x d,
  glicko_rating_period (mkGlicko (Fin r) (Fin RD)) (repeat (mkGlicko (Fin ro) (Fin RDo), DRAW) n) (mkGlickoConfig (Fin c)) = mkGlicko (Fin x) (Fin d) /\ (r < ro -> ro < x) /\ (ro < r -> x < ro).
Proof. exact C144_glicko_pass_proof. Qed.
Print Assumptions C144_glicko_draws_pass_refuted.
Theorem C144_sticko_sweep : forall r RD ro RDo o w h beta lambda gamma c, 0 < RD -> 0 <= h -> let rj := ro - (if w : bool then gamma else - gamma) in
  let E := gE r rj RDo in let l := r + (points o + beta - E) / (gq * gg RDo * E * (1 - E)) in let m := / (gpre RD c ^ 2 * gq ^ 2 * gg RDo ^ 2 * E * (1 - E)) in let x n := r + (l - r) * (INR n / (INR n + m)) in
  0 < m /\ settles x l /\ forall n, (1 <= n)%nat -> exists d, sticko_rating_period (mkSticko (Fin r) (Fin RD)) (repeat (mkSticko (Fin ro) (Fin RDo), o, w) n) (mkStickoConfig (Fin h) (Fin beta) (Fin lambda) (Fin gamma) (Fin c)) =
    mkSticko (Fin (x n + lambda / 100 * (ro - r))) (Fin d).
Proof. exact C144_sticko_proof. Qed.
Print Assumptions C144_sticko_sweep.
(** Glicko-Boost: whether or not the boost applies, the rating stays before the same limit. *)
Theorem C144_boost_sweep : forall r RD ro RDo o w c, 0 < RD -> 0 <= bc_b0 c -> 0 < bc_b1 c ->
  let cfg := mkBoostConfig (Fin (bc_eta c)) (Fin (bc_k c)) (Fin (bc_b0 c)) (Fin (bc_b1 c)) (Fin (bc_a0 c)) (Fin (bc_a1 c)) (Fin (bc_a2 c)) (Fin (bc_a3 c)) (Fin (bc_a4 c)) in
  let E := gE r (ro - (if w : bool then bc_eta c else - bc_eta c)) RDo in let l := r + (points o - E) / (gq * gg RDo * E * (1 - E)) in exists x d,
  (forall n, (1 <= n)%nat -> glicko_boost_rating_period (mkBoost (Fin r) (Fin RD)) (repeat (mkBoost (Fin ro) (Fin RDo), o, w) n) cfg = mkBoost (Fin (x n)) (Fin (d n))) /\
  Un_cv x l /\ forall n, (1 <= n)%nat -> (r < l -> r < x n < l) /\ (l < r -> l < x n < r) /\ (l = r -> x n = r).
Proof. exact C144_boost_proof. Qed.
Print Assumptions C144_boost_sweep.
(** Glicko-2: the same limit (on its own scale), with an error at most proportional to 1/n. *)
Theorem C144_glicko2_sweep : forall fuel n r RD s ro RDo so o t tol p, 0 < RD -> 0 < s -> 0 < t -> 0 <= tol -> (1 <= n)%nat ->
  glicko2_rating_period fuel (mkGlicko2 (Fin r) (Fin RD) (Fin s)) (repeat (mkGlicko2 (Fin ro) (Fin RDo) (Fin so), o) n) (mkGlicko2Config (Fin t) (Fin tol)) = Some p ->
  let E := g2E (g2mu r) (g2mu ro) (g2phi RDo) in let l := r + g2s * (points o - E) / (g2g (g2phi RDo) * E * (1 - E)) in
  exists x d s', p = mkGlicko2 (Fin x) (Fin d) (Fin s') /\ (r < l -> r < x < l) /\ (l < r -> l < x < r) /\ (l = r -> x = r) /\
    Rabs (x - l) <= Rabs (l - r) / (1 + INR n * (g2phi RD ^ 2 * g2g (g2phi RDo) ^ 2 * E * (1 - E))) /\
    0 < d /\ d ^ 2 * (INR n * (g2g (g2phi RDo) ^ 2 * E * (1 - E))) < g2s ^ 2.
Proof. exact C144_glicko2_proof. Qed.
Print Assumptions C144_glicko2_sweep.
(** When the volatility step is sure to end, for every number of games. *)
Theorem C144_glicko2_returns : forall r RD s ro RDo so o t tol n, 0 < s -> 0 < t -> 0 < tol -> (1 <= n)%nat ->
  let E := g2E (g2mu r) (g2mu ro) (g2phi RDo) in ((points o - E) / (g2g (g2phi RDo) * E * (1 - E))) ^ 2 <= g2phi RD ^ 2 * (1 + 27 / (2 * t ^ 2)) ->
  exists N, forall fuel, (N <= fuel)%nat -> exists p,
  glicko2_rating_period fuel (mkGlicko2 (Fin r) (Fin RD) (Fin s)) (repeat (mkGlicko2 (Fin ro) (Fin RDo) (Fin so), o) n) (mkGlicko2Config (Fin t) (Fin tol)) = Some p.
Proof. exact C144_glicko2_returns_proof. Qed.
Print Assumptions C144_glicko2_returns.
Theorem C144_glicko2_draws_pass_refuted : forall r RD s ro RDo so t tol, 0 < RD -> 0 < s -> 0 < t -> 0 <= tol -> r <> ro -> exists N, forall n fuel p, (N <= n)%nat ->
  glicko2_rating_period fuel (mkGlicko2 (Fin r) (Fin RD) (Fin s)) (repeat (mkGlicko2 (Fin ro) (Fin RDo) (Fin so), DRAW) n) (mkGlicko2Config (Fin t) (Fin tol)) = Some p ->
  exists x d s', p = mkGlicko2 (Fin x) (Fin d) (Fin s') /\ (r < ro -> ro < x) /\ (ro < r -> x < ro).
Proof. exact C144_glicko2_pass_proof. Qed.
Print Assumptions C144_glicko2_draws_pass_refuted.
Theorem C144_dwz_sweep : forall r i a ro io ao o, (1 <= i)%N -> let E := elo_E r ro in let l := r + 800 * (points o - E) in let m := dwz_E r a (points o) E (IZR (Z.of_N i)) in let x n := r + (l - r) * (INR n / (INR n + m)) in
  settles x l /\ forall n, (1 <= n)%nat -> dwz_rating_period (mkDwz (Fin r) i a) (repeat (mkDwz (Fin ro) io ao, o) n) = mkDwz (Fin (x n)) ((i + 1) mod 2 ^ 64)%N a.
Proof. exact C144_dwz_proof. Qed.
Print Assumptions C144_dwz_sweep.
Theorem C144_dwz_draws_pass_refuted : forall r i a ro io ao, (1 <= i)%N -> r <> ro -> Rabs (r - ro) <= 50 -> exists N, forall n, (N <= n)%nat -> exists x,
  dwz_rating (dwz_rating_period (mkDwz (Fin r) i a) (repeat (mkDwz (Fin ro) io ao, DRAW) n)) = Fin x /\ (r < ro -> ro < x) /\ (ro < r -> x < ro).
Proof. exact C144_dwz_pass_proof. Qed.
Print Assumptions C144_dwz_draws_pass_refuted.
(** Ingo: the same games one after the other move the rating further. *)
Theorem C144_ingo_sweep : forall r a ro ao o, let D := ingo_D a in let l := ro - (100 * points o - 50) in let x n := r + (l - r) * (INR n / (INR n + D)) in
  settles x l /\ (forall n, (1 <= n)%nat -> ingo_rating_period (mkIngo (Fin r) a) (repeat (mkIngo (Fin ro) ao, o) n) = mkIngo (Fin (x n)) a) /\
  forall n, (2 <= n)%nat -> r <> l -> exists y, Nat.iter n (fun p => fst (ingo p (mkIngo (Fin ro) ao) o)) (mkIngo (Fin r) a) = mkIngo (Fin y) a /\ Rabs (x n - r) < Rabs (y - r) < Rabs (l - r).
Proof. exact C144_ingo_proof. Qed.
Print Assumptions C144_ingo_sweep.
(** Provisional USCF players: one period or one game at a time, the result is the same. *)
Theorem C144_uscf_provisional : forall r g ro go o t, (1 <= g <= 8)%N -> let N0 := IZR (Z.of_N g) in let l := ro + 400 * (2 * points o - 1) in let x n := r + (l - r) * (INR n / (INR n + N0)) in
  settles x l /\ (forall n, (1 <= n)%nat -> (g + N.of_nat n < 2 ^ 64)%N -> uscf_rating_period (mkUscf (Fin r) g) (repeat (mkUscf (Fin ro) go, o) n) (mkUscfConfig (Fin t)) = mkUscf (Fin (x n)) (g + N.of_nat n)%N) /\
  (100 <= r -> 100 <= l -> forall n, (g + N.of_nat n <= 9)%N -> Nat.iter n (fun p => fst (uscf p (mkUscf (Fin ro) go) o (mkUscfConfig (Fin t)))) (mkUscf (Fin r) g) = mkUscf (Fin (x n)) (g + N.of_nat n)%N).
Proof. exact C144_uscf_prov_proof. Qed.
Print Assumptions C144_uscf_provisional.
(** Established USCF players. *)
Theorem C144_uscf_not_better : forall r g ro go o t, 100 <= r -> (9 <= g)%N -> 0 <= t -> points o <= elo_E r ro -> let l := r + 800 * (points o - elo_E r ro) in let x n := r + (l - r) * (INR n / (INR n + uscf_Ne r (IZR (Z.of_N g)))) in
  settles x l /\ forall n, (1 <= n)%nat -> (g + N.of_nat n < 2 ^ 64)%N -> uscf_rating_period (mkUscf (Fin r) g) (repeat (mkUscf (Fin ro) go, o) n) (mkUscfConfig (Fin t)) = mkUscf (Fin (x n)) (g + N.of_nat n)%N.
Proof. exact C144_uscf_slow_proof. Qed.
Print Assumptions C144_uscf_not_better.
Theorem C144_uscf_better : forall r g ro go o t, 100 <= r -> (9 <= g)%N -> 0 <= t -> elo_E r ro < points o -> exists x,
  (forall n, (1 <= n)%nat -> (g + N.of_nat n < 2 ^ 64)%N -> uscf_rating_period (mkUscf (Fin r) g) (repeat (mkUscf (Fin ro) go, o) n) (mkUscfConfig (Fin t)) = mkUscf (Fin (x n)) (g + N.of_nat n)%N) /\
  x 0%nat = r /\ forall n, x n < x (S n) < r + 1600 * (points o - elo_E r ro).
Proof. exact C144_uscf_wins_proof. Qed.
Print Assumptions C144_uscf_better.
(** EGF: exactly n times the change of one game, without any limit. *)
Theorem C144_egf_sweep : forall r ro o H n, r < 3300 -> ro < 3300 -> egf_adj (egf_h1 H) r < 3300 -> egf_adj (egf_h2 H) ro < 3300 -> exists y, fst (egf (mkEgf (Fin r)) (mkEgf (Fin ro)) o (mkEgfConfig (Fin H))) = mkEgf (Fin y) /\
  egf_rating_period (mkEgf (Fin r)) (repeat (mkEgf (Fin ro), o, mkEgfConfig (Fin H)) n) = mkEgf (Fin (r + INR n * (y - r))).
Proof. exact C144_egf_proof. Qed.
Print Assumptions C144_egf_sweep.

(* A player rated 1900 who draws often enough against one rated 1500 ends below 1500. *)
Example C144_case : exists N, forall n, (N <= n)%nat -> exists x d,
  glicko_rating_period (mkGlicko (Fin 1900) (Fin 350)) (repeat (mkGlicko (Fin 1500) (Fin 50), DRAW) n) (mkGlickoConfig (Fin 0)) = mkGlicko (Fin x) (Fin d) /\ x < 1500.
Proof.
  destruct (C144_glicko_draws_pass_refuted 1900 350 1500 50 0 ltac:(lra) ltac:(lra)) as [N H]. exists N. intros n L. destruct (H n L) as (x & d & E & _ & X). exists x, d. split; [exact E|]. apply X. lra.
Qed.
Example C144_ingo_case : let x n := 150 + (100 - (100 * points WIN - 50) - 150) * (INR n / (INR n + ingo_D 30)) in x 1%nat = 150 - 100 / 21 /\ x 3%nat = 150 - 300 / 23.
Proof. cbn. split; field. Qed.
Example C144_uscf_case : 100 <= 1500 /\ (9 <= 20)%N /\ 0 <= 14 /\ points LOSS <= elo_E 1500 1600.
Proof. repeat split; try lra; try lia. cbn. unfold elo_E. apply Rmult_le_pos; [lra|]. left. apply Rinv_0_lt_compat. pose proof (exp_pos ((1600 - 1500) / 400 * ln 10)). unfold Rpower. lra. Qed.
Example C144_egf_case : 2000 < 3300 /\ 1900 < 3300 /\ egf_adj (egf_h1 3) 2000 < 3300 /\ egf_adj (egf_h2 3) 1900 < 3300.
Proof. unfold egf_h1, egf_h2, egf_adj. repeat (destruct Rlt_dec; try lra); repeat (destruct Req_EM_T; try lra); lra. Qed.
Example C144_boost_case : exists c, 0 < 350 /\ 0 <= bc_b0 c /\ 0 < bc_b1 c.
Proof. exists (Build_boost_cfg 30 (196/100) (20139/100000) (175/10) 1 1 1 1 1). cbn. lra. Qed.
(* A Glicko-2 player rated 1600 who draws often enough against one rated 1500 ends below 1500; the period returns. *)
Example C144_glicko2_case : exists n, (1 <= n)%nat /\ exists fuel x d s',
  glicko2_rating_period fuel (mkGlicko2 (Fin 1600) (Fin 200) (Fin (6 / 100))) (repeat (mkGlicko2 (Fin 1500) (Fin 0) (Fin (6 / 100)), DRAW) n) (mkGlicko2Config (Fin (1 / 2)) (Fin (1 / 1000000))) = Some (mkGlicko2 (Fin x) (Fin d) (Fin s')) /\ x < 1500.
Proof.
  destruct (C144_glicko2_draws_pass_refuted 1600 200 (6 / 100) 1500 0 (6 / 100) (1 / 2) (1 / 1000000) ltac:(lra) ltac:(lra) ltac:(lra) ltac:(lra) ltac:(lra)) as [N H]. exists (S N). split; [lia|].
  assert (G : g2g (g2phi 0) = 1) by (unfold g2g, g2phi, g2s; replace (1 + 3 * (0 / (1737178 / 10000)) ^ 2 / PI ^ 2) with 1 by (field; apply PI_neq0); rewrite sqrt_1; lra).
  destruct (C144_glicko2_returns 1600 200 (6 / 100) 1500 0 (6 / 100) DRAW (1 / 2) (1 / 1000000) (S N) ltac:(lra) ltac:(lra) ltac:(lra) ltac:(lia)) as [M R].
  { rewrite G. set (E := g2E _ _ _). assert (B : 1 / 2 <= E <= 3 / 4).
    { unfold E, g2E. rewrite G. unfold g2mu, g2s. match goal with |- context [exp ?z] => set (u := z) end. assert (U : -1 <= u <= 0) by (unfold u; lra). pose proof exp_le_3 as X. pose proof (exp_pos u).
      assert (U1 : exp u <= 1) by (rewrite <- exp_0; destruct (proj2 U) as [L|L]; [left; now apply exp_increasing|rewrite L; apply Rle_refl]).
      assert (U2 : 1 / 3 <= exp u). { apply Rle_trans with (exp (-1)). - replace (-1) with (- (1)) by ring. rewrite exp_Ropp. apply Rmult_le_reg_r with (exp 1); [apply exp_pos|]. rewrite Rinv_l; [lra|apply Rgt_not_eq, exp_pos]. - destruct (proj1 U) as [L|L]; [left; now apply exp_increasing|rewrite L; apply Rle_refl]. }
      split; apply Rmult_le_reg_r with (1 + exp u); try lra; rewrite Rinv_l by lra; lra. }
    cbn [points]. assert (Y : 3 / 16 <= E * (1 - E)) by nra. assert (Z : Rabs ((1 / 2 - E) / (1 * E * (1 - E))) <= 4 / 3).
    { rewrite Rmult_1_l. apply Rabs_le. set (w := E * (1 - E)) in *. assert (Q : (1 / 2 - E) / w * w = 1 / 2 - E) by (field; lra). split; apply Rmult_le_reg_r with w; try lra; rewrite Q; lra. }
    rewrite <- pow2_abs. set (z := Rabs _) in *. assert (0 <= z) by apply Rabs_pos. unfold g2phi, g2s. apply Rle_trans with ((4 / 3) ^ 2); [apply pow_incr; lra|lra]. }
  destruct (R M (le_n M)) as [p P]. destruct (H (S N) M p ltac:(lia) P) as (x & d & s' & -> & _ & X). exists M, x, d, s'. split; [exact P|]. apply X. lra.
Qed.
