(** Proofs of C133 for TrueSkill teams. *)
From Coq Require Import ZArith NArith List Bool Reals Lra Lia.
From Verif Require Import Arith XR Tac ModelLib ModelTS Spec SpecTS SpecInTS SpecDraw ProofTS ProofTSAcc ProofDraw.
Import Spec ListNotations.
Local Open Scope R_scope.

Lemma C133_ts_teams_proof : forall t1 t2 dp beta tau, wl_ok t1 -> wl_ok t2 -> 0.01 <= dp <= 1 -> 0 < beta -> Forall (fun p => snd p <= 5000 * beta) (t1 ++ t2) ->
  let d := Rsum (map fst t2) - Rsum (map fst t1) in exists t1' t2',
  trueskill_two_teams (tst_in t1) (tst_in t2) DRAW (ts_cfg dp beta tau) = (t1', t2') /\
  Forall2 (fun p q => exists x, ts_rating q = Fin x /\ towards d (fst p) x) t1 t1' /\ Forall2 (fun p q => exists x, ts_rating q = Fin x /\ towards (- d) (fst p) x) t2 t2'.
Proof.
  intros t1 t2 dp beta tau O1 O2 Hd Hb HK d. apply Forall_app in HK as [K1 K2]. pose proof (side_var_le _ _ O1 K1) as V1. pose proof (side_var_le _ _ O2 K2) as V2.
  set (n := INR (length t1 + length t2)). assert (Hn : 0 < n). { apply lt_0_INR. destruct O1 as [N _]. destruct t1; [congruence|cbn; lia]. }
  pose proof (draw_margin_eval dp beta n ltac:(lra)) as He. set (e := unit_margin dp * sqrt n * beta) in *. rewrite (ts_two_eval t1 t2 DRAW dp beta tau e O1 O2 He). fold n.
  pose proof (side_var_nonneg t1) as P1. pose proof (side_var_nonneg t2) as P2. set (c := tsc n beta (side_var t1) (side_var t2)).
  assert (Hc : 0 < c) by (apply sqrt_lt_R0; assert (0 < n * beta ^ 2) by (apply Rmult_lt_0_compat; [auto|apply pow_lt; auto]); lra).
  assert (RM : 0.000002 <= e / c). { unfold c, tsc. rewrite Rplus_assoc. apply rel_margin; auto. split; [lra|]. unfold n. rewrite plus_INR. lra. }
  set (t := (side_mu t1 - side_mu t2) / c). assert (T : t = / c * - d) by (unfold t, d, side_mu, Rdiv; ring). pose proof (Rinv_0_lt_compat c Hc) as I0.
  do 2 eexists. split; [reflexivity|]. cbn [ts_v]. destruct (vdraw_dir t (e / c) RM) as (D1 & D2 & D3). set (v := vdraw t (e / c)) in *. set (w := ts_w DRAW t (e / c)).
  assert (A : forall d v w l, (0 < d -> 0 < v) -> (d < 0 -> v < 0) -> (d = 0 -> v = 0) -> Forall (fun p : R * R => 0 < snd p) l ->
    Forall2 (fun p q => exists x, ts_rating q = Fin x /\ towards d (fst p) x) l (map (ts_out tau c v w) l)).
  { intros d' v' w' l X Y Z. induction 1 as [|p l Hp _ IH]; [constructor|]. cbn [map]. constructor; [|exact IH]. unfold ts_out. cbn [ts_rating]. eexists. split; [reflexivity|]. unfold ts_mu'.
    assert (K : 0 < (snd p ^ 2 + tau ^ 2) / c) by (apply Rdiv_lt_0_compat; [pose proof (pow_lt _ 2 Hp); pose proof (pow2_ge_0 tau); lra|auto]). set (k := (snd p ^ 2 + tau ^ 2) / c) in *.
    unfold towards. repeat split; intros H; [specialize (X H)|specialize (Y H)|rewrite (Z H)]; nra. }
  destruct O1 as [_ F1], O2 as [_ F2]. split; apply A; auto; intros H; try (rewrite D3; [lra|]); try (assert (v < 0) by (apply D1; nra); lra); try (assert (0 < v) by (apply D2; nra); lra); rewrite T; [rewrite H; ring|replace d with 0 by lra; ring].
Qed.
