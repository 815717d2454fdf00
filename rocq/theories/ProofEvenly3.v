(** Proofs of C139 for DWZ and Sticko: draws against the same opponent, for ever. *)
From Coq Require Import ZArith NArith List Bool Reals Lra Lia.
From Verif Require Import Arith XR Tac ModelLib ModelElo ModelDwz ModelGlicko ModelSticko Spec SpecSettle
  ProofElo ProofDwz ProofUscf ProofGlicko ProofSticko ProofOrder2 ProofBoost2 ProofLong ProofOrderSt ProofEvenly.
Import Spec ListNotations.
Local Open Scope R_scope.

Fixpoint dwz_draws (ro : R) (idx age : nat -> N) (r : R) (k : nat) : R :=
  match k with O => r | S k => let y := dwz_draws ro idx age r k in dwz_upd y (dwz_E y (age k) (1 / 2) (elo_E y ro) (NR (idx k))) 1 (1 / 2) (elo_E y ro) end.
Lemma C139_dwz_proof : forall r ro io ao (idx age : nat -> N), (1 <= io)%N -> (forall k, (1 <= idx k)%N) -> exists x,
  x 0%nat = r /\ (forall k, dwz_rating (fst (dwz (mkDwz (Fin (x k)) (idx k) (age k)) (mkDwz (Fin ro) io ao) DRAW)) = Fin (x (S k))) /\ settles x ro.
Proof.
  intros r ro io ao idx age Hio Hidx. set (x := dwz_draws ro idx age r). exists x. split; [reflexivity|]. split; [intros k; now rewrite dwz_eval|]. pose proof ln10_close as LN. set (c := ln 10 / 400). assert (C0 : 0 < c) by (unfold c; lra).
  apply (settle x ro 1 (fun e => 800 / 151 * (sg (c * e) - 1 / 2))); [lra| |].
  - intros e He. assert (CE : 0 < c * e) by (now apply Rmult_lt_0_compat). pose proof (sg_slope _ CE). apply Rmult_lt_0_compat; lra.
  - intros n. set (E := dwz_E (x n) (age n) (1 / 2) (elo_E (x n) ro) (NR (idx n))). assert (RE : 5 <= E <= 150) by apply dwz_E_range'. set (k := 800 / (E + 1)).
    assert (K1 : 800 / 151 <= k) by (unfold k, Rdiv; apply Rmult_le_compat_l; [lra|apply Rinv_le_contravar; lra]). assert (K2 : k <= 800 / 6) by (unfold k, Rdiv; apply Rmult_le_compat_l; [lra|apply Rinv_le_contravar; lra]).
    destruct (sg_step (x n - ro) k c ltac:(lra) C0) as (t & Ht & ET & BT). { intros N. apply slope_ok; try lra; auto. unfold c. nra. }
    exists t. split; [auto|]. split. { rewrite <- ET. change (x (S n)) with (dwz_upd (x n) E 1 (1 / 2) (elo_E (x n) ro)). unfold dwz_upd. fold k. rewrite elo_E_sg. replace ((x n - ro) * ln 10 / 400) with (c * (x n - ro)) by (unfold c; field). ring. }
    intros e He L. specialize (BT e He L). assert (CE : 0 < c * e) by (now apply Rmult_lt_0_compat). pose proof (sg_slope _ CE) as [S0 _]. pose proof (pos_INR n) as Pn. set (z := sg (c * e) - 1 / 2) in *. assert (Z : 0 < z) by lra. assert (J : 0 < / (1 + INR n) <= 1) by (split; [apply Rinv_0_lt_compat; lra|rewrite <- Rinv_1 at 2; apply Rinv_le_contravar; lra]).
    assert (800 / 151 * z * / (1 + INR n) <= 800 / 151 * z * 1) by (apply Rmult_le_compat_l; [|lra]; apply Rmult_le_pos; lra). assert (800 / 151 * z <= k * z) by (apply Rmult_le_compat_r; lra). lra.
Qed.

(** Sticko: the pull of lambda alone makes the convergence geometric. *)
Lemma glicko_r_even ro P RDo : glicko_r ro P [(ro, RDo, 1 / 2)] = ro.
Proof. unfold glicko_r. rewrite gM_single, gE_self. unfold Rdiv. ring. Qed.
Lemma glicko_r_towards r ro P RDo : 0 < P <= 350 -> exists t, 0 <= t < 9 / 10 /\ glicko_r r P [(ro, RDo, 1 / 2)] - ro = (1 - t) * (r - ro).
Proof.
  intros HP. destruct (Req_dec r ro) as [->|N]; [exists 0; rewrite glicko_r_even; split; [lra|ring]|]. exists (1 - (glicko_r r P [(ro, RDo, 1 / 2)] - ro) / (r - ro)). split; [|field; lra].
  set (y := glicko_r r P [(ro, RDo, 1 / 2)]). assert (S : 1 / 10 < (y - ro) / (r - ro)).
  { destruct (Rlt_le_dec r ro) as [L|L].
    - pose proof (glicko_r_slope ro r P ro RDo (1 / 2) HP ltac:(lra) L) as S. rewrite glicko_r_even in S. fold y in S. replace ((y - ro) / (r - ro)) with ((ro - y) / (ro - r)) by (field; lra). apply Rmult_lt_reg_r with (ro - r); [lra|]. unfold Rdiv. rewrite (Rmult_assoc (ro - y)), Rinv_l by lra. lra.
    - assert (L' : ro < r) by lra. pose proof (glicko_r_slope r ro P ro RDo (1 / 2) HP ltac:(lra) L') as S. rewrite glicko_r_even in S. fold y in S. apply Rmult_lt_reg_r with (r - ro); [lra|]. unfold Rdiv. rewrite (Rmult_assoc (y - ro)), Rinv_l by lra. lra. }
  assert (U : (y - ro) / (r - ro) <= 1).
  { pose proof gq_pos as Q. pose proof (gg_range RDo) as [G _]. assert (F : 0 < gq / (/ P ^ 2 + gd2inv r [(ro, RDo, 1 / 2)]) * gg RDo). { apply Rmult_lt_0_compat; [|auto]. apply Rdiv_lt_0_compat; [auto|]. assert (0 < gd2inv r [(ro, RDo, 1 / 2)]) by (apply gd2inv_pos; discriminate). assert (0 < / P ^ 2) by (apply Rinv_0_lt_compat, pow_lt; lra). lra. }
    assert (Y : y = r + gq / (/ P ^ 2 + gd2inv r [(ro, RDo, 1 / 2)]) * gg RDo * (1 / 2 - gE r ro RDo)) by (unfold y, glicko_r; rewrite gM_single; ring). set (f := gq / _ * _) in *. destruct (Rlt_le_dec r ro) as [L|L].
    - pose proof (gE_lt r ro ro RDo L) as M. rewrite gE_self in M. replace ((y - ro) / (r - ro)) with ((ro - y) / (ro - r)) by (field; lra). apply Rmult_le_reg_r with (ro - r); [lra|]. unfold Rdiv. rewrite (Rmult_assoc (ro - y)), Rinv_l by lra. assert (0 <= f * (1 / 2 - gE r ro RDo)) by (apply Rmult_le_pos; lra). lra.
    - assert (L' : ro < r) by lra. pose proof (gE_lt ro r ro RDo L') as M. rewrite gE_self in M. apply Rmult_le_reg_r with (r - ro); [lra|]. unfold Rdiv. rewrite (Rmult_assoc (y - ro)), Rinv_l by lra. assert (0 <= f * (gE r ro RDo - 1 / 2)) by (apply Rmult_le_pos; lra). lra. }
  lra.
Qed.
Lemma C139_sticko_proof : forall r RD ro RDo h lambda c, 0 < RD -> 0 < RDo -> 0 <= h -> 0 < lambda <= 10 -> exists x d,
  (forall k, Nat.iter k (fun p => fst (sticko p (mkSticko (Fin ro) (Fin RDo)) DRAW (mkStickoConfig (Fin h) (Fin 0) (Fin lambda) (Fin 0) (Fin c)))) (mkSticko (Fin r) (Fin RD)) = mkSticko (Fin (x k)) (Fin (d k))) /\
  settles x ro /\ forall k, Rabs (x k - ro) <= (1 - lambda / 100) ^ k * Rabs (r - ro).
Proof.
  intros r RD ro RDo h lambda c H1 H2 Hh HL. set (f := fun p : R * R => (sticko_r (fst p) (gpre (snd p) c) 0 0 lambda [(ro, RDo, DRAW, true)], sticko_rd (fst p) (gpre (snd p) c) 0 0 h [(ro, RDo, DRAW, true)])).
  set (x := fun k => fst (Nat.iter k f (r, RD))). set (d := fun k => snd (Nat.iter k f (r, RD))). exists x, d.
  assert (D0 : forall k, 0 < d k). { induction k as [|k IH]; [exact H1|]. unfold d. rewrite iter_S. unfold f at 1. cbn [snd]. apply sticko_rd_range; [|auto]. apply gpre_pos. exact IH. }
  assert (T : forall k, exists t, lambda / 100 <= t < 1 /\ x (S k) - ro = (1 - t) * (x k - ro)).
  { intros k. destruct (glicko_r_towards (x k) ro (gpre (d k) c) RDo) as (t & Ht & E); [apply gpre_range; left; pose proof (D0 k); lra|]. exists (t + lambda / 100). split; [lra|]. unfold x at 1. rewrite iter_S. unfold f at 1. cbn [fst]. fold (x k) (d k). rewrite sticko_r_one. cbn [points]. replace (ro - 0) with ro by ring. replace (_ + lambda / 100 * (ro - x k) - ro) with ((glicko_r (x k) (gpre (d k) c) [(ro, RDo, 1 / 2)] - ro) + lambda / 100 * (ro - x k)) by ring. rewrite E. ring. }
  split; [|split].
  - induction k as [|k IH]; [reflexivity|]. rewrite iter_S, IH. rewrite C33_game_proof by auto. cbn [fst]. reflexivity.
  - apply (settle x ro 1 (fun e => lambda / 100 * e)); [lra|intros e He; apply Rmult_lt_0_compat; lra|]. intros n. destruct (T n) as (t & Ht & E). exists t. split; [lra|]. split; [exact E|]. intros e He L. pose proof (pos_INR n) as Pn. assert (J : 0 < / (1 + INR n) <= 1) by (split; [apply Rinv_0_lt_compat; lra|rewrite <- Rinv_1 at 2; apply Rinv_le_contravar; lra]).
    assert (P : 0 <= lambda / 100 * e) by (apply Rmult_le_pos; lra). assert (lambda / 100 * e * / (1 + INR n) <= lambda / 100 * e * 1) by (apply Rmult_le_compat_l; lra). assert (lambda / 100 * e <= t * Rabs (x n - ro)) by (apply Rmult_le_compat; lra). lra.
  - induction k as [|k IH]; [cbn; unfold x; cbn; lra|]. destruct (T k) as (t & Ht & E). rewrite E, Rabs_mult, Rabs_pos_eq by lra. cbn [pow]. rewrite Rmult_assoc. apply Rmult_le_compat; [lra|apply Rabs_pos|lra|exact IH].
Qed.
