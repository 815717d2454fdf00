(** Proofs of C147: the starting rating is forgotten. *)
From Coq Require Import ZArith NArith List Bool Reals Lra Lia.
From Verif Require Import Arith XR Tac ModelLib ModelElo ModelFifa ModelIngo Spec ProofIngo ProofElo ProofFifa ProofBoost2 ProofOrder2 ProofLong ProofMono ProofAccPer ProofSweep.
Import ListNotations.
Local Open Scope R_scope.

Lemma exp_le a b : a <= b -> exp a <= exp b.
Proof. intros [H| ->]; [left; now apply exp_increasing|apply Rle_refl]. Qed.
(** The slope of the logistic function between two points. *)
Lemma sg_chord u v : sg v - sg u = (exp (v - u) - 1) * (sg u * (1 - sg v)).
Proof.
  unfold sg. pose proof (exp_pos (- u)). pose proof (exp_pos (- v)). replace (exp (v - u)) with (exp (- u) * / exp (- v)) by (rewrite <- exp_Ropp, <- exp_plus; f_equal; ring). field. repeat split; lra.
Qed.
Lemma sg_slope_half u v M : u <= v -> - M <= u -> v <= M -> 0 <= u \/ v <= 0 -> (v - u) * (exp (- M) / 4) <= sg v - sg u.
Proof.
  intros H L U C. rewrite sg_chord. pose proof (exp_ineq1_le (v - u)) as E. pose proof (exp_pos (- M)) as PM. pose proof (sg_range u) as Su. pose proof (sg_range v) as Sv.
  assert (S : exp (- M) / 4 <= sg u * (1 - sg v)).
  { assert (C1 : forall w, - M <= w -> w <= 0 -> exp (- M) / 2 <= sg w). { intros w A B. unfold sg. pose proof (exp_pos (- w)) as P. pose proof (exp_le 0 (- w) ltac:(lra)) as Q. rewrite exp_0 in Q. apply Rmult_le_reg_r with (1 + exp (- w)); [lra|]. rewrite Rinv_l by lra. assert (exp (- M) * exp (- w) <= 1) by (rewrite <- exp_plus, <- exp_0; apply exp_le; lra). nra. }
    assert (C2 : forall w, 0 <= w -> 1 / 2 <= sg w). { intros w A. unfold sg. pose proof (exp_pos (- w)) as P. pose proof (exp_le (- w) 0 ltac:(lra)) as Q. rewrite exp_0 in Q. apply Rmult_le_reg_r with (1 + exp (- w)); [lra|]. rewrite Rinv_l by lra. lra. }
    assert (OP : 1 - sg v = sg (- v)) by (unfold sg; rewrite Ropp_involutive, exp_Ropp; pose proof (exp_pos v); field; lra). rewrite OP in *.
    destruct C as [C|C].
    - pose proof (C2 u C). pose proof (C1 (- v) ltac:(lra) ltac:(lra)). nra.
    - pose proof (C1 u L ltac:(lra)). pose proof (C2 (- v) ltac:(lra)). nra. }
  apply Rmult_le_compat; lra.
Qed.
Lemma sg_slope_low u v M : u <= v -> - M <= u -> v <= M -> (v - u) * (exp (- M) / 4) <= sg v - sg u.
Proof.
  intros H L U. destruct (Rle_dec 0 u) as [A|A]; [apply sg_slope_half; auto|]. destruct (Rle_dec v 0) as [B|B]; [apply sg_slope_half; auto|].
  pose proof (sg_slope_half u 0 M ltac:(lra) L ltac:(lra) ltac:(right; lra)). pose proof (sg_slope_half 0 v M ltac:(lra) ltac:(lra) U ltac:(left; lra)). lra.
Qed.
(** No sequence of results carries a rating away faster than logarithmically. *)
Lemma log_step k beta y b s : 0 < k -> Rabs b <= beta -> s <= 1 -> exp (y + k * (s - sg (y - b))) <= exp y + k * exp (beta + k).
Proof.
  intros Hk Hb Hs. pose proof (sg_range (y - b)) as S. set (t := k * (1 - sg (y - b))). assert (T : 0 <= t <= k) by (unfold t; nra).
  apply Rle_trans with (exp (y + t)); [apply exp_le; unfold t; nra|]. rewrite exp_plus.
  assert (E1 : exp t <= 1 + t * exp t). { pose proof (exp_ineq1_le (- t)) as X. rewrite exp_Ropp in X. pose proof (exp_pos t) as P. assert (/ exp t * exp t = 1) by (apply Rinv_l; lra). nra. }
  assert (E2 : exp t <= exp k) by (apply exp_le; lra). assert (E3 : t * exp y <= k * exp beta).
  { unfold t. assert (Q : (1 - sg (y - b)) * exp y <= exp beta). { apply Rle_trans with (exp b); [|apply exp_le; pose proof (Rle_abs b); lra]. unfold sg. replace (- (y - b)) with (b + - y) by ring. rewrite exp_plus, exp_Ropp. pose proof (exp_pos y) as P1. pose proof (exp_pos b) as P2.
      replace ((1 - / (1 + exp b * / exp y)) * exp y) with (exp b * (exp y / (exp y + exp b))) by (field; lra). assert (W : exp y / (exp y + exp b) <= 1) by (apply Rmult_le_reg_r with (exp y + exp b); [lra|]; unfold Rdiv; rewrite Rmult_assoc, Rinv_l; lra). nra. } nra. }
  rewrite exp_plus. pose proof (exp_pos y). pose proof (exp_pos t). pose proof (exp_pos beta). apply Rle_trans with (exp y + (t * exp y) * exp t); [nra|]. assert ((t * exp y) * exp t <= k * exp beta * exp k) by (apply Rmult_le_compat; [apply Rmult_le_pos; lra|lra|lra|lra]). lra.
Qed.
Definition moves k (b s y : nat -> R) : Prop := forall n, y (S n) = y n + k * (s n - sg (y n - b n)).
Lemma sg_opp u : sg (- u) = 1 - sg u.
Proof. unfold sg. rewrite Ropp_involutive, exp_Ropp. pose proof (exp_pos u). field. lra. Qed.
Lemma log_growth k beta b s y : 0 < k -> (forall n, Rabs (b n) <= beta) -> (forall n, 0 <= s n <= 1) -> moves k b s y ->
  forall n, exp (Rabs (y n)) <= exp (Rabs (y 0%nat)) + INR n * (k * exp (beta + k)).
Proof.
  intros Hk Hb Hs HY n. set (D := k * exp (beta + k)). assert (U : exp (y n) <= exp (Rabs (y 0%nat)) + INR n * D /\ exp (- y n) <= exp (Rabs (y 0%nat)) + INR n * D).
  { induction n as [|n [I1 I2]]; [cbn [INR]; rewrite Rmult_0_l, Rplus_0_r; split; apply exp_le; [apply Rle_abs|rewrite <- Rabs_Ropp; apply Rle_abs]|]. rewrite S_INR, HY. split.
    - pose proof (log_step k beta (y n) (b n) (s n) Hk (Hb n) ltac:(apply Hs)) as L. fold D in L. lra.
    - pose proof (log_step k beta (- y n) (- b n) (1 - s n) Hk ltac:(rewrite Rabs_Ropp; apply Hb) ltac:(pose proof (Hs n); lra)) as L. fold D in L. replace (- y n - - b n) with (- (y n - b n)) in L by ring. rewrite sg_opp in L. replace (- (y n + k * (s n - sg (y n - b n)))) with (- y n + k * (1 - s n - (1 - sg (y n - b n)))) by ring. lra. }
  unfold Rabs at 1. destruct Rcase_abs; apply U.
Qed.
Lemma forget_core k beta b s x y : 0 < k < 4 -> 0 <= beta -> (forall n, Rabs (b n) <= beta) -> (forall n, 0 <= s n <= 1) -> moves k b s x -> moves k b s y -> x 0%nat < y 0%nat ->
  (forall n, 0 < y n - x n) /\ (forall n, y (S n) - x (S n) < y n - x n) /\ Un_cv (fun n => y n - x n) 0.
Proof.
  intros Hk Hbeta Hb Hs HX HY H0. set (D := k * exp (beta + k)). set (A := exp (Rabs (x 0%nat)) + exp (Rabs (y 0%nat))). set (c := k * exp (- beta) / 4).
  assert (D0 : 0 < D) by (apply Rmult_lt_0_compat; [lra|apply exp_pos]). assert (A0 : 0 < A) by (unfold A; pose proof (exp_pos (Rabs (x 0%nat))); pose proof (exp_pos (Rabs (y 0%nat))); lra). assert (c0 : 0 < c) by (unfold c; pose proof (exp_pos (- beta)); nra).
  assert (SD : forall n, y (S n) - x (S n) = (y n - x n) - k * (sg (y n - b n) - sg (x n - b n))) by (intros; rewrite HX, HY; ring).
  assert (P : forall n, 0 < y n - x n). { induction n as [|n IH]; [lra|]. rewrite SD. pose proof (sg_lip (x n - b n) (y n - b n) ltac:(lra)) as L. nra. }
  assert (Q : forall n, k * (sg (y n - b n) - sg (x n - b n)) >= (y n - x n) * (c / (A + INR n * D))).
  { intros n. pose proof (log_growth k beta b s x ltac:(lra) Hb Hs HX n) as GX. pose proof (log_growth k beta b s y ltac:(lra) Hb Hs HY n) as GY. fold D in GX, GY. pose proof (pos_INR n) as PI. assert (ND : 0 <= INR n * D) by (apply Rmult_le_pos; lra). assert (T : 0 < A + INR n * D) by lra.
    set (M := beta + ln (A + INR n * D)). assert (BX : Rabs (x n) <= ln (A + INR n * D)). { rewrite <- (ln_exp (Rabs (x n))). apply Rcomplements.ln_le; [apply exp_pos|]. unfold A. pose proof (exp_pos (Rabs (y 0%nat))). lra. } assert (BY : Rabs (y n) <= ln (A + INR n * D)). { rewrite <- (ln_exp (Rabs (y n))). apply Rcomplements.ln_le; [apply exp_pos|]. unfold A. pose proof (exp_pos (Rabs (x 0%nat))). lra. }
    pose proof (Hb n) as HB. assert (LX : - ln (A + INR n * D) <= x n) by (pose proof (Rle_abs (- x n)); rewrite Rabs_Ropp in *; lra). assert (LY : y n <= ln (A + INR n * D)) by (pose proof (Rle_abs (y n)); lra). assert (LB : - beta <= b n <= beta) by (pose proof (Rle_abs (b n)); pose proof (Rle_abs (- b n)); rewrite Rabs_Ropp in *; lra).
    pose proof (P n) as Pn. pose proof (sg_slope_low (x n - b n) (y n - b n) M ltac:(lra) ltac:(unfold M; lra) ltac:(unfold M; lra)) as L.
    replace (y n - b n - (x n - b n)) with (y n - x n) in L by ring. assert (EM : exp (- M) = exp (- beta) / (A + INR n * D)). { unfold M. rewrite Ropp_plus_distr, exp_plus. unfold Rdiv. f_equal. now rewrite exp_Ropp, exp_ln. } rewrite EM in L.
    replace (c / (A + INR n * D)) with (k * (exp (- beta) / (A + INR n * D) / 4)) by (unfold c; field; lra). apply Rle_ge. rewrite <- Rmult_assoc, (Rmult_comm _ k), Rmult_assoc. apply Rmult_le_compat_l; lra. }
  split; [exact P|]. split.
  { intros n. rewrite SD. pose proof (Q n) as q. pose proof (P n). pose proof (pos_INR n). assert (0 < c / (A + INR n * D)) by (apply Rdiv_lt_0_compat; [auto|]; nra). assert (0 < (y n - x n) * (c / (A + INR n * D))) by (now apply Rmult_lt_0_compat). lra. }
  set (e := c / D). assert (e0 : 0 < e) by (now apply Rdiv_lt_0_compat).
  assert (R : forall n, y n - x n <= (y 0%nat - x 0%nat) * exp (- (e * (ln (A + INR n * D) - ln A)))).
  { induction n as [|n IH]; [cbn [INR]; rewrite Rmult_0_l, Rplus_0_r; replace (- (e * (ln A - ln A))) with 0 by ring; rewrite exp_0; lra|]. pose proof (pos_INR n) as PI. assert (ND : 0 <= INR n * D) by (apply Rmult_le_pos; lra). set (T := A + INR n * D) in *. assert (T0 : 0 < T) by (unfold T; lra).
    assert (S1 : y (S n) - x (S n) <= (y n - x n) * exp (- (c / T))). { rewrite SD. pose proof (Q n) as q. fold T in q. pose proof (P n). pose proof (exp_ineq1_le (- (c / T))). nra. }
    assert (LN : ln (T + D) - ln T <= D / T). { assert (X : ln (T + D) <= ln T + D / T); [|lra]. rewrite <- (ln_exp (ln T + D / T)). apply Rcomplements.ln_le; [lra|]. rewrite exp_plus, exp_ln by auto. pose proof (exp_ineq1_le (D / T)) as X. replace (T + D) with (T * (1 + D / T)) by (field; lra). apply Rmult_le_compat_l; lra. }
    rewrite S_INR. replace (A + (INR n + 1) * D) with (T + D) by (unfold T; ring). eapply Rle_trans; [exact S1|]. pose proof (exp_pos (- (c / T))) as P1. apply Rle_trans with ((y 0%nat - x 0%nat) * exp (- (e * (ln T - ln A))) * exp (- (c / T))); [apply Rmult_le_compat_r; lra|]. rewrite Rmult_assoc, <- exp_plus. apply Rmult_le_compat_l; [lra|]. apply exp_le.
    assert (e * (ln (T + D) - ln T) <= c / T). { replace (c / T) with (e * (D / T)) by (unfold e; field; lra). apply Rmult_le_compat_l; lra. } nra. }
  intros eps He. set (d0 := y 0%nat - x 0%nat) in *. assert (d00 : 0 < d0) by (unfold d0; lra). set (Z := ln (d0 / eps) / e + ln A). destruct (INR_big (exp Z / D)) as [n0 Hn0]. exists n0. intros n Hn. unfold R_dist. rewrite Rminus_0_r, Rabs_pos_eq by (left; apply P). eapply Rle_lt_trans; [apply R|].
  assert (PN : INR n0 <= INR n) by (apply le_INR; lia). assert (B : exp Z < A + INR n * D). { assert (X : exp Z / D < INR n) by lra. apply (Rmult_lt_compat_r D) in X; [|auto]. unfold Rdiv in X. rewrite Rmult_assoc, Rinv_l in X by lra. lra. }
  apply ln_increasing in B; [|apply exp_pos]. rewrite ln_exp in B. assert (B2 : ln (d0 / eps) < e * (ln (A + INR n * D) - ln A)). { unfold Z in B. assert (X : ln (d0 / eps) / e < ln (A + INR n * D) - ln A) by lra. apply (Rmult_lt_compat_r e) in X; [|auto]. unfold Rdiv in X at 1. rewrite Rmult_assoc, Rinv_l in X by lra. lra. }
  assert (V : exp (- (e * (ln (A + INR n * D) - ln A))) < eps / d0). { replace (eps / d0) with (exp (- ln (d0 / eps))); [apply exp_increasing; lra|]. rewrite exp_Ropp, exp_ln by (now apply Rdiv_lt_0_compat). field. split; lra. }
  apply (Rmult_lt_compat_l d0) in V; [|auto]. replace (d0 * (eps / d0)) with eps in V by (field; lra). exact V.
Qed.
(** The same on a rating scale with factor a. *)
Lemma forget_scaled a k B b s x y : 0 < a -> 0 < k -> k * a < 4 -> 0 <= B -> (forall n, Rabs (b n) <= B) -> (forall n, 0 <= s n <= 1) ->
  (forall n, x (S n) = x n + k * (s n - sg ((x n - b n) * a))) -> (forall n, y (S n) = y n + k * (s n - sg ((y n - b n) * a))) -> x 0%nat < y 0%nat ->
  (forall n, x n < y n) /\ (forall n, y (S n) - x (S n) < y n - x n) /\ Un_cv (fun n => y n - x n) 0.
Proof.
  intros Ha Hk Hka HB Hb Hs HX HY H0. destruct (forget_core (k * a) (B * a) (fun n => b n * a) s (fun n => x n * a) (fun n => y n * a)) as (P & Q & R); auto.
  - split; [now apply Rmult_lt_0_compat|auto]. - apply Rmult_le_pos; lra. - intros n. rewrite Rabs_mult, (Rabs_pos_eq a) by lra. apply Rmult_le_compat_r; [lra|auto].
  - intros n. rewrite HX. replace (x n * a - b n * a) with ((x n - b n) * a) by ring. ring.
  - intros n. rewrite HY. replace (y n * a - b n * a) with ((y n - b n) * a) by ring. ring.
  - split; [intros n; specialize (P n); nra|]. split; [intros n; specialize (Q n); nra|]. intros eps He. destruct (R (eps * a) ltac:(apply Rmult_lt_0_compat; lra)) as [N HN]. exists N. intros n Hn. specialize (HN n Hn). unfold R_dist in *. rewrite Rminus_0_r in *. replace (y n * a - x n * a) with ((y n - x n) * a) in HN by ring. rewrite Rabs_mult, (Rabs_pos_eq a) in HN by lra. nra.
Qed.
Lemma C147_elo_proof : forall k B (f : nat -> R * Outcomes) r r', 0 < k -> k * ln 10 < 1600 -> (forall n, Rabs (fst (f n)) <= B) -> r < r' -> exists x y : nat -> R,
  (forall n, elo_rating_period (mkElo (Fin r)) (map (fun i => (mkElo (Fin (fst (f i))), snd (f i))) (seq 0 n)) (mkEloConfig (Fin k)) = mkElo (Fin (x n))) /\
  (forall n, elo_rating_period (mkElo (Fin r')) (map (fun i => (mkElo (Fin (fst (f i))), snd (f i))) (seq 0 n)) (mkEloConfig (Fin k)) = mkElo (Fin (y n))) /\
  (forall n, x n < y n) /\ (forall n, y (S n) - x (S n) < y n - x n) /\ Un_cv (fun n => y n - x n) 0.
Proof.
  intros k B f r r' Hk HK HB Hr. exists (fun n => elo_fin k (map f (seq 0 n)) r), (fun n => elo_fin k (map f (seq 0 n)) r'). pose proof ln10_close as LN.
  assert (F : forall z n, elo_rating_period (mkElo (Fin z)) (map (fun i => (mkElo (Fin (fst (f i))), snd (f i))) (seq 0 n)) (mkEloConfig (Fin k)) = mkElo (Fin (elo_fin k (map f (seq 0 n)) z))) by (intros; rewrite <- elo_period_fin; unfold elo_gs; now rewrite map_map).
  split; [apply F|]. split; [apply F|]. assert (ST : forall z n, elo_fin k (map f (seq 0 (S n))) z = elo_fin k (map f (seq 0 n)) z + k * (points (snd (f n)) - sg ((elo_fin k (map f (seq 0 n)) z - fst (f n)) * (ln 10 / 400)))).
  { intros z n. unfold elo_fin. rewrite seq_S, map_app, fold_left_app. cbn [Nat.add map fold_left]. unfold elo_upd at 1. rewrite elo_E_sg. unfold Rdiv. rewrite Rmult_assoc. reflexivity. }
  apply (forget_scaled (ln 10 / 400) k B (fun n => fst (f n)) (fun n => points (snd (f n)))); auto; try lra. - pose proof (HB 0%nat). pose proof (Rabs_pos (fst (f 0%nat))). lra. - intros n. destruct (snd (f n)); cbn [points]; lra.
Qed.
Lemma C147_fifa_proof : forall i B (f : nat -> R * Outcomes) r r', 0 < i -> i * ln 10 < 2400 -> (forall n, Rabs (fst (f n)) <= B) -> r < r' -> exists x y : nat -> R,
  (forall n, fifa_rating_period (mkFifa (Fin r)) (map (fun j => (mkFifa (Fin (fst (f j))), snd (f j), mkFifaConfig (Fin i) false false)) (seq 0 n)) = mkFifa (Fin (x n))) /\
  (forall n, fifa_rating_period (mkFifa (Fin r')) (map (fun j => (mkFifa (Fin (fst (f j))), snd (f j), mkFifaConfig (Fin i) false false)) (seq 0 n)) = mkFifa (Fin (y n))) /\
  (forall n, x n < y n) /\ (forall n, y (S n) - x (S n) < y n - x n) /\ Un_cv (fun n => y n - x n) 0.
Proof.
  intros i B f r r' Hi HI HB Hr. set (g := fun j => (f j, (i, false, false))). exists (fun n => fifa_fin (map g (seq 0 n)) r), (fun n => fifa_fin (map g (seq 0 n)) r'). pose proof ln10_close as LN.
  assert (F : forall z n, fifa_rating_period (mkFifa (Fin z)) (map (fun j => (mkFifa (Fin (fst (f j))), snd (f j), mkFifaConfig (Fin i) false false)) (seq 0 n)) = mkFifa (Fin (fifa_fin (map g (seq 0 n)) z))) by (intros; rewrite <- fifa_period_fin; unfold fifa_gs; rewrite map_map; f_equal; apply map_ext; intros j; unfold g; now destruct (f j)).
  split; [apply F|]. split; [apply F|]. assert (ST : forall z n, fifa_fin (map g (seq 0 (S n))) z = fifa_fin (map g (seq 0 n)) z + i * (points (snd (f n)) - sg ((fifa_fin (map g (seq 0 n)) z - fst (f n)) * (ln 10 / 600)))).
  { intros z n. unfold fifa_fin. rewrite seq_S, map_app, fold_left_app. cbn [Nat.add map fold_left]. unfold g at 1. destruct (f n) as [ro o]. cbn [fst snd ko_max]. unfold fifa_upd at 1. rewrite fifa_We_sg. replace (code_W1 false o) with (points o) by (destruct o; reflexivity). unfold Rdiv. rewrite Rmult_assoc. reflexivity. }
  apply (forget_scaled (ln 10 / 600) i B (fun n => fst (f n)) (fun n => points (snd (f n)))); auto; try lra. - pose proof (HB 0%nat). pose proof (Rabs_pos (fst (f 0%nat))). lra. - intros n. destruct (snd (f n)); cbn [points]; lra.
Qed.
(** In knock-out matches the gap can stay for ever. *)
Lemma C147_fifa_knockout_proof : forall i r ro n, 0 <= i -> fifa_rating_period (mkFifa (Fin r)) (repeat (mkFifa (Fin ro), LOSS, mkFifaConfig (Fin i) true false) n) = mkFifa (Fin r).
Proof.
  intros i r ro n Hi. pose proof (fifa_period_fin (repeat (ro, LOSS, (i, true, false)) n) r) as F. unfold fifa_gs in F. rewrite map_rep in F. rewrite F. do 2 f_equal. unfold fifa_fin. clear F. induction n as [|n IH]; [reflexivity|]. cbn [repeat fold_left]. 
  replace (ko_max true r (fifa_upd i r ro (code_W1 false LOSS))) with r; [exact IH|]. unfold ko_max, fifa_upd. cbn [code_W1 points]. rewrite fifa_We_sg. pose proof (sg_range ((r - ro) * ln 10 / 600)). symmetry. apply Rmax_left. nra.
Qed.
(** Ingo: every rating period multiplies the gap by D/(D + number of games). *)
Lemma C147_ingo_proof : forall a (ps : list (list (R * N * Outcomes))) r r', List.Forall (fun rs => rs <> []) ps -> exists x y,
  let play := fold_left (fun p rs => ingo_rating_period p (map (fun g => (mkIngo (Fin (fst (fst g))) (snd (fst g)), snd g)) rs)) ps in
  play (mkIngo (Fin r) a) = mkIngo (Fin x) a /\ play (mkIngo (Fin r') a) = mkIngo (Fin y) a /\
  y - x = (r' - r) * fold_right Rmult 1 (map (fun rs => ingo_D a / (ingo_D a + INR (length rs))) ps) /\ Rabs (y - x) <= Rabs (r' - r) * (20 / 21) ^ length ps.
Proof.
  intros a ps r r' H. pose proof (ingo_D_range a) as HD. set (D := ingo_D a) in *. set (q := fun rs : list (R * N * Outcomes) => D / (D + INR (length rs))).
  assert (HQ : forall rs, rs <> [] -> 0 < q rs <= 20 / 21). { intros rs N. assert (PN : 1 <= INR (length rs)) by (destruct rs; [congruence|]; cbn [length]; rewrite S_INR; pose proof (pos_INR (length rs)); lra). unfold q. split; [apply Rdiv_lt_0_compat; lra|]. apply Rmult_le_reg_r with (D + INR (length rs)); [lra|]. unfold Rdiv at 1. rewrite Rmult_assoc, Rinv_l by lra. lra. }
  enough (E : exists x y, let play := fold_left (fun p rs => ingo_rating_period p (map (fun g => (mkIngo (Fin (fst (fst g))) (snd (fst g)), snd g)) rs)) ps in play (mkIngo (Fin r) a) = mkIngo (Fin x) a /\ play (mkIngo (Fin r') a) = mkIngo (Fin y) a /\ y - x = (r' - r) * fold_right Rmult 1 (map q ps)).
  { destruct E as (x & y & E1 & E2 & E3). exists x, y. cbv zeta in *. split; [auto|]. split; [auto|]. split; [exact E3|]. rewrite E3, Rabs_mult. apply Rmult_le_compat_l; [apply Rabs_pos|]. clear E1 E2 E3. enough (B : 0 <= fold_right Rmult 1 (map q ps) <= (20 / 21) ^ length ps) by (rewrite Rabs_pos_eq; lra).
    induction H as [|rs ps N _ IH]; cbn [map fold_right length pow]; [lra|]. pose proof (HQ rs N). split; [apply Rmult_le_pos; lra|apply Rmult_le_compat; lra]. }
  revert r r'. induction H as [|rs ps N _ IH]; intros r r'; cbv zeta; cbn [fold_left map fold_right].
  - exists r, r'. repeat split; ring.
  - assert (F : forall z, ingo_rating_period (mkIngo (Fin z) a) (map (fun g => (mkIngo (Fin (fst (fst g))) (snd (fst g)), snd g)) rs) = mkIngo (Fin (ingo_upd (INR (length rs)) z D (avg (map (fun g => fst (fst g)) rs)) (avg (map (fun g => points (snd g)) rs)))) a) by (intros z; unfold D; rewrite <- (C24_formula_proof z a rs N); unfold ingo_games; f_equal; apply map_ext; now intros [[? ?] ?]). rewrite !F.
    match goal with |- context [mkIngo (Fin ?u) a] => set (z := u) end. match goal with |- context [fold_left _ ps (mkIngo (Fin (ingo_upd _ r' _ _ _)) a)] => idtac end. set (z' := ingo_upd (INR (length rs)) r' D _ _). destruct (IH z z') as (x & y & E1 & E2 & E3). exists x, y. split; [auto|]. split; [auto|]. rewrite E3. replace (z' - z) with ((r' - r) * q rs); [ring|]. unfold z, z', ingo_upd, q. pose proof (pos_INR (length rs)). field. lra.
Qed.
