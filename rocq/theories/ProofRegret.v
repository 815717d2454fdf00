(** C125: the forecasts of Elo and FIFA are as good as those of fixed strengths. *)
From Coq Require Import ZArith NArith List Bool Reals Lra Lia.
From Verif Require Import Arith XR Tac ModelLib ModelElo ModelFifa Spec SpecIn SpecLeague SpecRegret ProofElo ProofFifa ProofOrder2 ProofLeague ProofLong ProofAccPer.
Import Spec ListNotations.
Local Open Scope R_scope.

(** ** The logistic loss *)
Lemma ln_sg z : ln (sg z) = - ln (1 + exp (- z)).
Proof. unfold sg. rewrite ?Rdiv_1_l. pose proof (exp_pos (- z)). first [apply ln_Rinv; lra | replace (1 / (1 + exp (- z))) with (/ (1 + exp (- z))) by (field; lra); apply ln_Rinv; lra]. Qed.
Lemma ln_sgc z : ln (1 - sg z) = - z + ln (sg z).
Proof.
  pose proof (exp_pos (- z)). replace (1 - sg z) with (exp (- z) * sg z) by (unfold sg; field; lra).
  rewrite ln_mult; [|auto|pose proof (sg_range z); lra]. rewrite ln_exp. ring.
Qed.
Lemma ll_eq z s : log_loss (sg z) s = (1 - s) * z - ln (sg z).
Proof. unfold log_loss. rewrite ln_sgc. ring. Qed.
(** Convexity. *)
Lemma ll_convex x y s : log_loss (sg x) s - log_loss (sg y) s <= (sg x - s) * (x - y).
Proof.
  rewrite !ll_eq. cut (ln (sg y) - ln (sg x) <= (sg x - 1) * (x - y)); [lra|].
  pose proof (sg_range x) as P. set (p := sg x) in *. set (t := x - y).
  assert (E : sg y = p / (p + (1 - p) * exp t)).
  { unfold p, t, sg. replace (x - y) with (x + - y) by ring. rewrite exp_plus, (exp_Ropp x). pose proof (exp_pos x). pose proof (exp_pos (- y)). field. split; [lra|]. split; [lra|]. pose proof (Rmult_lt_0_compat _ _ H H0). lra. }
  pose proof (exp_pos t) as T. assert (Q : 0 < p + (1 - p) * exp t) by (pose proof (Rmult_lt_0_compat (1 - p) (exp t) ltac:(lra) T); lra).
  rewrite E. unfold Rdiv. rewrite ln_mult, ln_Rinv by (auto using Rinv_0_lt_compat; lra).
  cut ((1 - p) * t <= ln (p + (1 - p) * exp t)); [lra|]. rewrite <- (ln_exp ((1 - p) * t)). apply Rcomplements.ln_le; [apply exp_pos|].
  (* e^((1-p)t) <= p + (1-p) e^t *)
  assert (A : forall u, 1 + u <= exp u). { intro u. destruct (Req_dec u 0) as [->|N]; [rewrite exp_0; lra|]. left. now apply exp_ineq1. }
  pose proof (A (- ((1 - p) * t))) as A1. pose proof (A (p * t)) as A2.
  assert (E1 : exp (- ((1 - p) * t)) * exp ((1 - p) * t) = 1) by (rewrite <- exp_plus; replace (- ((1 - p) * t) + (1 - p) * t) with 0 by ring; apply exp_0).
  assert (E2 : exp (p * t) * exp ((1 - p) * t) = exp t) by (rewrite <- exp_plus; f_equal; ring).
  rewrite <- E2. pose proof (exp_pos ((1 - p) * t)) as W. set (w := exp ((1 - p) * t)) in *.
  assert (B : 1 <= p * exp (- ((1 - p) * t)) + (1 - p) * exp (p * t)).
  { apply Rle_trans with (p * (1 + - ((1 - p) * t)) + (1 - p) * (1 + p * t)); [right; ring|]. apply Rplus_le_compat; apply Rmult_le_compat_l; lra. }
  apply (Rmult_le_compat_r w) in B; [|lra]. replace ((p * exp (- ((1 - p) * t)) + (1 - p) * exp (p * t)) * w) with (p * (exp (- ((1 - p) * t)) * w) + (1 - p) * (exp (p * t) * w)) in B by ring. rewrite E1 in B. lra.
Qed.
Lemma sg_coco x y : 4 * (sg x - sg y) ^ 2 <= (sg x - sg y) * (x - y).
Proof.
  destruct (Rle_or_lt y x) as [H|H].
  - pose proof (sg_lip y x H) as [A B]. replace (4 * (sg x - sg y) ^ 2) with ((sg x - sg y) * (4 * (sg x - sg y))) by ring. apply Rmult_le_compat_l; lra.
  - pose proof (sg_lip x y ltac:(lra)) as [A B]. replace (4 * (sg x - sg y) ^ 2) with ((sg y - sg x) * (4 * (sg y - sg x))) by ring. replace ((sg x - sg y) * (x - y)) with ((sg y - sg x) * (y - x)) by ring. apply Rmult_le_compat_l; lra.
Qed.

(** ** Seasons of real numbers *)
Definition lgE (a x y : R) : R := sg ((x - y) * a).
Definition gu (a k x y : R) (o : Outcomes) : R * R := (x + k * (points o - lgE a x y), y - k * (points o - lgE a x y)).
Definition lossc (a : R) (_ : nat * nat) (x y : R) (o : Outcomes) : R := log_loss (lgE a x y) (points o).
Definition sqc (a : R) (_ : nat * nat) (x y : R) (o : Outcomes) : R := square_loss (lgE a x y) (points o).
Lemma gap2_put i x y u rs us : length rs = length us -> nth_error rs i = Some y -> nth_error us i = Some u -> gap2 (put i x rs) us = gap2 rs us + (x - u) ^ 2 - (y - u) ^ 2.
Proof.
  revert i us. induction rs as [|r rs IH]; intros [|i] [|v us] L H U; cbn in *; try discriminate.
  - injection H as ->. injection U as ->. ring.
  - rewrite (IH i us) by (auto; lia). ring.
Qed.
Lemma gap2_pos rs us : 0 <= gap2 rs us.
Proof. revert us. induction rs as [|r rs IH]; intros [|u us]; cbn [gap2]; try lra. pose proof (pow2_ge_0 (r - u)). specialize (IH us). lra. Qed.
Lemma nth_error_same {X Y} (l : list X) (l' : list Y) i p : length l = length l' -> nth_error l i = Some p -> exists u, nth_error l' i = Some u.
Proof. intros L H. destruct (nth_error l' i) as [u|] eqn:E; [eauto|]. apply nth_error_None in E. assert (i < length l)%nat by (apply nth_error_Some; congruence). lia. Qed.
Lemma play_length {X G} (f : X -> X -> G -> X * X) l g : length (play f l g) = length l.
Proof. destruct g as [[i j] x]. unfold play. destruct (Nat.eqb i j); auto. destruct (nth_error l i), (nth_error l j); auto. now rewrite !put_length. Qed.
(** What one game does to the distance from fixed strengths. *)
Lemma play_gap a k rs us i j o : length rs = length us ->
  play (gu a k) rs (i, j, o) = rs /\ (forall c : nat * nat -> R -> R -> Outcomes -> R, at_game c rs (i, j, o) = 0 /\ at_game c us (i, j, o) = 0) \/
  exists x y u v, nth_error us i = Some u /\ nth_error us j = Some v /\
    (forall c : nat * nat -> R -> R -> Outcomes -> R, at_game c rs (i, j, o) = c (i, j) x y o) /\ (forall c : nat * nat -> R -> R -> Outcomes -> R, at_game c us (i, j, o) = c (i, j) u v o) /\
    gap2 (play (gu a k) rs (i, j, o)) us = gap2 rs us + 2 * (k * (points o - lgE a x y)) * ((x - y) - (u - v)) + 2 * (k * (points o - lgE a x y)) ^ 2.
Proof.
  intros L. unfold at_game, play. destruct (Nat.eqb_spec i j) as [->|N]; [left; auto|].
  destruct (nth_error rs i) as [x|] eqn:Ei.
  2: { left. split; auto. assert (nth_error us i = None) as -> by (apply nth_error_None; rewrite <- L; now apply nth_error_None). auto. }
  destruct (nth_error_same rs us i x L Ei) as (u & Ui). rewrite Ui.
  destruct (nth_error rs j) as [y|] eqn:Ej.
  2: { left. split; auto. assert (nth_error us j = None) as -> by (apply nth_error_None; rewrite <- L; now apply nth_error_None). auto. }
  destruct (nth_error_same rs us j y L Ej) as (v & Uj). rewrite Uj. right. exists x, y, u, v. do 4 (split; [auto|]).
  rewrite (gap2_put j _ y v); [|now rewrite put_length|rewrite put_nth_other; auto|auto]. rewrite (gap2_put i _ x u) by auto. unfold gu. cbn [fst snd]. ring.
Qed.
Lemma regret_core a k rs us gs : 0 < a -> 0 < k -> length rs = length us ->
  season_cost (gu a k) (lossc a) rs gs <= season_cost fixed (lossc a) us gs + a * (gap2 rs us / (2 * k) + k * season_cost (gu a k) (sqc a) rs gs).
Proof.
  intros Ha Hk. assert (FX : forall (us : list R) (g : nat * nat * Outcomes), play fixed us g = us).
  { intros l [[i j] o]. unfold play, fixed. destruct (Nat.eqb_spec i j); auto. destruct (nth_error l i) eqn:E1, (nth_error l j) eqn:E2; auto. cbn [fst snd].
    assert (P : forall m (y : R) q, nth_error q m = Some y -> put m y q = q) by (intros m y q; revert m; induction q as [|z q IHq]; intros [|m] H; cbn in *; try discriminate; [now injection H as -> | f_equal; auto]).
    rewrite (P i) by auto. now apply P. }
  revert rs. induction gs as [|[[i j] o] gs IH]; intros rs L; cbn [season_cost].
  - pose proof (gap2_pos rs us) as G. assert (0 <= gap2 rs us / (2 * k)) by (apply Rmult_le_pos; [auto|apply Rlt_le, Rinv_0_lt_compat; lra]). pose proof (Rmult_le_pos a (gap2 rs us / (2 * k)) ltac:(lra) H). rewrite Rmult_0_r, Rplus_0_r. lra.
  - rewrite FX. destruct (play_gap a k rs us i j o L) as [[E Z]|(x & y & u & v & Ui & Uj & C & D & E)].
    + rewrite E. destruct (Z (lossc a)) as [-> ->]. destruct (Z (sqc a)) as [-> _]. rewrite !Rplus_0_l. now apply IH.
    + rewrite !C, D. specialize (IH (play (gu a k) rs (i, j, o)) ltac:(rewrite play_length; auto)). rewrite E in IH. unfold lossc at 1 3, sqc at 1.
      pose proof (ll_convex ((x - y) * a) ((u - v) * a) (points o)) as CV. fold (lgE a x y) (lgE a u v) in CV. unfold square_loss.
      set (p := lgE a x y) in *. set (S1 := season_cost (gu a k) (lossc a) _ gs) in *. set (S2 := season_cost fixed (lossc a) us gs) in *. set (S3 := season_cost (gu a k) (sqc a) _ gs) in *.
      assert (EQ : a * ((gap2 rs us + 2 * (k * (points o - p)) * (x - y - (u - v)) + 2 * (k * (points o - p)) ^ 2) / (2 * k) + k * S3) = a * (gap2 rs us / (2 * k) + k * ((points o - p) ^ 2 + S3)) + (points o - p) * ((x - y) * a - (u - v) * a)) by (field; lra).
      rewrite EQ in IH. lra.
Qed.
Lemma sq_le_n a k rs gs : 0 <= season_cost (gu a k) (sqc a) rs gs <= INR (length gs).
Proof.
  revert rs. induction gs as [|[[i j] o] gs IH]; intros rs; cbn [season_cost length]; [simpl; lra|]. rewrite S_INR. specialize (IH (play (gu a k) rs (i, j, o))).
  assert (0 <= at_game (sqc a) rs (i, j, o) <= 1); [|lra]. unfold at_game. destruct (Nat.eqb i j); [lra|]. destruct (nth_error rs i) as [x|]; [|lra]. destruct (nth_error rs j) as [y|]; [|lra].
  unfold sqc, square_loss. pose proof (sg_range ((x - y) * a)) as P. fold (lgE a x y) in P. split; [apply pow2_ge_0|]. rewrite <- (pow1 2). apply pow_maj_Rabs. apply Rabs_le. destruct o; cbn; lra.
Qed.
Definition dev (a : R) (us : list R) (ij : nat * nat) (x y : R) (_ : Outcomes) : R := (lgE a x y - lgE a (nth (fst ij) us 0) (nth (snd ij) us 0)) ^ 2.
Lemma mean_core a k rs us ch ps : 0 < a -> 0 < k -> length rs = length us -> follows (lgE a) us ch ->
  (8 / a - 2 * k) * mean_cost (gu a k) (dev a us) ch rs ps <= gap2 rs us / k + k / 2 * INR (length ps).
Proof.
  intros Ha Hk L HF. cut ((8 * k / a - 2 * k ^ 2) * mean_cost (gu a k) (dev a us) ch rs ps <= gap2 rs us + k ^ 2 / 2 * INR (length ps)).
  { intros H. apply Rmult_le_reg_l with k; [auto|]. replace (k * (gap2 rs us / k + k / 2 * INR (length ps))) with (gap2 rs us + k ^ 2 / 2 * INR (length ps)) by (field; lra).
    replace (k * ((8 / a - 2 * k) * mean_cost (gu a k) (dev a us) ch rs ps)) with ((8 * k / a - 2 * k ^ 2) * mean_cost (gu a k) (dev a us) ch rs ps) by (field; lra). exact H. }
  revert rs L. induction ps as [|[i j] ps IH]; intros rs L; cbn [mean_cost length].
  - pose proof (gap2_pos rs us). simpl INR. lra.
  - rewrite S_INR. destruct (HF i j) as (W0 & D0 & L0 & S1 & SE). set (c1 := ch (i, j) WIN) in *. set (c2 := ch (i, j) DRAW) in *. set (c3 := ch (i, j) LOSS) in *.
    pose proof (IH (play (gu a k) rs (i, j, WIN)) ltac:(now rewrite play_length)) as I1. pose proof (IH (play (gu a k) rs (i, j, DRAW)) ltac:(now rewrite play_length)) as I2. pose proof (IH (play (gu a k) rs (i, j, LOSS)) ltac:(now rewrite play_length)) as I3.
    set (M1 := mean_cost _ _ _ (play _ rs (i, j, WIN)) ps) in *. set (M2 := mean_cost _ _ _ (play _ rs (i, j, DRAW)) ps) in *. set (M3 := mean_cost _ _ _ (play _ rs (i, j, LOSS)) ps) in *.
    apply (Rmult_le_compat_l c1) in I1; [|auto]. apply (Rmult_le_compat_l c2) in I2; [|auto]. apply (Rmult_le_compat_l c3) in I3; [|auto].
    set (m := 8 * k / a - 2 * k ^ 2) in *. set (n := k ^ 2 / 2) in *. pose proof (pow2_ge_0 k) as K2. assert (N0 : 0 <= n) by (unfold n; lra).
    destruct (play_gap a k rs us i j WIN L) as [[E1 Z1]|(x & y & u & v & Ui & Uj & C1 & _ & E1)].
    + destruct (play_gap a k rs us i j DRAW L) as [[E2 Z2]|(x & y & u & v & Ui & Uj & C & D & _)].
      2: { exfalso. destruct (Z1 (fun _ _ _ _ => 1)) as [Q _]. specialize (C (fun _ _ _ _ => 1)). unfold at_game in Q, C. rewrite Q in C. lra. }
      destruct (play_gap a k rs us i j LOSS L) as [[E3 Z3]|(x & y & u & v & Ui & Uj & C & D & _)].
      2: { exfalso. destruct (Z1 (fun _ _ _ _ => 1)) as [Q _]. specialize (C (fun _ _ _ _ => 1)). unfold at_game in Q, C. rewrite Q in C. lra. }
      destruct (Z1 (dev a us)) as [-> _]. destruct (Z2 (dev a us)) as [-> _]. destruct (Z3 (dev a us)) as [-> _]. rewrite E1 in I1. rewrite E2 in I2. rewrite E3 in I3.
      set (G := gap2 rs us) in *. set (B := n * INR (length ps)) in *.
      replace (m * (c1 * (0 + M1) + c2 * (0 + M2) + c3 * (0 + M3))) with (c1 * (m * M1) + c2 * (m * M2) + c3 * (m * M3)) by ring.
      apply Rle_trans with ((c1 + c2 + c3) * (G + B)); [lra|]. rewrite S1. unfold B. lra.
    + assert (Q1 : forall o, play_gap a k rs us i j o L = play_gap a k rs us i j o L) by auto. clear Q1.
      assert (A : forall o, at_game (dev a us) rs (i, j, o) = (lgE a x y - lgE a u v) ^ 2 /\ gap2 (play (gu a k) rs (i, j, o)) us = gap2 rs us + 2 * (k * (points o - lgE a x y)) * ((x - y) - (u - v)) + 2 * (k * (points o - lgE a x y)) ^ 2).
      { intros o. destruct (play_gap a k rs us i j o L) as [[_ Z]|(x' & y' & u' & v' & Ui' & Uj' & C & _ & E)].
        - exfalso. destruct (Z (fun _ _ _ _ => 1)) as [Q _]. specialize (C1 (fun _ _ _ _ => 1)). unfold at_game in Q, C1. rewrite Q in C1. lra.
        - assert (x' = x). { specialize (C (fun _ x _ _ => x)). specialize (C1 (fun _ x _ _ => x)). unfold at_game in C, C1. congruence. }
          assert (y' = y). { specialize (C (fun _ _ y _ => y)). specialize (C1 (fun _ _ y _ => y)). unfold at_game in C, C1. congruence. }
          assert (u' = u) by congruence. assert (v' = v) by congruence. subst x' y' u' v'. split; [|exact E]. rewrite C. unfold dev. cbn [fst snd].
          now rewrite (nth_error_nth us i 0 Ui), (nth_error_nth us j 0 Uj). }
      destruct (A WIN) as [A1 G1]. destruct (A DRAW) as [A2 G2]. destruct (A LOSS) as [A3 G3]. rewrite A1, A2, A3. rewrite G1 in I1. rewrite G2 in I2. rewrite G3 in I3.
      rewrite (nth_error_nth us i 0 Ui), (nth_error_nth us j 0 Uj) in SE. pose proof (sg_range ((u - v) * a)) as PT. fold (lgE a u v) in PT.
      pose proof (sg_coco ((x - y) * a) ((u - v) * a)) as CC. fold (lgE a x y) (lgE a u v) in CC.
      set (p := lgE a x y) in *. set (q := lgE a u v) in *. set (G := gap2 rs us) in *. set (T := x - y - (u - v)) in *. cbn [points] in I1, I2, I3.
      assert (CD : 4 / a * (p - q) ^ 2 <= (p - q) * T). { apply Rmult_le_reg_l with a; [auto|]. replace (a * (4 / a * (p - q) ^ 2)) with (4 * (p - q) ^ 2) by (field; lra). replace (a * ((p - q) * T)) with ((p - q) * ((x - y) * a - (u - v) * a)) by (unfold T; ring). exact CC. }
      set (B := n * INR (length ps)) in *. set (d := p - q) in *.
      assert (V : c1 * (1 - p) ^ 2 + c2 * (1 / 2 - p) ^ 2 + c3 * (0 - p) ^ 2 <= / 4 + d ^ 2).
      { replace c1 with (q - c2 / 2) by lra. replace c3 with (1 - q - c2 / 2) by lra. unfold d.
        replace ((q - c2 / 2) * (1 - p) ^ 2 + c2 * (1 / 2 - p) ^ 2 + (1 - q - c2 / 2) * (0 - p) ^ 2) with (q * (1 - q) + (p - q) ^ 2 - c2 / 4) by field.
        pose proof (pow2_ge_0 (q - 1 / 2)). replace (q * (1 - q)) with (/ 4 - (q - 1 / 2) ^ 2) by field. lra. }
      assert (LIN : c1 * (1 - p) + c2 * (1 / 2 - p) + c3 * (0 - p) = - d) by (unfold d; replace c1 with (q - c2 / 2) by lra; replace c3 with (1 - q - c2 / 2) by lra; field).
      replace (m * (c1 * (d ^ 2 + M1) + c2 * (d ^ 2 + M2) + c3 * (d ^ 2 + M3))) with (m * d ^ 2 * (c1 + c2 + c3) + (c1 * (m * M1) + c2 * (m * M2) + c3 * (m * M3))) by ring. rewrite S1.
      apply Rle_trans with (m * d ^ 2 + ((c1 + c2 + c3) * (G + B) + 2 * k * T * (c1 * (1 - p) + c2 * (1 / 2 - p) + c3 * (0 - p)) + 2 * k ^ 2 * (c1 * (1 - p) ^ 2 + c2 * (1 / 2 - p) ^ 2 + c3 * (0 - p) ^ 2))); [lra|].
      rewrite S1, LIN. apply (Rmult_le_compat_l (2 * k ^ 2)) in V; [|lra]. apply (Rmult_le_compat_l (2 * k)) in CD; [|lra].
      replace (2 * k * (4 / a * d ^ 2)) with (8 * k / a * d ^ 2) in CD by (field; lra). unfold m, B, n. lra.
Qed.

(** ** Back to the library's functions *)
Lemma play_map {X Y} (h : X -> Y) (f : Y -> Y -> Outcomes -> Y * Y) (fr : X -> X -> Outcomes -> X * X) rs g :
  (forall x y o, f (h x) (h y) o = (h (fst (fr x y o)), h (snd (fr x y o)))) -> play f (map h rs) g = map h (play fr rs g).
Proof.
  intros H. destruct g as [[i j] x]. unfold play. destruct (Nat.eqb i j); auto. rewrite !nth_error_map.
  destruct (nth_error rs i) as [p|], (nth_error rs j) as [q|]; cbn [option_map]; auto. rewrite H. cbn [fst snd]. now rewrite <- !(put_map h).
Qed.
Lemma at_game_map {X Y} (h : X -> Y) (c : nat * nat -> Y -> Y -> Outcomes -> R) (cr : nat * nat -> X -> X -> Outcomes -> R) rs g :
  (forall ij x y o, c ij (h x) (h y) o = cr ij x y o) -> at_game c (map h rs) g = at_game cr rs g.
Proof. intros H. destruct g as [[i j] x]. unfold at_game. destruct (Nat.eqb i j); auto. rewrite !nth_error_map. destruct (nth_error rs i) as [p|], (nth_error rs j) as [q|]; cbn [option_map]; auto. Qed.
Lemma season_cost_map {X Y} (h : X -> Y) (f : Y -> Y -> Outcomes -> Y * Y) (fr : X -> X -> Outcomes -> X * X) c cr rs gs :
  (forall x y o, f (h x) (h y) o = (h (fst (fr x y o)), h (snd (fr x y o)))) -> (forall ij x y o, c ij (h x) (h y) o = cr ij x y o) ->
  season_cost f c (map h rs) gs = season_cost fr cr rs gs.
Proof. intros H1 H2. revert rs. induction gs as [|g gs IH]; intros rs; cbn [season_cost]; auto. rewrite (at_game_map h c cr) by auto. rewrite (play_map h f fr) by auto. now rewrite IH. Qed.
Lemma mean_cost_map {X Y} (h : X -> Y) (f : Y -> Y -> Outcomes -> Y * Y) (fr : X -> X -> Outcomes -> X * X) c cr ch rs ps :
  (forall x y o, f (h x) (h y) o = (h (fst (fr x y o)), h (snd (fr x y o)))) -> (forall ij x y o, c ij (h x) (h y) o = cr ij x y o) ->
  mean_cost f c ch (map h rs) ps = mean_cost fr cr ch rs ps.
Proof. intros H1 H2. revert rs. induction ps as [|g ps IH]; intros rs; cbn [mean_cost]; auto. rewrite !(at_game_map h c cr) by auto. rewrite !(play_map h f fr) by auto. now rewrite !IH. Qed.
Lemma elo_lg x y : elo_E x y = lgE (ln 10 / 400) x y.
Proof. rewrite elo_E_sg. unfold lgE. f_equal. field. Qed.
Lemma fifa_lg x y : fifa_We x y = lgE (ln 10 / 600) x y.
Proof.
  unfold fifa_We, lgE, sg, Rpower. replace (- (x - y) / 600 * ln 10) with (- ((x - y) * (ln 10 / 600))) by field. pose proof (exp_pos (- ((x - y) * (ln 10 / 600)))). field. lra.
Qed.
Lemma elo_gu k x y o : elo (mkElo (Fin x)) (mkElo (Fin y)) o (mkEloConfig (Fin k)) = (mkElo (Fin (fst (gu (ln 10 / 400) k x y o))), mkElo (Fin (snd (gu (ln 10 / 400) k x y o)))).
Proof. rewrite elo_eval. unfold elo_upd, gu. rewrite (elo_E_swap x y), elo_lg, points_invert. cbn [fst snd]. do 3 f_equal; ring. Qed.
Lemma fifa_gu k x y o : fifa (mkFifa (Fin x)) (mkFifa (Fin y)) o (mkFifaConfig (Fin k) false false) = (mkFifa (Fin (fst (gu (ln 10 / 600) k x y o))), mkFifa (Fin (snd (gu (ln 10 / 600) k x y o)))).
Proof. rewrite fifa_eval. unfold fifa_upd, gu, ko_max, code_W1, code_W2. rewrite (fifa_We_swap x y), fifa_lg, points_invert. cbn [fst snd]. do 3 f_equal; ring. Qed.
Lemma ln10_pos : 0 < ln 10.
Proof. rewrite <- ln_1. apply ln_increasing; lra. Qed.

Lemma C125_elo_proof : forall rs us gs k, 0 < k -> length rs = length us ->
  let loss l := fun _ p q o => l (num (fst (elo_expected_score p q))) (points o) in
  let run := fun p q o => elo p q o (mkEloConfig (Fin k)) in
  let players := map (fun r => mkElo (Fin r)) in
  season_cost run (loss log_loss) (players rs) gs <= season_cost fixed (loss log_loss) (players us) gs + ln 10 / 400 * (gap2 rs us / (2 * k) + k * season_cost run (loss square_loss) (players rs) gs) /\
  season_cost run (loss square_loss) (players rs) gs <= INR (length gs).
Proof.
  intros rs us gs k Hk L loss run players. unfold players. assert (HC : forall l ij x y o, loss l ij (mkElo (Fin x)) (mkElo (Fin y)) o = l (lgE (ln 10 / 400) x y) (points o)). { intros. unfold loss. rewrite elo_expected_eval. cbn [fst num]. now rewrite elo_lg. }
  rewrite (season_cost_map (fun r => mkElo (Fin r)) run (gu (ln 10 / 400) k) (loss log_loss) (lossc (ln 10 / 400)) rs gs (elo_gu k) (HC log_loss)).
  rewrite (season_cost_map (fun r => mkElo (Fin r)) run (gu (ln 10 / 400) k) (loss square_loss) (sqc (ln 10 / 400)) rs gs (elo_gu k) (HC square_loss)).
  rewrite (season_cost_map (fun r => mkElo (Fin r)) fixed fixed (loss log_loss) (lossc (ln 10 / 400)) us gs (fun _ _ _ => eq_refl) (HC log_loss)).
  pose proof ln10_pos. split; [apply regret_core; auto; lra|apply sq_le_n].
Qed.
Lemma C125_fifa_proof : forall rs us gs i, 0 < i -> length rs = length us ->
  let loss l := fun _ p q o => l (num (fst (fifa_expected_score p q))) (points o) in
  let run := fun p q o => fifa p q o (mkFifaConfig (Fin i) false false) in
  let teams := map (fun r => mkFifa (Fin r)) in
  season_cost run (loss log_loss) (teams rs) gs <= season_cost fixed (loss log_loss) (teams us) gs + ln 10 / 600 * (gap2 rs us / (2 * i) + i * season_cost run (loss square_loss) (teams rs) gs) /\
  season_cost run (loss square_loss) (teams rs) gs <= INR (length gs).
Proof.
  intros rs us gs k Hk L loss run teams. unfold teams. assert (HC : forall l ij x y o, loss l ij (mkFifa (Fin x)) (mkFifa (Fin y)) o = l (lgE (ln 10 / 600) x y) (points o)). { intros. unfold loss. rewrite fifa_expected_eval. cbn [fst num]. now rewrite fifa_lg. }
  rewrite (season_cost_map (fun r => mkFifa (Fin r)) run (gu (ln 10 / 600) k) (loss log_loss) (lossc (ln 10 / 600)) rs gs (fifa_gu k) (HC log_loss)).
  rewrite (season_cost_map (fun r => mkFifa (Fin r)) run (gu (ln 10 / 600) k) (loss square_loss) (sqc (ln 10 / 600)) rs gs (fifa_gu k) (HC square_loss)).
  rewrite (season_cost_map (fun r => mkFifa (Fin r)) fixed fixed (loss log_loss) (lossc (ln 10 / 600)) us gs (fun _ _ _ => eq_refl) (HC log_loss)).
  pose proof ln10_pos. split; [apply regret_core; auto; lra|apply sq_le_n].
Qed.
Lemma follows_ext E E' us ch : (forall x y, E x y = E' x y) -> follows E us ch -> follows E' us ch.
Proof. intros H F i j. rewrite <- H. apply F. Qed.
Lemma C125_elo_mean_proof : forall rs us ch ps k, 0 < k -> length rs = length us -> follows elo_E us ch ->
  (3200 / ln 10 - 2 * k) * mean_cost (fun p q o => elo p q o (mkEloConfig (Fin k))) (fun ij p q _ => (num (fst (elo_expected_score p q)) - elo_E (nth (fst ij) us 0) (nth (snd ij) us 0)) ^ 2) ch (map (fun r => mkElo (Fin r)) rs) ps <= gap2 rs us / k + k / 2 * INR (length ps).
Proof.
  intros rs us ch ps k Hk L F. pose proof ln10_pos. rewrite (mean_cost_map (fun r => mkElo (Fin r)) _ (gu (ln 10 / 400) k) _ (dev (ln 10 / 400) us)).
  - replace (3200 / ln 10) with (8 / (ln 10 / 400)) by (field; lra). apply mean_core; [lra|auto|auto|]. apply (follows_ext elo_E); auto using elo_lg.
  - intros. apply elo_gu.
  - intros. rewrite elo_expected_eval. cbn [fst num]. unfold dev. now rewrite !elo_lg.
Qed.
Lemma C125_fifa_mean_proof : forall rs us ch ps i, 0 < i -> length rs = length us -> follows fifa_We us ch ->
  (4800 / ln 10 - 2 * i) * mean_cost (fun p q o => fifa p q o (mkFifaConfig (Fin i) false false)) (fun ij p q _ => (num (fst (fifa_expected_score p q)) - fifa_We (nth (fst ij) us 0) (nth (snd ij) us 0)) ^ 2) ch (map (fun r => mkFifa (Fin r)) rs) ps <= gap2 rs us / i + i / 2 * INR (length ps).
Proof.
  intros rs us ch ps k Hk L F. pose proof ln10_pos. rewrite (mean_cost_map (fun r => mkFifa (Fin r)) _ (gu (ln 10 / 600) k) _ (dev (ln 10 / 600) us)).
  - replace (4800 / ln 10) with (8 / (ln 10 / 600)) by (field; lra). apply mean_core; [lra|auto|auto|]. apply (follows_ext fifa_We); auto using fifa_lg.
  - intros. apply fifa_gu.
  - intros. rewrite fifa_expected_eval. cbn [fst num]. unfold dev. now rewrite !fifa_lg.
Qed.

(** ** One player and a list of opponents *)
Lemma period_cost_snoc {X Y} (rate : list Y -> X) cost gs g : period_cost rate cost (gs ++ [g]) = period_cost rate cost gs + cost (rate gs) g.
Proof.
  unfold period_cost. rewrite app_length. cbn [length]. rewrite Nat.add_1_r, seq_S, Nat.add_0_l, map_app, Rsum_app. cbn [map]. rewrite Rsum_cons, Rsum_nil, Rplus_0_r. f_equal.
  - f_equal. apply map_ext_in. intros n Hn. apply in_seq in Hn. rewrite nth_error_app1 by lia. rewrite firstn_app. replace (n - length gs)%nat with 0%nat by lia. now rewrite firstn_O, app_nil_r.
  - rewrite nth_error_app2, Nat.sub_diag by lia. cbn [nth_error]. now rewrite firstn_app, Nat.sub_diag, firstn_O, app_nil_r, firstn_all.
Qed.
Lemma C125_period_proof : forall r u games k, 0 < k ->
  let gs := map (fun '(ro, o) => (mkElo (Fin ro), o)) games in
  let loss p (g : EloRating XR * Outcomes) := log_loss (num (fst (elo_expected_score p (fst g)))) (points (snd g)) in
  period_cost (fun before => elo_rating_period (mkElo (Fin r)) before (mkEloConfig (Fin k))) loss gs <= Rsum (map (loss (mkElo (Fin u))) gs) + ln 10 / 400 * ((r - u) ^ 2 / (2 * k) + k / 2 * INR (length games)).
Proof.
  intros r u games k Hk gs loss. pose proof ln10_pos as L10. set (a := ln 10 / 400). assert (Ha : 0 < a) by (unfold a; lra).
  cut (exists x, elo_rating_period (mkElo (Fin r)) gs (mkEloConfig (Fin k)) = mkElo (Fin x) /\
    period_cost (fun before => elo_rating_period (mkElo (Fin r)) before (mkEloConfig (Fin k))) loss gs <= Rsum (map (loss (mkElo (Fin u))) gs) + a * (((r - u) ^ 2 - (x - u) ^ 2) / (2 * k) + k / 2 * INR (length games))).
  { intros (x & _ & H). eapply Rle_trans; [exact H|]. apply Rplus_le_compat_l, Rmult_le_compat_l; [lra|]. apply Rplus_le_compat_r. apply Rmult_le_compat_r; [apply Rlt_le, Rinv_0_lt_compat; lra|]. pose proof (pow2_ge_0 (x - u)). lra. }
  unfold gs. clear gs. induction games as [|[ro o] games IH] using rev_ind.
  - exists r. split; [reflexivity|]. cbn. replace ((r - u) * ((r - u) * 1) - (r - u) * ((r - u) * 1)) with 0 by ring. unfold Rdiv. rewrite Rmult_0_l. lra.
  - destruct IH as (x & EX & B). rewrite map_app. cbn [map]. set (hs := map _ games) in *.
    assert (EP : elo_rating_period (mkElo (Fin r)) (hs ++ [(mkElo (Fin ro), o)]) (mkEloConfig (Fin k)) = mkElo (Fin (fst (gu a k x ro o)))).
    { pose proof EX as EX'. rewrite elo_period_fold in EX'. rewrite elo_period_fold, fold_left_app, EX'. cbn [fold_left fst snd]. rewrite elo_gu. reflexivity. }
    exists (fst (gu a k x ro o)). split; [exact EP|]. rewrite period_cost_snoc, EX, map_app, Rsum_app. cbn [map]. rewrite Rsum_cons, Rsum_nil, Rplus_0_r, app_length. cbn [length]. rewrite Nat.add_1_r, S_INR.
    assert (EL : forall z, loss (mkElo (Fin z)) (mkElo (Fin ro), o) = log_loss (lgE a z ro) (points o)). { intros. unfold loss. cbn [fst snd]. rewrite elo_expected_eval. cbn [fst num]. now rewrite elo_lg. }
    rewrite !EL. pose proof (ll_convex ((x - ro) * a) ((u - ro) * a) (points o)) as CV. fold (lgE a x ro) (lgE a u ro) in CV. unfold gu. cbn [fst]. pose proof (sg_range ((x - ro) * a)) as P. fold (lgE a x ro) in P.
    set (p := lgE a x ro) in *. set (S1 := period_cost _ _ _) in *. set (S2 := Rsum _) in *. set (n := INR (length games)) in *.
    assert (SQ : (points o - p) ^ 2 <= 1). { rewrite <- (pow1 2). apply pow_maj_Rabs. apply Rabs_le. destruct o; cbn; lra. }
    apply (Rmult_le_compat_l (a * k / 2)) in SQ; [|apply Rmult_le_pos; [apply Rmult_le_pos; lra|lra]].
    assert (EQ : a * (((r - u) ^ 2 - (x + k * (points o - p) - u) ^ 2) / (2 * k) + k / 2 * (n + 1)) = a * (((r - u) ^ 2 - (x - u) ^ 2) / (2 * k) + k / 2 * n) + (p - points o) * ((x - ro) * a - (u - ro) * a) + a * k / 2 * 1 - a * k / 2 * (points o - p) ^ 2) by (field; lra).
    rewrite EQ. lra.
Qed.
