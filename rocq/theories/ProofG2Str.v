(** Proofs for C94 (Glicko-2): a result against a stronger opponent is worth more. *)
From Coq Require Import ZArith List Bool Reals Lra Lia.
From Verif Require Import Arith XR ModelLib ModelElo ModelGlicko ModelGlicko2 Spec MathGlicko2 ProofGlicko2 ProofG2Res.
Import Spec ListNotations.
Local Open Scope R_scope.

(** ** Zeros of Glickman's function *)
Lemma le_zero S D a T x z : 0 < D -> 0 < T -> - D <= S -> 2 * S * T < 27 * D -> 0 <= hf S D a T x -> hf S D a T z = 0 -> x <= z.
Proof.
  intros HD HT HS Hc Hx Hz.
  assert (Hm : 0 < hm S D T).
  { unfold hm, Rmax. destruct (Rle_dec S 0) as [h|h]; [rewrite Rmult_0_r; unfold Rdiv; rewrite Rmult_0_l, Rminus_0_r; now apply Rinv_0_lt_compat|].
    enough (2 * S / (27 * D) < / T) by lra. apply Rmult_lt_reg_r with (27 * D * T); [nra|].
    replace (2 * S / (27 * D) * (27 * D * T)) with (2 * S * T) by (field; lra).
    replace (/ T * (27 * D * T)) with (27 * D) by (field; lra). auto. }
  destruct (Rle_dec x z) as [|h]; auto. exfalso.
  pose proof (hf_slope S D a T HD HT ltac:(lra) z x ltac:(lra)) as [Hsl _].
  assert (0 < hm S D T * (x - z)) by (apply Rmult_lt_0_compat; lra). lra.
Qed.
Lemma le_zero_q S D a T x z c : 0 < D -> 0 < T -> - D <= S <= 0 -> 0 <= c -> - c <= hf S D a T x -> hf S D a T z = 0 -> x <= z + T * c.
Proof.
  intros HD HT HS Hc Hx Hz. destruct (Rle_dec x z) as [h|h]; [nra|].
  pose proof (hf_slope S D a T HD HT ltac:(lra) z x ltac:(lra)) as [Hsl _]. unfold hm in Hsl. rewrite Rmax_right in Hsl by lra.
  replace ((/ T - 2 * 0 / (27 * D)) * (x - z)) with ((x - z) / T) in Hsl by (field; lra).
  assert (Q : (x - z) / T <= c) by lra. apply (Rmult_le_compat_r T) in Q; [|lra]. replace ((x - z) / T * T) with (x - z) in Q by (field; lra). lra.
Qed.
Lemma zero_exists S D a T : 0 < D -> 0 < T -> - D <= S <= 0 -> exists z, hf S D a T z = 0.
Proof.
  intros HD HT HS. assert (H1 : hf S D a T a < 0) by (apply hf_at_a; auto; pose proof (exp_pos a); lra).
  pose proof (hf_left S D a T (a - T / 2) HD ltac:(lra) HT) as H2. replace ((a - (a - T / 2)) / T) with (1 / 2) in H2 by (field; lra).
  destruct (hf_root S D a T (a - T / 2) a HD HT) as (z & Hz & _); [nra|]. eauto.
Qed.

Section One.
  Variables g P a T : R.
  Hypothesis Hg : 0 < g.
  Hypothesis HP : 0 <= P.
  Hypothesis HT : 0 < T.
  Definition vv e := / (g ^ 2 * e * (1 - e)).
  Definition Fm m e := hf ((vv e * (g * m)) ^ 2 - P - vv e) (P + vv e) a T.
  Definition Hm m e X := (g * m / (1 + (P + X) * g ^ 2 * e * (1 - e))) ^ 2 - g ^ 2 * e * (1 - e) / (1 + (P + X) * g ^ 2 * e * (1 - e)).

  Lemma vv_pos e : 0 < e < 1 -> 0 < vv e.
  Proof using Hg.
    intros He. apply Rinv_0_lt_compat. assert (0 < e * (1 - e)) by nra. rewrite Rmult_assoc. apply Rmult_lt_0_compat; auto. now apply pow_lt.
  Qed.
  Lemma Fm_eq m e x : 0 < e < 1 -> Fm m e x = exp x / 2 * Hm m e (exp x) - (x - a) / T.
  Proof using Hg HP.
    intros He. unfold Fm, hf, Hm, vv. pose proof (exp_pos x) as X. set (q := exp x) in *. f_equal.
    assert (Q0 : 0 < e * (1 - e)) by nra. assert (G : 0 < g ^ 2) by now apply pow_lt. assert (Q : 0 < g ^ 2 * (e * (1 - e))) by now apply Rmult_lt_0_compat.
    assert (0 <= (P + q) * (g ^ 2 * (e * (1 - e)))) by (apply Rmult_le_pos; lra).
    field. repeat split; try lra.
  Qed.
  Lemma Fm_mono m m' e e' x : 0 < e' <= e -> e <= 1 / 2 -> 0 <= m <= m' -> Fm m e x <= Fm m' e' x.
  Proof using Hg HP.
    intros He He2 Hmm. rewrite !Fm_eq by lra. pose proof (exp_pos x) as X. set (q := exp x) in *.
    apply Rplus_le_compat_r, Rmult_le_compat_l; [lra|]. unfold Hm.
    assert (G : 0 < g ^ 2) by now apply pow_lt.
    assert (Q : 0 < e' * (1 - e') <= e * (1 - e)) by (split; nra).
    set (B := P + q) in *. assert (HB : 0 < B) by (unfold B; lra).
    set (k := g ^ 2 * e * (1 - e)). set (k' := g ^ 2 * e' * (1 - e')).
    assert (Hk : 0 < k' <= k) by (unfold k, k'; split; [rewrite Rmult_assoc; apply Rmult_lt_0_compat; lra|rewrite !Rmult_assoc; apply Rmult_le_compat_l; lra]).
    replace (B * g ^ 2 * e * (1 - e)) with (B * k) by (unfold k; ring). replace (B * g ^ 2 * e' * (1 - e')) with (B * k') by (unfold k'; ring).
    assert (K1 : 0 < B * k' <= B * k) by (split; [apply Rmult_lt_0_compat; lra|apply Rmult_le_compat_l; lra]).
    apply Rplus_le_compat.
    - apply pow_incr. split; [apply Rmult_le_pos; [nra|apply Rlt_le, Rinv_0_lt_compat; lra]|].
      apply Rmult_le_compat; [nra|apply Rlt_le, Rinv_0_lt_compat; lra|apply Rmult_le_compat_l; lra|apply Rinv_le_contravar; lra].
    - apply Ropp_le_contravar. replace (k' / (1 + B * k')) with ((1 - / (1 + B * k')) / B) by (field; lra). replace (k / (1 + B * k)) with ((1 - / (1 + B * k)) / B) by (field; lra).
      apply Rmult_le_compat_r; [apply Rlt_le, Rinv_0_lt_compat; lra|]. assert (/ (1 + B * k) <= / (1 + B * k')) by (apply Rinv_le_contravar; lra). lra.
  Qed.

  (** Wins of a favourite: the zero may fall, but no faster than the expected score. *)
  Lemma tanh_ln y y' : 0 < y <= y' -> (y' - y) / ((1 + y) * (1 + y')) <= ln (y' / y) / 2.
  Proof.
    intros Hy. set (s := sqrt (y' / y)). assert (R1 : 1 <= y' / y) by (apply Rmult_le_reg_r with y; [lra|]; replace (y' / y * y) with y' by (field; lra); lra).
    assert (S1 : 1 <= s) by (unfold s; rewrite <- sqrt_1; apply sqrt_le_1_alt; lra).
    assert (S2 : s ^ 2 = y' / y) by (unfold s; apply pow2_sqrt; lra).
    assert (Ey : y' = s ^ 2 * y) by (rewrite S2; field; lra). rewrite <- S2. replace (s ^ 2) with (s * s) by ring. rewrite ln_mult by lra.
    assert (L : (s - 1) / s <= ln s).
    { pose proof (exp_ineq1_le (ln (/ s))) as E. rewrite exp_ln in E by (apply Rinv_0_lt_compat; lra). rewrite ln_Rinv in E by lra. replace ((s - 1) / s) with (1 - / s) by (field; lra). lra. }
    apply Rle_trans with ((s - 1) / s); [|lra]. rewrite Ey. assert (0 < s * y) by nra.
    assert (D : 0 < (1 + y) * (1 + s ^ 2 * y)) by (apply Rmult_lt_0_compat; nra).
    apply Rmult_le_reg_r with ((1 + y) * (1 + s ^ 2 * y) * s); [apply Rmult_lt_0_compat; lra|].
    replace ((s ^ 2 * y - y) / ((1 + y) * (1 + s ^ 2 * y)) * ((1 + y) * (1 + s ^ 2 * y) * s)) with ((s - 1) * ((s + 1) * y * s)) by (field; split; nra).
    replace ((s - 1) / s * ((1 + y) * (1 + s ^ 2 * y) * s)) with ((s - 1) * ((1 + y) * (1 + s ^ 2 * y))) by (field; lra).
    apply Rmult_le_compat_l; [lra|]. nra.
  Qed.
  Lemma Fm_fav e e' x : 1 / 2 <= e' <= e -> e < 1 -> Fm (1 - e) e x - ln ((1 - e') / (1 - e)) / 2 <= Fm (1 - e') e' x.
  Proof using Hg HP.
    intros He He1. rewrite !Fm_eq by lra. pose proof (exp_pos x) as X. set (q := exp x) in *.
    set (w := 1 - e). set (w' := 1 - e'). assert (Hw : 0 < w <= w') by (unfold w, w'; lra). assert (Hw' : w' <= 1 / 2) by (unfold w'; lra).
    assert (G : 0 < g ^ 2) by now apply pow_lt. set (B := P + q) in *. assert (HB : 0 < B) by (unfold B; lra).
    set (y := B * g ^ 2 * e * w). set (y' := B * g ^ 2 * e' * w').
    assert (K0 : 0 < B * g ^ 2) by now apply Rmult_lt_0_compat.
    assert (Qy : 0 < e * w <= e' * w') by (unfold w, w'; split; nra).
    assert (Hy : 0 < y <= y') by (unfold y, y'; rewrite !(Rmult_assoc (B * g ^ 2)); split; [apply Rmult_lt_0_compat; lra|apply Rmult_le_compat_l; lra]).
    assert (Ry : y' / y <= w' / w).
    { unfold y, y'. replace (B * g ^ 2 * e' * w' / (B * g ^ 2 * e * w)) with (w' / w * (e' / e)) by (field; repeat split; lra).
      rewrite <- (Rmult_1_r (w' / w)) at 2. apply Rmult_le_compat_l; [apply Rlt_le, Rdiv_lt_0_compat; lra|]. apply Rmult_le_reg_r with e; [lra|]. replace (e' / e * e) with e' by (field; lra). lra. }
    assert (E1 : Hm w e q = - ((y / (1 + y) - w / e * (y / (1 + y) ^ 2)) / B)).
    { unfold Hm. fold B w. fold y. replace (g ^ 2 * e * w) with (y / B) by (unfold y; field; lra). assert (Y1 : w / e * y = B * (g * w) ^ 2) by (unfold y; field; lra). clearbody y. replace (w / e * (y / (1 + y) ^ 2)) with ((w / e * y) / (1 + y) ^ 2) by (field; lra). rewrite Y1. field. lra. }
    assert (E2 : Hm w' e' q = - ((y' / (1 + y') - w' / e' * (y' / (1 + y') ^ 2)) / B)).
    { unfold Hm. fold B w'. fold y'. replace (g ^ 2 * e' * w') with (y' / B) by (unfold y'; field; lra). assert (Y1 : w' / e' * y' = B * (g * w') ^ 2) by (unfold y'; field; lra). clearbody y'. replace (w' / e' * (y' / (1 + y') ^ 2)) with ((w' / e' * y') / (1 + y') ^ 2) by (field; lra). rewrite Y1. field. lra. }
    rewrite E1, E2.
    pose proof (tanh_ln y y' Hy) as TL.
    assert (LL : ln (y' / y) <= ln (w' / w)). { destruct Ry as [Ry|Ry]; [apply Rlt_le, ln_increasing; auto; apply Rdiv_lt_0_compat; lra|rewrite Ry; lra]. }
    set (d := (y' - y) / ((1 + y) * (1 + y'))) in *.
    assert (D0 : 0 <= d) by (unfold d; apply Rmult_le_pos; [lra|apply Rlt_le, Rinv_0_lt_compat; apply Rmult_lt_0_compat; lra]).
    assert (A1 : y' / (1 + y') - y / (1 + y) = d) by (unfold d; field; lra).
    assert (k0 : 0 < w / e <= w' / e'). { split; [apply Rdiv_lt_0_compat; unfold w; lra|]. unfold Rdiv. apply Rmult_le_compat; try lra. apply Rlt_le, Rinv_0_lt_compat; lra. apply Rinv_le_contravar; lra. }
    assert (k1 : w / e <= 1) by (apply Rmult_le_reg_r with e; [lra|]; replace (w / e * e) with w by (field; lra); unfold w; lra).
    assert (b0 : 0 < y / (1 + y) ^ 2 /\ 0 < y' / (1 + y') ^ 2) by (split; apply Rdiv_lt_0_compat; try lra; apply pow_lt; lra).
    assert (A2 : y / (1 + y) ^ 2 - y' / (1 + y') ^ 2 <= d).
    { replace (y / (1 + y) ^ 2 - y' / (1 + y') ^ 2) with (d * ((y * y' - 1) / ((1 + y) * (1 + y')))) by (unfold d; field; lra).
      rewrite <- (Rmult_1_r d) at 2. apply Rmult_le_compat_l; auto. assert (0 < (1 + y) * (1 + y')) by (apply Rmult_lt_0_compat; lra).
      apply Rmult_le_reg_r with ((1 + y) * (1 + y')); auto. replace ((y * y' - 1) / ((1 + y) * (1 + y')) * ((1 + y) * (1 + y'))) with (y * y' - 1) by (field; lra). nra. }
    set (b := y / (1 + y) ^ 2) in *. set (b' := y' / (1 + y') ^ 2) in *. set (k := w / e) in *. set (k' := w' / e') in *.
    assert (A3 : k * b - k' * b' <= d).
    { apply Rle_trans with (k * (b - b')); [assert (k * b' <= k' * b') by (apply Rmult_le_compat_r; lra); lra|].
      destruct (Rle_dec 0 (b - b')) as [h|h]; [|nra]. apply Rle_trans with (1 * (b - b')); [apply Rmult_le_compat_r; lra|lra]. }
    set (u := y / (1 + y)) in *. set (u' := y' / (1 + y')) in *. set (L := ln (w' / w)) in *.
    assert (D1 : (u' - k' * b') - (u - k * b) <= L) by lra.
    assert (L0 : 0 <= L). { unfold L. rewrite <- ln_1. destruct (Req_dec 1 (w' / w)) as [<-|n]; [lra|]. apply Rlt_le, ln_increasing; [lra|]. enough (1 <= w' / w) by lra. apply Rmult_le_reg_r with w; [lra|]. replace (w' / w * w) with w' by (field; lra). lra. }
    set (Z := u - k * b) in *. set (Z' := u' - k' * b') in *.
    enough (q / 2 * (Z' / B) - q / 2 * (Z / B) <= L / 2) by lra.
    replace (q / 2 * (Z' / B) - q / 2 * (Z / B)) with (q / B * ((Z' - Z) / 2)) by (field; lra).
    assert (QB : 0 <= q / B <= 1). { split; [apply Rlt_le, Rdiv_lt_0_compat; lra|]. apply Rmult_le_reg_r with B; [lra|]. replace (q / B * B) with q by (field; lra). unfold B. lra. }
    destruct (Rle_dec 0 (Z' - Z)) as [h|h]; nra.
  Qed.

  (** Comparison of the zeros. *)
  Definition Sm m e := (vv e * (g * m)) ^ 2 - P - vv e.
  Lemma fav_S e : 1 / 2 <= e < 1 -> - (P + vv e) <= Sm (1 - e) e <= 0.
  Proof using Hg HP.
    intros He. pose proof (vv_pos e ltac:(lra)) as V. unfold Sm. split; [pose proof (pow2_ge_0 (vv e * (g * (1 - e)))); lra|].
    enough ((vv e * (g * (1 - e))) ^ 2 <= vv e) by lra.
    replace ((vv e * (g * (1 - e))) ^ 2) with (vv e * ((1 - e) / e)) by (unfold vv; field; repeat split; lra).
    rewrite <- (Rmult_1_r (vv e)) at 2. apply Rmult_le_compat_l; [lra|]. apply Rmult_le_reg_r with e; [lra|]. replace ((1 - e) / e * e) with (1 - e) by (field; lra). lra.
  Qed.
  Lemma mild_S m e : 0 < e < 1 -> (vv e * (g * m)) ^ 2 < (P + vv e) * (1 + 27 / (2 * T)) -> 2 * Sm m e * T < 27 * (P + vv e).
  Proof using Hg HP HT.
    intros He Hc. pose proof (vv_pos e He) as V. unfold Sm. set (D := P + vv e) in *. set (d2 := (vv e * (g * m)) ^ 2) in *.
    assert (X : D * (1 + 27 / (2 * T)) * T = D * T + 27 * D / 2) by (field; lra).
    assert (Y : d2 * T < D * (1 + 27 / (2 * T)) * T) by (apply Rmult_lt_compat_r; auto). rewrite X in Y. replace (d2 - P - vv e) with (d2 - D) by (unfold D; ring). lra.
  Qed.
  Lemma zero_draw m m' e e' z z' : 0 < e' <= e -> e <= 1 / 2 -> 0 <= m <= m' -> (vv e' * (g * m')) ^ 2 < (P + vv e') * (1 + 27 / (2 * T)) ->
    Fm m e z = 0 -> Fm m' e' z' = 0 -> z <= z'.
  Proof using Hg HP HT.
    intros He He2 Hmm Hc Z Z'. pose proof (Fm_mono m m' e e' z He He2 Hmm) as H. rewrite Z in H. pose proof (vv_pos e' ltac:(lra)) as V.
    apply (le_zero (Sm m' e') (P + vv e') a T); auto; [lra|unfold Sm; pose proof (pow2_ge_0 (vv e' * (g * m'))); lra|apply mild_S; auto; lra].
  Qed.
  Lemma zero_win e e' z z' : 0 < e' <= e -> e < 1 -> T <= 2 -> (vv e' * (g * (1 - e'))) ^ 2 < (P + vv e') * (1 + 27 / (2 * T)) ->
    Fm (1 - e) e z = 0 -> Fm (1 - e') e' z' = 0 -> z <= z' + ln ((1 - e') / (1 - e)).
  Proof using Hg HP HT.
    intros He He1 HT2 Hc Z Z'.
    assert (LN : forall x y, 0 < x <= y -> 0 <= ln (y / x)).
    { intros x y H. rewrite <- ln_1. destruct (Req_dec 1 (y / x)) as [<-|n]; [lra|]. apply Rlt_le, ln_increasing; [lra|]. enough (1 <= y / x) by lra. apply Rmult_le_reg_r with x; [lra|]. replace (y / x * x) with y by (field; lra). lra. }
    assert (Fav : forall f f' y y', 1 / 2 <= f' <= f -> f < 1 -> Fm (1 - f) f y = 0 -> Fm (1 - f') f' y' = 0 -> y <= y' + ln ((1 - f') / (1 - f))).
    { intros f f' y y' Hf Hf1 Y Y'. pose proof (Fm_fav f f' y Hf Hf1) as H. rewrite Y in H. pose proof (LN (1 - f) (1 - f') ltac:(lra)) as L0. set (L := ln ((1 - f') / (1 - f))) in *.
      pose proof (vv_pos f' ltac:(lra)) as V.
      pose proof (le_zero_q (Sm (1 - f') f') (P + vv f') a T y y' (L / 2) ltac:(lra) HT (fav_S f' ltac:(lra)) ltac:(lra) ltac:(unfold Fm in H; fold (Sm (1 - f') f') in H; lra) Y'). nra. }
    destruct (Rle_dec e (1 / 2)) as [h|h].
    - pose proof (zero_draw (1 - e) (1 - e') e e' z z' He h ltac:(lra) Hc Z Z'). pose proof (LN (1 - e) (1 - e') ltac:(lra)). lra.
    - destruct (Rle_dec (1 / 2) e') as [h'|h']; [apply (Fav e e' z z'); auto; lra|].
      pose proof (vv_pos (1 / 2) ltac:(lra)) as V.
      destruct (zero_exists (Sm (1 - 1 / 2) (1 / 2)) (P + vv (1 / 2)) a T ltac:(lra) HT (fav_S (1 / 2) ltac:(lra))) as (y & Y).
      pose proof (Fav e (1 / 2) z y ltac:(lra) He1 Z Y) as A1. pose proof (zero_draw (1 - 1 / 2) (1 - e') (1 / 2) e' y z' ltac:(lra) ltac:(lra) ltac:(lra) Hc Y Z') as A2.
      pose proof (LN (1 - 1 / 2) (1 - e') ltac:(lra)) as A3. 
      assert (A4 : ln ((1 - e') / (1 - e)) = ln ((1 - 1 / 2) / (1 - e)) + ln ((1 - e') / (1 - 1 / 2))).
      { rewrite <- ln_mult by (apply Rdiv_lt_0_compat; lra). f_equal. field. lra. }
      lra.
  Qed.
End One.

(** ** Gains *)
Lemma solves_sq d d' phi v s t tol x : d ^ 2 = d' ^ 2 -> g2_solves d phi v s t tol x -> g2_solves d' phi v s t tol x.
Proof. intros E (H1 & z & Z & B). split; auto. exists z. split; auto. rewrite g2f_hf in *. rewrite <- E. exact Z. Qed.

Section Gain.
  Variables g phi s t tol : R.
  Hypothesis Hg : 0 < g.
  Hypothesis Hs : 0 < s.
  Hypothesis Ht : 0 < t.
  Hypothesis Htol : 0 <= tol.
  Let K := exp (2 * tol).
  Let ph e x := g2_phi' phi x (vv g e) ^ 2.

  Lemma HP0 : 0 <= phi ^ 2. Proof. apply pow2_ge_0. Qed.
  Lemma HT0 : 0 < t ^ 2. Proof using Ht. now apply pow_lt. Qed.
  Lemma HK0 : 1 <= K. Proof using Htol. pose proof (exp_ineq1_le (2 * tol)). unfold K. lra. Qed.
  Lemma solve_F m e x : g2_solves (vv g e * (g * m)) phi (vv g e) s t tol x ->
    0 < x /\ exists z, Fm g (phi ^ 2) (ln (s ^ 2)) (t ^ 2) m e z = 0 /\ ln (x ^ 2) <= z + tol /\ z - tol <= ln (x ^ 2).
  Proof.
    intros (Hx & z & Z & B). split; auto. exists z. rewrite g2f_hf in Z. split; [exact Z|].
    assert (ln (x ^ 2) - z <= tol) by (eapply Rle_trans; [apply Rle_abs|exact B]).
    assert (z - ln (x ^ 2) <= tol) by (eapply Rle_trans; [apply Rle_abs|rewrite Rabs_minus_sym; exact B]). lra.
  Qed.
  Lemma exp_le' x y : x <= y -> exp x <= exp y.
  Proof. intros [H| ->]; [apply Rlt_le, exp_increasing; auto|lra]. Qed.
  Lemma vol_ratio x x' c : 0 < x -> 0 < x' -> 0 < c -> ln (x ^ 2) <= ln (x' ^ 2) + 2 * tol + ln c -> x ^ 2 <= K * (c * x' ^ 2).
  Proof.
    intros H1 H2 Hc H. assert (0 < x ^ 2 /\ 0 < x' ^ 2) as [Q1 Q2] by (split; apply pow_lt; auto).
    rewrite <- (exp_ln (x ^ 2)) by auto. eapply Rle_trans; [apply exp_le'; exact H|]. rewrite !exp_plus, !exp_ln by auto. unfold K. lra.
  Qed.
  Lemma ph_eq e x : 0 < e < 1 -> 0 < x -> ph e x = / (/ (phi ^ 2 + x ^ 2) + g ^ 2 * (e * (1 - e))).
  Proof using Hg.
    intros He Hx. unfold ph. rewrite phi2_eq by (auto; now apply vv_pos). unfold vv. rewrite Rinv_inv, Rmult_assoc. reflexivity.
  Qed.
  Lemma inv_ratio x x' c : 0 < x -> 0 < x' -> 1 <= c -> x ^ 2 <= c * x' ^ 2 -> / (phi ^ 2 + x' ^ 2) <= c * / (phi ^ 2 + x ^ 2).
  Proof.
    intros H1 H2 Hc H. pose proof HP0 as P0. assert (0 < x ^ 2 /\ 0 < x' ^ 2) as [Q1 Q2] by (split; apply pow_lt; auto).
    assert (L : phi ^ 2 + x ^ 2 <= c * (phi ^ 2 + x' ^ 2)) by nra.
    apply Rmult_le_reg_r with ((phi ^ 2 + x ^ 2) * (phi ^ 2 + x' ^ 2)); [apply Rmult_lt_0_compat; lra|].
    replace (/ (phi ^ 2 + x' ^ 2) * ((phi ^ 2 + x ^ 2) * (phi ^ 2 + x' ^ 2))) with (phi ^ 2 + x ^ 2) by (field; lra).
    replace (c * / (phi ^ 2 + x ^ 2) * ((phi ^ 2 + x ^ 2) * (phi ^ 2 + x' ^ 2))) with (c * (phi ^ 2 + x' ^ 2)) by (field; lra). exact L.
  Qed.
  Lemma frac_le m m' D D' : 0 < D -> 0 < D' -> (m * D' <= m' * D -> m * / D <= m' * / D') /\ (m * D' < m' * D -> m * / D < m' * / D').
  Proof.
    intros H1 H2. assert (0 < D * D') by now apply Rmult_lt_0_compat.
    split; intros H0; [apply Rmult_le_reg_r with (D * D')|apply Rmult_lt_reg_r with (D * D')]; auto;
      replace (m * / D * (D * D')) with (m * D') by (field; lra); replace (m' * / D' * (D * D')) with (m' * D) by (field; lra); auto.
  Qed.
  Lemma inv_P x : 0 < x -> phi ^ 2 * / (phi ^ 2 + x ^ 2) <= 1.
  Proof.
    intros Hx. pose proof HP0. pose proof (pow_lt x 2 Hx). apply Rmult_le_reg_r with (phi ^ 2 + x ^ 2); [lra|].
    replace (phi ^ 2 * / (phi ^ 2 + x ^ 2) * (phi ^ 2 + x ^ 2)) with (phi ^ 2) by (field; lra). lra.
  Qed.

  Lemma win_gain e e' x x' : 0 < e' <= e -> e < 1 -> t ^ 2 <= 2 ->
    (vv g e' * (g * (1 - e'))) ^ 2 < (phi ^ 2 + vv g e') * (1 + 27 / (2 * t ^ 2)) ->
    g2_solves (vv g e * (g * (1 - e))) phi (vv g e) s t tol x -> g2_solves (vv g e' * (g * (1 - e'))) phi (vv g e') s t tol x' ->
    (1 - e) * ph e x <= K * ((1 - e') * ph e' x') /\
    (K - 1 < (e - e') * (g ^ 2 * phi ^ 2 * (1 - e)) -> (1 - e) * ph e x < (1 - e') * ph e' x').
  Proof using Hg Hs Ht Htol.
    intros He He1 Ht2 Hc S1 S2. apply solve_F in S1. apply solve_F in S2.
    destruct S1 as (X1 & z & Z & B1 & _). destruct S2 as (X2 & z' & Z' & _ & B2).
    pose proof (zero_win g (phi ^ 2) (ln (s ^ 2)) (t ^ 2) Hg HP0 HT0 e e' z z' He He1 Ht2 Hc Z Z') as L.
    assert (R0 : 1 <= (1 - e') / (1 - e)). { apply Rmult_le_reg_r with (1 - e); [lra|]. replace ((1 - e') / (1 - e) * (1 - e)) with (1 - e') by (field; lra). lra. }
    pose proof (vol_ratio x x' ((1 - e') / (1 - e)) X1 X2 ltac:(lra) ltac:(lra)) as V. rewrite <- Rmult_assoc in V. pose proof HK0 as K0.
    apply inv_ratio in V; auto; [|nra].
    rewrite !ph_eq by (auto; lra). pose proof (inv_P x X1) as IP. pose proof (pow_lt x 2 X1) as Q1. pose proof (pow_lt x' 2 X2) as Q2. pose proof HP0 as P0. pose proof (pow_lt g 2 Hg) as G0.
    assert (A0 : 0 < / (phi ^ 2 + x ^ 2)) by (apply Rinv_0_lt_compat; lra). assert (A0' : 0 < / (phi ^ 2 + x' ^ 2)) by (apply Rinv_0_lt_compat; lra).
    set (A := / (phi ^ 2 + x ^ 2)) in *. set (A' := / (phi ^ 2 + x' ^ 2)) in *. set (p := phi ^ 2) in *. set (G := g ^ 2) in *. clearbody A A' p G K.
    assert (N1 : 0 < e * (1 - e)) by nra. assert (N2 : 0 < e' * (1 - e')) by nra.
    assert (D1 : 0 < A + G * (e * (1 - e))) by (assert (0 < G * (e * (1 - e))) by (apply Rmult_lt_0_compat; auto); lra).
    assert (D2 : 0 < A' + G * (e' * (1 - e'))) by (assert (0 < G * (e' * (1 - e'))) by (apply Rmult_lt_0_compat; auto); lra).
    assert (V' : (1 - e) * A' <= K * ((1 - e') * A)).
    { apply Rle_trans with ((1 - e) * (K * ((1 - e') / (1 - e)) * A)); [apply Rmult_le_compat_l; lra|]. right. field. lra. }
    set (w := 1 - e) in *. set (w' := 1 - e') in *. assert (W : 0 < w <= w') by (unfold w, w'; lra).
    assert (M1 : 0 < w * w') by (apply Rmult_lt_0_compat; lra).
    assert (U : w * (A' + G * (e' * w')) <= K * (w' * A) + G * (w * w') * e') by lra.
    assert (M2 : 0 < G * (w * w')) by (apply Rmult_lt_0_compat; auto).
    split.
    - rewrite <- (Rmult_assoc K). apply (frac_le w (K * w') _ _ D1 D2).
      assert (M3 : G * (w * w') * e' <= G * (w * w') * e) by (apply Rmult_le_compat_l; lra).
      assert (M4 : G * (w * w') * e <= K * (G * (w * w') * e)) by (assert (0 <= G * (w * w') * e) by (apply Rmult_le_pos; lra); nra). lra.
    - intros HK. apply (frac_le w w' _ _ D1 D2). eapply Rle_lt_trans; [exact U|].
      assert (M5 : (K - 1) * A < G * w * (e - e')).
      { destruct (Rle_dec (K - 1) 0) as [h|h].
        - assert (0 < e - e' \/ e = e') as [He2|He2] by lra.
          + assert (0 < G * w * (e - e')) by (apply Rmult_lt_0_compat; [apply Rmult_lt_0_compat; lra|lra]). nra.
          + rewrite He2 in HK. lra.
        - assert (0 <= G * w * (e - e')) by (apply Rmult_le_pos; [apply Rmult_le_pos; lra|lra]).
          apply Rlt_le_trans with ((e - e') * (G * p * w) * A); [apply Rmult_lt_compat_r; auto|].
          replace ((e - e') * (G * p * w) * A) with (G * w * (e - e') * (p * A)) by ring. nra. }
      assert (M6 : w' * ((K - 1) * A) < w' * (G * w * (e - e'))) by (apply Rmult_lt_compat_l; lra). lra.
  Qed.

  Lemma draw_gain e e' x x' : 0 < e' <= e -> e <= 1 / 2 ->
    (vv g e' * (g * (1 / 2 - e'))) ^ 2 < (phi ^ 2 + vv g e') * (1 + 27 / (2 * t ^ 2)) ->
    g2_solves (vv g e * (g * (1 / 2 - e))) phi (vv g e) s t tol x -> g2_solves (vv g e' * (g * (1 / 2 - e'))) phi (vv g e') s t tol x' ->
    (1 / 2 - e) * ph e x <= K * ((1 / 2 - e') * ph e' x') /\
    (K - 1 < e - e' -> (1 / 2 - e) * ph e x < (1 / 2 - e') * ph e' x').
  Proof using Hg Hs Ht Htol.
    intros He He1 Hc S1 S2. apply solve_F in S1. apply solve_F in S2.
    destruct S1 as (X1 & z & Z & B1 & _). destruct S2 as (X2 & z' & Z' & _ & B2).
    pose proof (zero_draw g (phi ^ 2) (ln (s ^ 2)) (t ^ 2) Hg HP0 HT0 (1 / 2 - e) (1 / 2 - e') e e' z z' He He1 ltac:(lra) Hc Z Z') as L.
    pose proof (vol_ratio x x' 1 X1 X2 ltac:(lra) ltac:(rewrite ln_1; lra)) as V. rewrite Rmult_1_l in V. pose proof HK0 as K0.
    apply inv_ratio in V; auto.
    rewrite !ph_eq by (auto; lra). pose proof (pow_lt x 2 X1) as Q1. pose proof (pow_lt x' 2 X2) as Q2. pose proof HP0 as P0. pose proof (pow_lt g 2 Hg) as G0.
    assert (A0 : 0 < / (phi ^ 2 + x ^ 2)) by (apply Rinv_0_lt_compat; lra). assert (A0' : 0 < / (phi ^ 2 + x' ^ 2)) by (apply Rinv_0_lt_compat; lra).
    set (A := / (phi ^ 2 + x ^ 2)) in *. set (A' := / (phi ^ 2 + x' ^ 2)) in *. set (G := g ^ 2) in *. clearbody A A' G K.
    assert (N : 0 < e' * (1 - e') <= e * (1 - e)) by (split; nra).
    assert (k0 : 0 < G * (e' * (1 - e')) <= G * (e * (1 - e))) by (split; [apply Rmult_lt_0_compat; lra|apply Rmult_le_compat_l; lra]).
    set (k := G * (e * (1 - e))) in *. set (k' := G * (e' * (1 - e'))) in *. clearbody k k'.
    set (m := 1 / 2 - e). set (m' := 1 / 2 - e'). assert (M : 0 <= m <= m') by (unfold m, m'; lra).
    assert (U : m * (A' + k') <= m * (K * A + k)) by (apply Rmult_le_compat_l; lra).
    split.
    - rewrite <- (Rmult_assoc K). apply frac_le; try lra. eapply Rle_trans; [exact U|].
      assert (k <= K * k) by nra. assert (0 <= K * A + K * k) by nra.
      apply Rle_trans with (m * (K * A + K * k)); [apply Rmult_le_compat_l; lra|]. replace (K * m' * (A + k)) with (m' * (K * A + K * k)) by ring. apply Rmult_le_compat_r; lra.
    - intros HK. apply frac_le; try lra. eapply Rle_lt_trans; [exact U|].
      assert (m * k <= m' * k) by (apply Rmult_le_compat_r; lra).
      assert (M2 : m * (K - 1) < m' - m) by (replace (m' - m) with (e - e') by (unfold m, m'; ring); assert (m <= 1 / 2) by (unfold m; lra); nra).
      assert (m * (K - 1) * A < (m' - m) * A) by (apply Rmult_lt_compat_r; auto). lra.
  Qed.
End Gain.

(** ** The theorem *)
Lemma mild_vv g P e m lim : 0 < g -> 0 <= P -> 0 < e < 1 -> 0 < lim -> m ^ 2 / (e * (1 - e)) < lim -> (vv g e * (g * m)) ^ 2 < (P + vv g e) * lim.
Proof.
  intros Hg HP He Hl H. pose proof (vv_pos g Hg e He) as V.
  replace ((vv g e * (g * m)) ^ 2) with (vv g e * (m ^ 2 / (e * (1 - e)))) by (unfold vv; field; repeat split; lra).
  apply Rlt_le_trans with (vv g e * lim); [apply Rmult_lt_compat_l; auto|]. apply Rmult_le_compat_r; lra.
Qed.
Lemma vv_compl g e : vv g (1 - e) = vv g e.
Proof. unfold vv. f_equal. ring. Qed.

Lemma up_case G c c' K : 0 < G -> 1 <= K -> 0 <= c -> 0 <= c' -> c <= K * c' ->
  forall r, let x := r + G * c in let x' := r + G * c' in
  (r <= x -> r <= x' /\ x - r <= K * (x' - r)) /\ (x' <= r -> x <= r /\ r - x' <= K * (r - x)).
Proof.
  intros HG HK H0 H0' H r x x'. unfold x, x'. assert (A1 : 0 <= G * c) by (apply Rmult_le_pos; lra). assert (A2 : 0 <= G * c') by (apply Rmult_le_pos; lra).
  assert (A3 : G * c <= K * (G * c')) by (replace (K * (G * c')) with (G * (K * c')) by ring; apply Rmult_le_compat_l; lra).
  split; intros L; (split; [nra|]); nra.
Qed.
Lemma down_case G c c' K : 0 < G -> 1 <= K -> c <= 0 -> c' <= 0 -> - c' <= K * - c ->
  forall r, let x := r + G * c in let x' := r + G * c' in
  (r <= x -> r <= x' /\ x - r <= K * (x' - r)) /\ (x' <= r -> x <= r /\ r - x' <= K * (r - x)).
Proof.
  intros HG HK H0 H0' H r x x'. unfold x, x'. assert (A1 : G * c <= 0) by nra. assert (A2 : G * c' <= 0) by nra.
  assert (A3 : - (G * c') <= K * - (G * c)) by (replace (- (G * c')) with (G * - c') by ring; replace (K * - (G * c)) with (G * (K * - c)) by ring; apply Rmult_le_compat_l; lra).
  split; intros L; (split; [nra|]); nra.
Qed.

Lemma C94_glicko2_proof : forall fuel r RD s r2 r2' RD2 s2 s2' o t tol p q p' q',
  0 < s -> 0 < s2 -> 0 < s2' -> 0 < t -> t ^ 2 <= 2 -> 0 <= tol -> r2 <= r2' ->
  let e := g2E (g2mu r) (g2mu r2) (g2phi RD2) in
  let e' := g2E (g2mu r) (g2mu r2') (g2phi RD2) in
  (points o - e) ^ 2 / (e * (1 - e)) < 1 + 27 / (2 * t ^ 2) ->
  (points o - e') ^ 2 / (e' * (1 - e')) < 1 + 27 / (2 * t ^ 2) ->
  let game r2 s2 := glicko2 fuel (mkGlicko2 (Fin r) (Fin RD) (Fin s)) (mkGlicko2 (Fin r2) (Fin RD2) (Fin s2)) o
    (mkGlicko2Config (Fin t) (Fin tol)) in
  game r2 s2 = Some (p, q) -> game r2' s2' = Some (p', q') ->
  exists x x', g2_rating p = Fin x /\ g2_rating p' = Fin x' /\
    (r <= x -> r <= x' /\ x - r <= exp (2 * tol) * (x' - r)) /\
    (x' <= r -> x <= r /\ r - x' <= exp (2 * tol) * (r - x)) /\
    (exp (2 * tol) - 1 < (e - e') * Rmin 1 (g2g (g2phi RD2) ^ 2 * g2phi RD ^ 2 * e' * (1 - e)) -> x < x').
Proof.
  intros fuel r RD s r2 r2' RD2 s2 s2' o t tol p q p' q' Hs H2 H2' Ht Ht2 Htol Hr e e' B B' game E1 E2.
  apply (C39_proof fuel r RD s r2 RD2 s2 o t tol p q Hs H2 Ht Htol) in E1. apply (C39_proof fuel r RD s r2' RD2 s2' o t tol p' q' Hs H2' Ht Htol) in E2. cbv zeta in E1, E2.
  destruct E1 as (x1 & y1 & -> & -> & S1 & _). destruct E2 as (x2 & y2 & -> & -> & S2 & _).
  do 2 eexists. cbn [g2_rating]. split; [reflexivity|]. split; [reflexivity|].
  rewrite !g2_new_r_eq. rewrite !g2v_single, !g2M_single in *. fold e e' in S1, S2 |- *.
  pose proof (g2E_range (g2mu r) (g2mu r2) (g2phi RD2)) as He. fold e in He. pose proof (g2E_range (g2mu r) (g2mu r2') (g2phi RD2)) as He'. fold e' in He'.
  assert (Hee : e' <= e).
  { unfold e, e', g2E. pose proof (g2g_range (g2phi RD2)) as [G0 _]. assert (M : g2mu r2 <= g2mu r2') by (destruct Hr as [Hr| ->]; [apply Rlt_le, (proj1 (g2mu_lt r2 r2')); auto|lra]).
    apply Rinv_le_contravar; [pose proof (exp_pos (- g2g (g2phi RD2) * (g2mu r - g2mu r2))); lra|]. apply Rplus_le_compat_l, exp_le'. nra. }
  pose proof (g2g_range (g2phi RD2)) as [Hg _]. set (g := g2g (g2phi RD2)) in *. set (phi := g2phi RD) in *.
  change (/ (g ^ 2 * e * (1 - e))) with (vv g e) in *. change (/ (g ^ 2 * e' * (1 - e'))) with (vv g e') in *.
  pose proof g2s_pos as GS. pose proof (HK0 tol Htol) as K0. set (K := exp (2 * tol)) in *.
  pose proof (HP0 phi) as P0. pose proof (pow_lt t 2 Ht) as T0. assert (Hl : 0 < 1 + 27 / (2 * t ^ 2)) by (assert (0 < 27 / (2 * t ^ 2)) by (apply Rdiv_lt_0_compat; lra); lra).
  pose proof (mild_vv g (phi ^ 2) e _ _ Hg P0 He Hl B) as N1. pose proof (mild_vv g (phi ^ 2) e' _ _ Hg P0 He' Hl B') as N2.
  pose proof (g2_phi'_pos phi x1 _ (proj1 S1) (vv_pos g Hg e He)) as F1. pose proof (g2_phi'_pos phi x2 _ (proj1 S2) (vv_pos g Hg e' He')) as F2.
  apply (fun H => pow_lt _ 2 H) in F1. apply (fun H => pow_lt _ 2 H) in F2.
  assert (G1 : 0 < g2s * g) by now apply Rmult_lt_0_compat.
  set (f1 := g2_phi' phi x1 (vv g e) ^ 2) in *. set (f2 := g2_phi' phi x2 (vv g e') ^ 2) in *.
  replace (g2s * (f1 * (g * (points o - e)))) with (g2s * g * ((points o - e) * f1)) by ring.
  replace (g2s * (f2 * (g * (points o - e')))) with (g2s * g * ((points o - e') * f2)) by ring.
  set (k := g2s * g) in *. clearbody k.
  set (mn := Rmin 1 (g ^ 2 * phi ^ 2 * e' * (1 - e))).
  assert (Gp : 0 <= g ^ 2 * phi ^ 2) by (apply Rmult_le_pos; [apply pow2_ge_0|auto]).
  assert (Mn : mn <= 1 /\ mn <= g ^ 2 * phi ^ 2 * e' /\ mn <= g ^ 2 * phi ^ 2 * (1 - e)).
  { unfold mn. pose proof (Rmin_l 1 (g ^ 2 * phi ^ 2 * e' * (1 - e))) as R1. pose proof (Rmin_r 1 (g ^ 2 * phi ^ 2 * e' * (1 - e))) as R2.
    assert (U1 : 0 <= g ^ 2 * phi ^ 2 * e') by (apply Rmult_le_pos; lra). assert (U2 : 0 <= g ^ 2 * phi ^ 2 * (1 - e)) by (apply Rmult_le_pos; lra).
    split; [exact R1|]. split; (eapply Rle_trans; [exact R2|]).
    - rewrite <- (Rmult_1_r (g ^ 2 * phi ^ 2 * e')) at 2. apply Rmult_le_compat_l; lra.
    - replace (g ^ 2 * phi ^ 2 * e' * (1 - e)) with (g ^ 2 * phi ^ 2 * (1 - e) * e') by ring. rewrite <- (Rmult_1_r (g ^ 2 * phi ^ 2 * (1 - e))) at 2. apply Rmult_le_compat_l; lra. }
  destruct Mn as (Mn1 & Mn2 & Mn3). clearbody mn.
  assert (Mn4 : (e - e') * mn <= e - e') by (rewrite <- (Rmult_1_r (e - e')) at 2; apply Rmult_le_compat_l; lra).
  assert (Fin : forall c c', c < c' -> r + k * c < r + k * c') by (intros; apply Rplus_lt_compat_l, Rmult_lt_compat_l; auto).
  assert (Pr : forall m X, 0 <= m -> 0 < X -> 0 <= m * X) by (intros; apply Rmult_le_pos; lra).
  assert (Ng : forall m X, m <= 0 -> 0 < X -> m * X <= 0) by (intros; nra).
  destruct o; cbn [points] in *.
  - destruct (win_gain g phi s t tol Hg Hs Ht Htol e e' x1 x2 ltac:(lra) ltac:(lra) Ht2 N2 S1 S2) as [A1 A2]. fold f1 f2 K in A1, A2.
    pose proof (up_case k ((1 - e) * f1) ((1 - e') * f2) K G1 K0 (Pr (1 - e) f1 ltac:(lra) F1) (Pr (1 - e') f2 ltac:(lra) F2) A1 r) as (C1 & C2).
    split; [exact C1|]. split; [exact C2|]. intros HK. apply Fin, A2. eapply Rlt_le_trans; [exact HK|]. apply Rmult_le_compat_l; lra.
  - assert (S1' : g2_solves (vv g (1 - e) * (g * (1 - (1 - e)))) phi (vv g (1 - e)) s t tol x1) by (rewrite vv_compl; apply (solves_sq (vv g e * (g * (0 - e)))); auto; ring).
    assert (S2' : g2_solves (vv g (1 - e') * (g * (1 - (1 - e')))) phi (vv g (1 - e')) s t tol x2) by (rewrite vv_compl; apply (solves_sq (vv g e' * (g * (0 - e')))); auto; ring).
    assert (N1' : (vv g (1 - e) * (g * (1 - (1 - e)))) ^ 2 < (phi ^ 2 + vv g (1 - e)) * (1 + 27 / (2 * t ^ 2))) by (rewrite !vv_compl; eapply Rle_lt_trans; [|exact N1]; right; ring).
    destruct (win_gain g phi s t tol Hg Hs Ht Htol (1 - e') (1 - e) x2 x1 ltac:(lra) ltac:(lra) Ht2 N1' S2' S1') as [A1 A2].
    rewrite !vv_compl in A1, A2. fold f1 f2 K in A1, A2.
    pose proof (down_case k ((0 - e) * f1) ((0 - e') * f2) K G1 K0 (Ng (0 - e) f1 ltac:(lra) F1) (Ng (0 - e') f2 ltac:(lra) F2) ltac:(lra) r) as (C1 & C2).
    split; [exact C1|]. split; [exact C2|]. intros HK. apply Fin.
    assert (Q : K - 1 < (1 - e' - (1 - e)) * (g ^ 2 * phi ^ 2 * (1 - (1 - e')))).
    { eapply Rlt_le_trans; [exact HK|]. replace (1 - e' - (1 - e)) with (e - e') by ring. replace (1 - (1 - e')) with e' by ring. apply Rmult_le_compat_l; lra. }
    specialize (A2 Q). lra.
  - destruct (Rle_dec e (1 / 2)) as [h|h].
    + destruct (draw_gain g phi s t tol Hg Hs Ht Htol e e' x1 x2 ltac:(lra) h N2 S1 S2) as [A1 A2]. fold f1 f2 K in A1, A2.
      pose proof (up_case k ((1 / 2 - e) * f1) ((1 / 2 - e') * f2) K G1 K0 (Pr (1 / 2 - e) f1 ltac:(lra) F1) (Pr (1 / 2 - e') f2 ltac:(lra) F2) A1 r) as (C1 & C2).
      split; [exact C1|]. split; [exact C2|]. intros HK. apply Fin, A2. lra.
    + destruct (Rle_dec (1 / 2) e') as [h'|h'].
      * assert (S1' : g2_solves (vv g (1 - e) * (g * (1 / 2 - (1 - e)))) phi (vv g (1 - e)) s t tol x1) by (rewrite vv_compl; apply (solves_sq (vv g e * (g * (1 / 2 - e)))); auto; field).
        assert (S2' : g2_solves (vv g (1 - e') * (g * (1 / 2 - (1 - e')))) phi (vv g (1 - e')) s t tol x2) by (rewrite vv_compl; apply (solves_sq (vv g e' * (g * (1 / 2 - e')))); auto; field).
        assert (N1' : (vv g (1 - e) * (g * (1 / 2 - (1 - e)))) ^ 2 < (phi ^ 2 + vv g (1 - e)) * (1 + 27 / (2 * t ^ 2))) by (rewrite !vv_compl; eapply Rle_lt_trans; [|exact N1]; right; field).
        destruct (draw_gain g phi s t tol Hg Hs Ht Htol (1 - e') (1 - e) x2 x1 ltac:(lra) ltac:(lra) N1' S2' S1') as [A1 A2].
        rewrite !vv_compl in A1, A2. fold f1 f2 K in A1, A2.
        pose proof (down_case k ((1 / 2 - e) * f1) ((1 / 2 - e') * f2) K G1 K0 (Ng (1 / 2 - e) f1 ltac:(lra) F1) (Ng (1 / 2 - e') f2 ltac:(lra) F2) ltac:(lra) r) as (C1 & C2).
        split; [exact C1|]. split; [exact C2|]. intros HK. apply Fin. assert (Q : K - 1 < 1 - e' - (1 - e)) by lra. specialize (A2 Q). lra.
      * assert (Z1 : (1 / 2 - e) * f1 < 0) by (assert (0 < (e - 1 / 2) * f1) by (apply Rmult_lt_0_compat; lra); lra).
        assert (Z2 : 0 < (1 / 2 - e') * f2) by (apply Rmult_lt_0_compat; lra).
        assert (W1 : k * ((1 / 2 - e) * f1) < 0) by (assert (0 < k * - ((1 / 2 - e) * f1)) by (apply Rmult_lt_0_compat; lra); lra).
        assert (W2 : 0 < k * ((1 / 2 - e') * f2)) by (apply Rmult_lt_0_compat; lra).
        split; [intros; lra|]. split; [intros; lra|]. intros _. apply Fin. lra.
Qed.
