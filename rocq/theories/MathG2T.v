(** Glickman's volatility function in double precision near its root, where the
    result is no upset: relative noise, slopes and spacing; the iteration stops. *)
From Coq Require Import ZArith List Bool Reals Lra Lia Psatz.
From Flocq Require Import Core.Core IEEE754.BinarySingleNaN.
From Verif Require Import Arith B64 ModelLib ModelGlicko2 SpecB64 SpecAcc SpecAcc3 MathB64 ProofB64 ProofB64b MathB64b MathAcc ProofAcc MathGlicko2 MathIllF MathG2F MathIllT.
Import ListNotations.
Local Open Scope R_scope.

Lemma hf_slopes S D a T : 0 < D -> 0 < T -> - (101 / 100 * D) <= S <= 0 -> forall x y, x <= y ->
  / T * (y - x) <= hf S D a T x - hf S D a T y <= (/ T + / 5) * (y - x).
Proof.
  intros HD HT HS x y [Hxy| ->]; [|lra].
  destruct (MVT_cor2 (hf S D a T) (hf' S D T) x y Hxy) as (c & E & _).
  { intros c _. apply hf_dlim; auto. }
  assert (K : - / T - / 5 <= hf' S D T c <= - / T).
  { unfold hf'. pose proof (exp_pos c) as He. set (e := exp c) in *.
    assert (HP : 0 < (D + e) ^ 3) by (apply pow_lt; lra).
    assert (U : e * (S * D - e * (S + 2 * D)) <= 0) by (apply mpn; [lra|nra]).
    assert (Lw : - (2 / 5 * (D + e) ^ 3) <= e * (S * D - e * (S + 2 * D))).
    { assert (G1 : - (101 / 100 * D) * D <= S * D) by (apply Rmult_le_compat_r; lra). assert (G2 : e * S <= 0) by (apply mpn; lra).
      assert (G3 : - (e * (101 / 100 * (D * D) + 2 * (e * D))) <= e * (S * D - e * (S + 2 * D))).
      { replace (- (e * (101 / 100 * (D * D) + 2 * (e * D)))) with (e * (- (101 / 100 * D) * D - e * (2 * D))) by ring. apply Rmult_le_compat_l; lra. }
      assert (G4 : e * (101 / 100 * (D * D) + 2 * (e * D)) <= 2 / 5 * (D + e) ^ 3).
      { assert (0 <= D * ((D - e) * (D - e))) by (apply Rmult_le_pos; [lra|apply Rle_0_sqr]). assert (0 <= e * ((D - e) * (D - e))) by (apply Rmult_le_pos; [lra|apply Rle_0_sqr]).
        assert (0 < D * D * e) by (repeat apply Rmult_lt_0_compat; lra). assert (0 < D * e * e) by (repeat apply Rmult_lt_0_compat; lra). assert (0 < e * e * e) by (repeat apply Rmult_lt_0_compat; lra). assert (0 < D * D * D) by (repeat apply Rmult_lt_0_compat; lra).
        assert (0 <= e * ((D - 3 / 4 * e) * (D - 3 / 4 * e))) by (apply Rmult_le_pos; [lra|apply Rle_0_sqr]). assert (0 <= D * ((D - 3 / 4 * e) * (D - 3 / 4 * e))) by (apply Rmult_le_pos; [lra|apply Rle_0_sqr]).
        assert (0 <= D * ((D - 6 / 5 * e) * (D - 6 / 5 * e))) by (apply Rmult_le_pos; [lra|apply Rle_0_sqr]). assert (0 <= e * ((D - 6 / 5 * e) * (D - 6 / 5 * e))) by (apply Rmult_le_pos; [lra|apply Rle_0_sqr]).
        simpl. lra. }
      lra. }
    set (q := e * (S * D - e * (S + 2 * D))) in *. assert (Q : - / 5 <= q / (2 * (D + e) ^ 3) <= 0).
    { split; apply Rmult_le_reg_r with (2 * (D + e) ^ 3); try lra; unfold Rdiv; rewrite Rmult_assoc, Rinv_l by lra; lra. }
    lra. }
  assert (hf' S D T c * (y - x) <= - / T * (y - x)) by (apply Rmult_le_compat_r; lra).
  assert ((- / T - / 5) * (y - x) <= hf' S D T c * (y - x)) by (apply Rmult_le_compat_r; lra). lra.
Qed.

Section Neg.
  Variables (L : Libm) (d2 p2 v s t : B64).
  Hypothesis HE : exp_accurate L.
  Notation F x := (g2_f_value (A := B64A L) x d2 p2 v s t).
  Variables (N D l T2 : R). Notation pv := (Bplus mode_NE p2 v). Notation t2 := (Bmult mode_NE t t).
  Hypothesis EN : ext (n1 d2 p2 v) = N. Hypothesis ED : ext pv = D. Hypothesis El : ext (sl L s) = l. Hypothesis ET : ext t2 = T2.
  Hypothesis Fn : fin (n1 d2 p2 v). Hypothesis Fp : fin pv. Hypothesis Fl : fin (sl L s). Hypothesis Ft : fin t2.
  Hypothesis HD : 9 / 1000 <= D <= 1100. Hypothesis HN : - (101 / 100 * D) <= N <= 0. Hypothesis Hl : -95 / 10 <= l <= -22 / 10. Hypothesis HT : 9 / 1000 <= T2 <= 97 / 100.
  Variable lo : R. Hypothesis Hlo : l - 995 / 1000 <= lo <= l.

  Notation h := (hf N D l T2).
  Definition Iq (x : R) : R := exp x * (exp x - N) / (2 * ((D + exp x) * (D + exp x))).
  Definition Jq (x : R) : R := (l - x) / T2.
  Lemma h_split x : h x = Jq x - Iq x.
  Proof. unfold hf, Jq, Iq. pose proof (exp_pos x). field. split; lra. Qed.
  Lemma m0_ge : 103 / 100 <= / T2 <= 112. Proof. split; [apply Rle_trans with (/ (97 / 100)); [lra|apply Rinv_le_contravar; lra]|apply Rle_trans with (/ (9 / 1000)); [apply Rinv_le_contravar; lra|lra]]. Qed.
  Lemma Jq_diff x y : Jq x - Jq y = / T2 * (y - x). Proof. unfold Jq. field. lra. Qed.
  Lemma Iq_diff x y : x <= y -> 0 <= Iq y - Iq x <= / 5 * (y - x).
  Proof. intros O. pose proof (hf_slopes N D l T2 ltac:(lra) ltac:(lra) HN x y O) as H. rewrite !h_split in H. pose proof (Jq_diff x y). lra. Qed.
  Lemma y_range x : lo <= x <= l -> / 10 ^ 5 <= exp x <= 1.
  Proof.
    intros B. split; [|rewrite <- exp_0; apply exp_le; lra].
    assert (E3 : exp 1 <= 3) by apply exp_le_3. apply Rle_trans with (exp (-11)); [|apply exp_le; lra]. replace (-11) with (- INR 11) by (simpl; ring). rewrite exp_Ropp.
    assert (EX : forall n, exp (INR n) = exp 1 ^ n) by (induction n as [|n IH]; [simpl; apply exp_0|rewrite S_INR, exp_plus, IH; simpl; ring]). rewrite EX.
    (* e^11 < 10^5 *) assert (E2 : exp 1 <= 281 / 100).
    { pose proof (exp_ineq1_le (- / 16)) as K. rewrite exp_Ropp in K. assert (Q : exp (/ 16) <= 16 / 15) by (pose proof (exp_pos (/ 16)); apply Rmult_le_reg_r with (/ exp (/ 16)); [apply Rinv_0_lt_compat; assumption|]; rewrite Rinv_r by lra; lra).
      replace 1 with (INR 16 * / 16) at 1 by (simpl; lra). assert (P : forall n, exp (INR n * / 16) = exp (/ 16) ^ n) by (induction n as [|n IH]; [simpl; rewrite Rmult_0_l; apply exp_0|rewrite S_INR, Rmult_plus_distr_r, Rmult_1_l, exp_plus, IH; simpl; ring]).
      rewrite P. pose proof (exp_pos (/ 16)). apply Rle_trans with ((16 / 15) ^ 16); [apply pow_incr; lra|lra]. }
    pose proof (exp_pos 1). apply Rinv_le_contravar; [apply pow_lt; lra|]. apply Rle_trans with ((281 / 100) ^ 11); [apply pow_incr; lra|lra].
  Qed.
  Lemma Iq_range x : lo <= x <= l -> / 10 ^ 17 <= Iq x <= 51 / 100.
  Proof.
    intros B. pose proof (y_range x B) as Y. unfold Iq. set (y := exp x) in *. assert (TT : 0 < 2 * ((D + y) * (D + y))) by (apply Rmult_lt_0_compat; [lra|apply Rmult_lt_0_compat; lra]).
    split; apply Rmult_le_reg_r with (2 * ((D + y) * (D + y))); try exact TT; unfold Rdiv; rewrite Rmult_assoc, Rinv_l, Rmult_1_r by lra.
    - assert ((D + y) * (D + y) <= 1101 * 1101) by (apply Rmult_le_compat; lra). assert (/ 10 ^ 5 * / 10 ^ 5 <= y * (y - N)) by (apply Rmult_le_compat; lra). lra.
    - assert (y * (y - N) <= (D + y) * (101 / 100 * (D + y))) by (apply Rmult_le_compat; lra). lra.
  Qed.

  (** ** The noise of one evaluation *)
  Section At.
    Variable x : B64. Hypothesis Fx : fin x. Hypothesis Bx : lo <= ext x <= l.
    Notation y := (exp (ext x)). Notation E := (l_exp L x).
    Lemma Er : ap E y (/ 10 ^ 15 * y). Proof. apply (E_ap L HE x Fx). lra. Qed.
    Lemma n2r : ap (n2 L d2 p2 v x) (N - y) (115 / 10 ^ 17 * (y - N)).
    Proof.
      pose proof (y_range _ Bx) as Y. pose proof Er as A. unfold n2. pose proof (ap_self _ Fn) as An. rewrite EN in An.
      pose proof (ap_sub _ _ _ _ _ _ (101 / 100 * (y - N)) An A ltac:(bd2) ltac:(okb)) as B. apply (ap_weak _ _ _ (115 / 10 ^ 17 * (y - N))) in B; [exact B|ulra].
    Qed.
    Lemma nur : ap (MathG2F.nu L d2 p2 v x) (y * (N - y)) (23 / 10 ^ 16 * (y * (y - N))).
    Proof.
      pose proof (y_range _ Bx) as Y. pose proof Er as A. pose proof n2r as A2. unfold MathG2F.nu. set (yy := y) in *.
      assert (K : / 10 ^ 10 <= yy * (yy - N) <= 2000). { split; [apply Rle_trans with (/ 10 ^ 5 * / 10 ^ 5); [lra|apply Rmult_le_compat; lra]|apply Rle_trans with (1 * 1200); [apply Rmult_le_compat; lra|lra]]. }
      pose proof (ap_mul _ _ _ _ _ _ yy (yy - N) (101 / 100 * (yy * (yy - N))) A A2 ltac:(bd2) ltac:(bd2) ltac:(ulra) ltac:(okb)) as B. apply (ap_weak _ _ _ (23 / 10 ^ 16 * (yy * (yy - N)))) in B; [exact B|ulra].
    Qed.
    Notation T := (D + y).
    Lemma de0r : ap (de0 L p2 v x) T (12 / 10 ^ 16 * T).
    Proof.
      pose proof (y_range _ Bx) as Y. pose proof Er as A. unfold de0. pose proof (ap_self _ Fp) as An. rewrite ED in An.
      pose proof (ap_add _ _ _ _ _ _ (101 / 100 * T) An A ltac:(bd2) ltac:(okb)) as B. apply (ap_weak _ _ _ (12 / 10 ^ 16 * T)) in B; [exact B|ulra].
    Qed.
    Lemma der : ap (de L p2 v x) (2 * (T * T)) (56 / 10 ^ 16 * (T * T)).
    Proof.
      pose proof (y_range _ Bx) as Y. pose proof de0r as A. unfold de. set (TT := T) in *. assert (TP : 9 / 1000 <= TT <= 1200) by (unfold TT; lra).
      assert (K : / 10 ^ 5 <= TT * TT <= 1440000). { split; [apply Rle_trans with (9 / 1000 * (9 / 1000)); [lra|apply Rmult_le_compat; lra]|apply Rle_trans with (1200 * 1200); [apply Rmult_le_compat; lra|lra]]. }
      pose proof (ap_mul _ _ _ _ _ _ TT TT (101 / 100 * (TT * TT)) A A ltac:(bd2) ltac:(bd2) ltac:(ulra) ltac:(okb)) as B. apply (ap_weak _ _ _ (26 / 10 ^ 16 * (TT * TT))) in B; [|ulra].
      pose proof (ap_mul _ _ _ _ _ _ 2 (TT * TT) (202 / 100 * (TT * TT)) (ap_Z 2 ltac:(lia)) B ltac:(bd2) ltac:(bd2) ltac:(ulra) ltac:(okb)) as C. apply (ap_weak _ _ _ (56 / 10 ^ 16 * (TT * TT))) in C; [exact C|ulra].
    Qed.
    Notation I := (Iq (ext x)). Notation J := (Jq (ext x)).
    Lemma ivr : ap (iv L d2 p2 v x) (- I) (6 / 10 ^ 15 * I).
    Proof.
      pose proof (y_range _ Bx) as Y. pose proof (Iq_range _ Bx) as IR. pose proof nur as A. pose proof der as B. unfold iv.
      assert (EI : y * (N - y) / (2 * (T * T)) = - I) by (unfold Iq; field; lra). assert (EY : y * (y - N) = 2 * (I * (T * T))) by (unfold Iq; field; lra).
      rewrite EY in A. set (TT := T) in *. set (ii := I) in *. assert (TP : 9 / 1000 <= TT <= 1200) by (unfold TT; lra).
      assert (K : / 10 ^ 5 <= TT * TT <= 1440000). { split; [apply Rle_trans with (9 / 1000 * (9 / 1000)); [lra|apply Rmult_le_compat; lra]|apply Rle_trans with (1200 * 1200); [apply Rmult_le_compat; lra|lra]]. }
      assert (Q : (23 / 10 ^ 16 * (2 * (ii * (TT * TT))) + ii * (56 / 10 ^ 16 * (TT * TT))) / (199 / 100 * (TT * TT)) <= 55 / 10 ^ 16 * ii).
      { apply Rmult_le_reg_r with (199 / 100 * (TT * TT)); [lra|]. unfold Rdiv at 1. rewrite Rmult_assoc, Rinv_l, Rmult_1_r by lra. assert (0 <= ii * (TT * TT)) by (apply Rmult_le_pos; lra). lra. }
      assert (AQ : Rabs (y * (N - y) / (2 * (TT * TT))) <= ii) by (rewrite EI, Rabs_Ropp, Rabs_pos_eq; lra).
      pose proof (ap_div _ _ _ _ _ _ (199 / 100 * (TT * TT)) ii (101 / 100 * ii) A B ltac:(lra) ltac:(rewrite Rabs_pos_eq by lra; lra) AQ ltac:(lra) ltac:(okb)) as C.
      rewrite EI in C. apply (ap_weak _ _ _ (6 / 10 ^ 15 * ii)) in C; [exact C|ulra].
    Qed.
    Lemma J_range : 0 <= J <= 112.
    Proof.
      unfold Jq. pose proof m0_ge as M0. unfold Rdiv. split; [apply Rmult_le_pos; [lra|lra]|]. apply Rle_trans with (995 / 1000 * 112); [apply Rmult_le_compat; lra|lra].
    Qed.
    Lemma b1000_tiny : bpow radix2 (-1000) <= / 10 ^ 99.
    Proof. pose proof b1000_small. assert (gmin <= 1) by (unfold gmin; change 1 with (bpow radix2 0); apply bpow_le; lia). pose proof gmin_pos. lra. Qed.
    Lemma jvr : fin (jv L s t x) /\ Rabs (ext (jv L s t x) - - J) <= u0 * J + / 10 ^ 99.
    Proof.
      pose proof J_range as JR. pose proof b1000_tiny as BT.
      assert (EX : ext (xs L s x) = ext x - l). { unfold xs. rewrite (D_exact lo l ltac:(lra) x (sl L s) Fx Fl Bx ltac:(rewrite El; lra) ltac:(rewrite El; apply Rabs_le; lra)), El. reflexivity. }
      assert (FX : fin (xs L s x)). { unfold xs. apply (D_ok lo l ltac:(lra) ltac:(lra) x (sl L s) Fx Fl Bx). rewrite El. lra. }
      unfold jv. destruct (ext_div (xs L s x) t2 FX Ft ltac:(rewrite ET; lra)) as [Nj Ej]. rewrite EX, ET in Ej. assert (EJ : (ext x - l) / T2 = - J) by (unfold Jq; field; lra). rewrite EJ in Ej.
      pose proof (rnd_err (- J) ltac:(rewrite Rabs_Ropp, Rabs_pos_eq by lra; apply Rle_trans with (bpow radix2 10); [simpl; lra|apply bpow_le; lia])) as R. rewrite Rabs_Ropp, (Rabs_pos_eq J) in R by lra.
      rewrite <- Ej in R. split; [|lra]. apply (fin_abs_le _ 1000); [exact Nj|lia|].
      replace (ext (Bdiv mode_NE (xs L s x) t2)) with ((ext (Bdiv mode_NE (xs L s x) t2) - - J) + - J) by ring. eapply Rle_trans; [apply Rabs_triang|]. rewrite Rabs_Ropp, (Rabs_pos_eq J) by lra.
      apply Rle_trans with (bpow radix2 10); [simpl; ulra|apply bpow_le; lia].
    Qed.
    Lemma Fr : fin (F x) /\ Rabs (ext (F x) - h (ext x)) <= 62 / 10 ^ 16 * I + 3 / 10 ^ 16 * J.
    Proof.
      pose proof ivr as [Fi Ai]. destruct jvr as [Fj Aj]. pose proof (Iq_range _ Bx) as IR. pose proof J_range as JR. pose proof b1000_tiny as BT.
      rewrite (F_ij L d2 p2 v s t x), h_split. destruct (ext_minus _ _ Fi Fj) as [Nf Ef]. set (p := ext (iv L d2 p2 v x)) in *. set (q := ext (jv L s t x)) in *.
      apply Rabs_le_inv in Ai. apply Rabs_le_inv in Aj. assert (PQ : Rabs (p - q) <= 101 / 100 * I + 101 / 100 * J) by (apply Rabs_le; unfold u0 in *; lra).
      pose proof (rnd_err (p - q) ltac:(apply Rle_trans with (bpow radix2 10); [simpl; lra|apply bpow_le; lia])) as R. rewrite <- Ef in R. set (f := ext (Bminus mode_NE _ _)) in *.
      assert (R' : Rabs (f - (p - q)) <= u0 * (101 / 100 * I + 101 / 100 * J) + / 10 ^ 99) by (apply Rle_trans with (1 := R); apply Rplus_le_compat; [apply Rmult_le_compat_l; [unfold u0; lra|exact PQ]|exact BT]).
      apply Rabs_le_inv in R'. split; [|apply Rabs_le; unfold u0 in *; lra].
      apply (fin_abs_le _ 1000); [exact Nf|lia|]. fold f. apply Rle_trans with (bpow radix2 10); [apply Rabs_le; simpl; ulra|apply bpow_le; lia].
    Qed.
  End At.

  (** ** Near the root *)
  Section Root.
    Variable r : R. Hypothesis Hr : h r = 0. Hypothesis Br : lo <= r <= l.
    Notation I0 := (Iq r). Notation m0 := (/ T2).
    Lemma J0 : Jq r = I0. Proof. pose proof (h_split r) as H. rewrite Hr in H. lra. Qed.
    Variable x : B64. Hypothesis Fx : fin x. Hypothesis Bx : lo <= ext x <= l.
    Lemma noise : fin (F x) /\ Rabs (ext (F x) - h (ext x)) <= / 10 ^ 14 * I0 + 2 / 10 ^ 15 * (m0 * Rabs (ext x - r)).
    Proof.
      destruct (Fr x Fx Bx) as [FF A]. split; [exact FF|]. apply Rle_trans with (1 := A). pose proof J0 as EJ. pose proof m0_ge as M0. pose proof (Iq_range r Br) as IR. pose proof (Jq_diff (ext x) r) as JD. set (w := Rabs (ext x - r)).
      assert (W : 0 <= w) by apply Rabs_pos. assert (KI : Iq (ext x) <= I0 + / 5 * w).
      { destruct (Rle_dec (ext x) r) as [O|O]; [pose proof (Iq_diff _ _ O); lra|]. pose proof (Iq_diff r (ext x) ltac:(lra)). unfold w. rewrite Rabs_pos_eq by lra. lra. }
      assert (KJ : Jq (ext x) <= I0 + m0 * w).
      { rewrite EJ in JD. assert (m0 * (r - ext x) <= m0 * w). { apply Rmult_le_compat_l; [lra|]. unfold w. rewrite <- Rabs_Ropp, Ropp_minus_distr. apply Rle_abs. } lra. }
      assert (w <= m0 * w) by nra. lra.
    Qed.
    Lemma slopes : (ext x <= r -> 99 / 100 * m0 * (r - ext x) - / 10 ^ 14 * I0 <= ext (F x) <= 101 / 100 * (m0 + / 5) * (r - ext x) + / 10 ^ 14 * I0) /\
      (r <= ext x -> - (101 / 100 * (m0 + / 5) * (ext x - r)) - / 10 ^ 14 * I0 <= ext (F x) <= - (99 / 100 * m0 * (ext x - r)) + / 10 ^ 14 * I0).
    Proof.
      destruct noise as [_ A]. pose proof m0_ge as M0. apply Rabs_le_inv in A. split; intros O.
      - pose proof (hf_slopes N D l T2 ltac:(lra) ltac:(lra) HN _ _ O) as H. rewrite Hr in H. rewrite (Rabs_left1 (ext x - r)) in A by lra. assert (0 <= m0 * (r - ext x)) by (apply Rmult_le_pos; lra). lra.
      - pose proof (hf_slopes N D l T2 ltac:(lra) ltac:(lra) HN _ _ O) as H. rewrite Hr in H. rewrite (Rabs_pos_eq (ext x - r)) in A by lra. assert (0 <= m0 * (ext x - r)) by (apply Rmult_le_pos; lra). lra.
    Qed.
    Lemma spacing : ext (F x) = 0 \/ 5 / 10 ^ 17 * I0 <= Rabs (ext (F x)).
    Proof.
      pose proof m0_ge as M0. pose proof (Iq_range r Br) as IR. pose proof J0 as EJ. set (w := Rabs (ext x - r)). assert (W : 0 <= w) by apply Rabs_pos.
      destruct (Rle_dec (I0 / 100) (m0 * w)) as [C|C].
      - right. destruct slopes as [S1 S2]. destruct (Rle_dec (ext x) r) as [O|O].
        + specialize (S1 O). unfold w in C. rewrite Rabs_left1 in C by lra. eapply Rle_trans; [|apply Rle_abs]. lra.
        + specialize (S2 ltac:(lra)). unfold w in C. rewrite Rabs_pos_eq in C by lra. rewrite <- Rabs_Ropp. eapply Rle_trans; [|apply Rle_abs]. lra.
      - apply Rnot_le_lt in C. pose proof (ivr x Fx Bx) as [Fi Ai]. destruct (jvr x Fx Bx) as [Fj Aj]. pose proof (J_range x Bx) as JR. pose proof (Iq_range _ Bx) as IRx.
        assert (w <= m0 * w) by nra.
        assert (KI : 99 / 100 * I0 <= Iq (ext x)).
        { destruct (Rle_dec (ext x) r) as [O|O]; [pose proof (Iq_diff _ _ O) as Q; unfold w in *; rewrite Rabs_left1 in * by lra; lra|]. pose proof (Iq_diff r (ext x) ltac:(lra)). lra. }
        assert (KJ : 99 / 100 * I0 <= Jq (ext x)).
        { pose proof (Jq_diff (ext x) r) as JD. rewrite EJ in JD. assert (m0 * (- w) <= m0 * (r - ext x)). { apply Rmult_le_compat_l; [lra|]. unfold w. pose proof (Rle_abs (ext x - r)). lra. } lra. }
        assert (JM : / 10 ^ 99 <= / 10 ^ 20 * I0) by lra.
        rewrite (F_ij L d2 p2 v s t x). apply Rabs_le_inv in Ai. apply Rabs_le_inv in Aj. set (p := iv L d2 p2 v x) in *. set (q := jv L s t x) in *.
        assert (P1 : I0 / 2 <= Rabs (ext p)) by (rewrite Rabs_left1; lra). assert (P2 : I0 / 2 <= Rabs (ext q)) by (rewrite Rabs_left1; ulra).
        destruct (mag radix2 (I0 / 2)) as [e He]. specialize (He ltac:(lra)). rewrite (Rabs_pos_eq (I0 / 2)) in He by lra.
        assert (Ke : (-60 < e < 2)%Z).
        { split; apply (lt_bpow radix2).
          - apply Rle_lt_trans with (2 := proj2 He). change (-60)%Z with (- Z.of_nat 60)%Z. rewrite bpow_nat. lra.
          - enough (bpow radix2 (e - 1) < bpow radix2 1) by (apply lt_bpow in H0; apply bpow_lt; lia). apply Rle_lt_trans with (1 := proj1 He). change (bpow radix2 1) with 2. lra. }
        pose proof (gr_sub p q (e - 1) Fi Fj ltac:(right; lra) ltac:(right; lra) ltac:(lia)) as [G|G]; [left; exact G|right]. apply Rle_trans with (2 := G).
        replace (e - 1 - 52)%Z with (e + - Z.of_nat 53)%Z by lia. rewrite bpow_plus, bpow_nat. apply Rle_trans with (I0 / 2 * / 2 ^ 53); [lra|]. apply Rmult_le_compat_r; [|lra]. left. apply Rinv_0_lt_compat, pow_lt. lra.
    Qed.
  End Root.
  Hypothesis Hlo2 : 6 / 10 * T2 <= l - lo.
  Lemma h_root : exists r, h r = 0 /\ lo <= r <= l.
  Proof.
    assert (A : h l < 0). { rewrite h_split. pose proof (Iq_range l ltac:(lra)). assert (Jq l = 0) by (unfold Jq; field; lra). lra. }
    assert (B : 0 < h lo). { rewrite h_split. pose proof (Iq_range lo ltac:(lra)). assert (6 / 10 <= Jq lo). { unfold Jq. apply Rmult_le_reg_r with T2; [lra|]. unfold Rdiv. rewrite (Rmult_assoc (l - lo)), Rinv_l by lra. lra. } lra. }
    destruct (hf_root N D l T2 l lo ltac:(lra) ltac:(lra)) as (r & R0 & RB); [apply mnp; lra|]. exists r. split; [exact R0|lra].
  Qed.
  Lemma neg_halts tol : fin tol -> 99 / 10 ^ 8 <= ext tol -> forall a b, fin a -> fin b -> lo <= ext a <= l -> lo <= ext b <= l -> ext (F a) <= 0 -> 0 <= ext (F b) ->
    halts L d2 p2 v s t tol a (F a) b (F b).
  Proof.
    intros Ftol Htol a b Fa Fb Ba Bb SA SB. destruct h_root as (r & R0 & RB). pose proof m0_ge as M0. pose proof (Iq_range r RB) as IR.
    assert (G : 10 * gmin <= 5 / 10 ^ 17 * Iq r). { apply Rle_trans with (5 / 10 ^ 34); [|lra]. unfold gmin. change (-300)%Z with (- Z.of_nat 300)%Z. rewrite bpow_nat. apply Rle_trans with (10 * / 2 ^ 130); [apply Rmult_le_compat_l; [lra|]; apply Rinv_le_contravar; [apply pow_lt; lra|apply Rle_pow; [lra|lia]]|]. lra. }
    apply (ill_halts L d2 p2 v s t tol lo l r (99 / 100 * / T2) (101 / 100 * (/ T2 + / 5)) (/ 10 ^ 14 * Iq r) (5 / 10 ^ 17 * Iq r)); try assumption; try lra.
    intros x Fx Bx. destruct (noise r R0 RB x Fx Bx) as [FF An]. destruct (slopes r R0 RB x Fx Bx) as [S1 S2]. split; [exact FF|]. split.
    { assert (W : Rabs (ext x - r) <= 1) by (apply Rabs_le; lra). destruct (Rle_dec (ext x) r) as [O|O]; [specialize (S1 O)|specialize (S2 ltac:(lra))].
      - assert (Q : 0 <= / T2 * (r - ext x) <= 112 * 1) by (split; [apply Rmult_le_pos; lra|apply Rmult_le_compat; lra]). apply Rabs_le. lra.
      - assert (Q : 0 <= / T2 * (ext x - r) <= 112 * 1) by (split; [apply Rmult_le_pos; lra|apply Rmult_le_compat; lra]). apply Rabs_le. lra. }
    split; [exact (spacing r R0 RB x Fx Bx)|]. split; [exact S1|exact S2].
  Qed.
End Neg.

(** ** [new_volatility] returns *)
Section Vol.
  Variables (L : Libm) (d2 p2 v s t : B64) (D2 ph V : R).
  Hypothesis HE : exp_accurate L. Hypothesis HL : lnw_accurate L.
  Notation P := (ph + V).
  Hypothesis Hd : ap d2 D2 (P / 2 / 10 ^ 8). Hypothesis Hp : ap p2 ph (P / 10 ^ 10). Hypothesis Hv : ap v V (P / 10 ^ 10).
  Hypothesis D0 : 0 <= D2 <= 100 * P. Hypothesis ph0 : 0 < ph. Hypothesis V0 : 0 < V. Hypothesis HP : / 100 <= P <= 1000.
  Hypothesis Hs : fin s. Hypothesis Hs' : / 100 <= ext s <= 3 / 10.
  Hypothesis Ht : fin t. Hypothesis Ht' : / 10 <= ext t <= 98 / 100.
  Notation F x := (g2_f_value (A := B64A L) x d2 p2 v s t).
  Variable tol : B64.
  Hypothesis Htol : fin tol. Hypothesis Htol' : 99 / 10 ^ 8 <= ext tol.
  Notation S := (D2 - ph - V).
  Hypothesis Hsep : P / 10 ^ 7 <= - S.
  Lemma vol_total : exists N z, forall k, g2_new_volatility (A := B64A L) (N + k) s d2 p2 v t tol = Some z.
  Proof.
    assert (SN : S < 0) by lra. assert (Ht12 : / 10 <= ext t <= 12 / 10) by lra. assert (Hsep' : P / 10 ^ 7 <= Rabs S) by (rewrite Rabs_left by exact SN; exact Hsep).
    assert (TQ : ext t ^ 2 <= 97 / 100 * ext t + / 100 /\ / 100 <= ext t ^ 2 <= 9604 / 10000) by nra.
    pose proof (bn_ap L s t HL Hs Hs' Ht Ht12) as BA. pose proof (bn_F L d2 p2 v s t D2 ph V HE HL Hd Hp Hv D0 ph0 V0 HP Hs Hs' Ht Ht12 0 ltac:(lra)) as BF.
    pose proof (fun fuel => neg_bracket L d2 p2 v s t D2 ph V HE HL Hd Hp Hv D0 ph0 V0 HP Hs Hs' Ht Ht12 0 ltac:(lra) fuel) as BR.
    pose proof (n1_ap d2 p2 v D2 ph V Hd Hp Hv D0 ph0 V0 HP) as NA. pose proof (sl_ap L s HL Hs Hs') as SA. pose proof (lns_range s Hs') as LR. pose proof (tt_ap t Ht Ht12) as TA.
    pose proof (sl_B L s HL Hs Hs') as [BS FS]. pose proof (F_sl_sign L d2 p2 v s t D2 ph V HE HL Hd Hp Hv D0 ph0 V0 HP Hs Hs' Ht Ht12) as [_ SG].
    pose proof (ap_add _ _ _ _ _ _ (2 * P) Hp Hv ltac:(bd2) ltac:(okb)) as PA. apply (ap_weak _ _ _ (201 / 10 ^ 12 * P)) in PA; [|ulra].
    pose proof (ap_int _ _ _ BA) as BI. pose proof (ap_int _ _ _ NA) as NI. pose proof (ap_int _ _ _ SA) as SI. pose proof (ap_int _ _ _ TA) as TI. pose proof (ap_int _ _ _ PA) as PI'.
    pose proof (ap_int _ _ _ (E_ap L HE (sl L s) FS BS)) as EI. pose proof (exp_pos (ext (sl L s))) as EP.
    specialize (SG ltac:(lra)). set (b := Bfma mode_NE (b64_of_Z 1) (Bopp t) (sl L s)) in *. set (a := sl L s) in *.
    assert (H : halts L d2 p2 v s t tol a (F a) b (F b)).
    { apply (neg_halts L d2 p2 v s t HE (ext (n1 d2 p2 v)) (ext (Bplus mode_NE p2 v)) (ext a) (ext (Bmult mode_NE t t)) eq_refl eq_refl eq_refl eq_refl (ap_fin _ _ _ NA) (ap_fin _ _ _ PA) FS (ap_fin _ _ _ TA)) with (lo := ext b); try assumption; try ulra.
      apply BA. }
    destruct H as (N & x & H). exists (Datatypes.S N), (l_exp L (Bdiv mode_NE x (b64_of_Z 2))). intros k. unfold g2_new_volatility.
    change (fln (Arith := B64A L) (fpowi s 2)) with a. change (fltb (Arith := B64A L) (fadd p2 v) d2) with (Bltb (Bplus mode_NE p2 v) d2). rewrite (test_ok d2 p2 v D2 ph V Hd Hp Hv D0 ph0 V0 HP Hsep'), Rlt_bool_false by lra.
    change (fofZ (Arith := B64A L) 1) with (b64_of_Z 1). rewrite Nat.add_succ_l. rewrite (BR (N + k)%nat). fold b. rewrite <- Nat.add_succ_r, H. reflexivity.
  Qed.
End Vol.
