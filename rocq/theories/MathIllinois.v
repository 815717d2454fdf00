(** Convergence of the Illinois variant of regula falsi for a function with
    slope in [-L, -m], in plain real arithmetic.  No model code in this file. *)
From Coq Require Import ZArith List Bool Reals Lra Lia.
From Verif Require Import Tac.
Local Open Scope R_scope.

Section Illinois.
  Variables (f : R -> R) (m L W tol : R).
  Hypothesis Hm : 0 < m.
  Hypothesis HmL : m <= L.
  Hypothesis Htol : 0 < tol.
  Hypothesis HW : tol <= W.
  (** Strictly decreasing with bounded slope. *)
  Hypothesis Hslope : forall x y, x <= y -> m * (y - x) <= f x - f y <= L * (y - x).
  Variable r : R.
  Hypothesis Hr : f r = 0.

  Lemma f_bounds x : m * Rabs (x - r) <= Rabs (f x) <= L * Rabs (x - r).
  Proof using Hm Hr Hslope.
    destruct (Rle_dec x r) as [h|h].
    - pose proof (Hslope x r h) as B. rewrite Hr in B.
      rewrite (Rabs_left1 (x - r)) by lra. assert (0 <= f x) by nra. rewrite Rabs_pos_eq by auto. lra.
    - pose proof (Hslope r x ltac:(lra)) as B. rewrite Hr in B.
      rewrite (Rabs_pos_eq (x - r)) by lra. assert (f x <= 0) by nra. rewrite Rabs_left1 by auto. lra.
  Qed.
  Lemma f_sign x : (x < r -> 0 < f x) /\ (r < x -> f x < 0) /\ (x = r -> f x = 0).
  Proof using Hm Hr Hslope.
    split; [|split].
    - intros. pose proof (Hslope x r ltac:(lra)). nra.
    - intros. pose proof (Hslope r x ltac:(lra)). nra.
    - intros ->; auto.
  Qed.

  (** Bracket: A and B on (weakly) different sides of r. *)
  Definition brk (A B : R) : Prop := A <= r <= B \/ B <= r <= A.
  Definition wt (j : nat) : R := / 2 ^ j.
  Lemma wt_pos j : 0 < wt j.
  Proof. unfold wt. apply Rinv_0_lt_compat, pow_lt. lra. Qed.
  Lemma wt_S j : wt (S j) = wt j / 2.
  Proof. unfold wt. cbn [pow]. field. apply pow_nonzero. lra. Qed.

  (** The next point. *)
  Definition nxt (A fA B fB : R) : R := A + (A - B) * fA / (fB - fA).

  Lemma brk_den A B j : brk A B -> A <> B -> f B - wt j * f A <> 0.
  Proof using Hm Hr Hslope.
    intros HB HAB. pose proof (wt_pos j). destruct (f_sign A) as (a1 & a2 & a3), (f_sign B) as (b1 & b2 & b3).
    destruct HB as [HB|HB].
    - destruct (Req_EM_T A r) as [e|e].
      + assert (f B < 0) by (apply b2; lra). rewrite (a3 e). lra.
      + assert (0 < f A) by (apply a1; lra). assert (f B <= 0).
        { destruct (Req_EM_T B r); [rewrite b3; lra|]. apply Rlt_le, b2; lra. } nra.
    - destruct (Req_EM_T A r) as [e|e].
      + assert (0 < f B) by (apply b1; lra). rewrite (a3 e). lra.
      + assert (f A < 0) by (apply a2; lra). assert (0 <= f B).
        { destruct (Req_EM_T B r); [rewrite b3; lra|]. apply Rlt_le, b1; lra. } nra.
  Qed.

  (** Position of the next point: distances to A and to B. *)
  Lemma nxt_split A B j : brk A B -> A <> B ->
    let fA := wt j * f A in
    let C := nxt A fA B (f B) in
    Rabs (C - A) = Rabs (A - B) * (Rabs fA / (Rabs fA + Rabs (f B))) /\
    Rabs (C - B) = Rabs (A - B) * (Rabs (f B) / (Rabs fA + Rabs (f B))) /\
    Rabs (A - B) = Rabs (C - A) + Rabs (C - B) /\
    0 < Rabs fA + Rabs (f B).
  Proof using Hm Hr Hslope.
    intros HB HAB fA C. pose proof (brk_den A B j HB HAB) as Hden. fold fA in Hden.
    pose proof (wt_pos j) as Hw. destruct (f_sign A) as (a1 & a2 & a3), (f_sign B) as (b1 & b2 & b3).
    assert (S : (0 <= fA /\ f B <= 0 /\ A <= B) \/ (fA <= 0 /\ 0 <= f B /\ B <= A)).
    { unfold fA. destruct HB as [HB|HB]; [left|right].
      - assert (0 <= f A) by (destruct (Req_EM_T A r); [rewrite a3; lra|apply Rlt_le, a1; lra]).
        assert (f B <= 0) by (destruct (Req_EM_T B r); [rewrite b3; lra|apply Rlt_le, b2; lra]). repeat split; nra.
      - assert (f A <= 0) by (destruct (Req_EM_T A r); [rewrite a3; lra|apply Rlt_le, a2; lra]).
        assert (0 <= f B) by (destruct (Req_EM_T B r); [rewrite b3; lra|apply Rlt_le, b1; lra]). repeat split; nra. }
    assert (HC : C - A = (B - A) * (fA / (fA - f B))) by (unfold C, nxt; field; lra).
    assert (HC' : C - B = (A - B) * (f B / (f B - fA))) by (unfold C, nxt; field; lra).
    destruct S as [(S1 & S2 & S3)|(S1 & S2 & S3)].
    - assert (P : 0 < fA - f B) by lra.
      rewrite HC, HC'. rewrite (Rabs_pos_eq fA), (Rabs_left1 (f B)), (Rabs_left1 (A - B)) by lra.
      assert (Q1 : 0 <= fA / (fA - f B)) by pos. assert (Q2 : 0 <= - f B / (fA - f B)) by pos.
      replace (f B / (f B - fA)) with (- f B / (fA - f B)) by (field; lra).
      replace (fA + - f B) with (fA - f B) by ring.
      rewrite (Rabs_pos_eq ((B - A) * _)) by (apply Rmult_le_pos; lra).
      rewrite (Rabs_left1 ((A - B) * _)) by nra. repeat split; try lra. field; lra.
    - assert (P : 0 < f B - fA) by lra.
      rewrite HC, HC'. rewrite (Rabs_left1 fA), (Rabs_pos_eq (f B)), (Rabs_pos_eq (A - B)) by lra.
      assert (Q1 : 0 <= - fA / (f B - fA)) by pos. assert (Q2 : 0 <= f B / (f B - fA)) by pos.
      replace (fA / (fA - f B)) with (- fA / (f B - fA)) by (field; lra).
      replace (- fA + f B) with (f B - fA) by ring.
      rewrite (Rabs_left1 ((B - A) * _)) by nra.
      rewrite (Rabs_pos_eq ((A - B) * _)) by (apply Rmult_le_pos; lra). repeat split; try lra. field; lra.
  Qed.

  (** The loop, on reals: [Some] final A, [None] when the fuel runs out. *)
  Fixpoint ill (fuel : nat) (A fA B fB : R) : option R :=
    match fuel with
    | O => None
    | S n =>
      if Rlt_dec tol (Rabs (B - A)) then
        let C := nxt A fA B fB in
        if Rle_dec (f C * fB) 0 then ill n B fB C (f C) else ill n A (fA / 2) C (f C)
      else Some A
    end.

  Lemma frac_mono x y a : 0 < x -> x <= y -> 0 <= a -> x / (x + a) <= y / (y + a).
  Proof.
    intros. apply Rmult_le_reg_r with ((x + a) * (y + a)); [apply Rmult_lt_0_compat; lra|].
    replace (x / (x + a) * ((x + a) * (y + a))) with (x * (y + a)) by (field; lra).
    replace (y / (y + a) * ((x + a) * (y + a))) with (y * (x + a)) by (field; lra). nra.
  Qed.
  Lemma frac_anti x a b : 0 < x -> 0 <= a -> a <= b -> x / (x + b) <= x / (x + a).
  Proof. intros. unfold Rdiv. apply Rmult_le_compat_l; [lra|]. apply Rinv_le_mono; lra. Qed.

  (** Progress constants. *)
  Definition eta1 : R := tol * ((m * (tol / 2)) / (m * (tol / 2) + L * W)).
  Definition eta2 (J : nat) : R := tol * ((wt J * (m * (tol / 2))) / (wt J * (m * (tol / 2)) + L * W)).
  Lemma eta1_pos : 0 < eta1.
  Proof using Hm HmL Htol HW. unfold eta1. assert (0 < m * (tol / 2)) by pos. assert (0 < L * W) by (apply Rmult_lt_0_compat; lra). pos. Qed.
  Lemma eta2_pos J : 0 < eta2 J.
  Proof using Hm HmL Htol HW.
    unfold eta2. pose proof (wt_pos J). assert (0 < wt J * (m * (tol / 2))) by pos.
    assert (0 < L * W) by (apply Rmult_lt_0_compat; lra). pos.
  Qed.
  Lemma wt_mono i j : (i <= j)%nat -> wt j <= wt i.
  Proof. intros. unfold wt. apply Rinv_le_mono; [apply pow_lt; lra|]. apply Rle_pow; [lra|auto]. Qed.
  Lemma wt_le1 j : wt j <= 1.
  Proof. replace 1 with (wt 0) by (unfold wt; cbn; field). apply wt_mono. lia. Qed.
  Lemma eta2_le J : eta2 J <= eta1.
  Proof using Hm HmL Htol HW.
    unfold eta1, eta2. apply Rmult_le_compat_l; [lra|]. pose proof (wt_pos J). pose proof (wt_le1 J).
    assert (0 < m * (tol / 2)) by pos.
    apply frac_mono; [pos|nra|apply Rmult_le_pos; lra].
  Qed.

  Section Run.
    Variables J K1 : nat.
    Hypothesis HJ : L * W < 2 ^ J * (m * (tol / 2)).
    Hypothesis HK1 : W <= INR K1 * eta1.
    Definition J2 : nat := J + K1.

    (** Invariant: bracket inside width W, weight exponent j bounded through the
        budget k1 of long moves. *)
    Definition inv (A B : R) (j k1 : nat) : Prop :=
      brk A B /\ Rabs (A - B) <= W /\ Rabs (A - B) <= INR k1 * eta1 /\ (k1 <= K1)%nat /\ (j + k1 <= J + K1)%nat.

    Lemma brk_abs A B : brk A B -> Rabs (A - B) = Rabs (A - r) + Rabs (B - r).
    Proof.
      intros [H|H].
      - rewrite (Rabs_left1 (A - B)), (Rabs_left1 (A - r)), (Rabs_pos_eq (B - r)); lra.
      - rewrite (Rabs_pos_eq (A - B)), (Rabs_pos_eq (A - r)), (Rabs_left1 (B - r)); lra.
    Qed.

    Lemma nxt_in A B j : brk A B -> A <> B ->
      let C := nxt A (wt j * f A) B (f B) in (A <= C <= B) \/ (B <= C <= A).
    Proof using Hm Hr Hslope.
      intros HB HAB C. destruct (nxt_split A B j HB HAB) as (_ & _ & H & _). fold C in H.
      unfold Rabs in H. repeat destruct (Rcase_abs _) in H; lra.
    Qed.

    (** Step to the same side of r as B: only A stays. *)
    Lemma same_side A B C : brk A B -> (A <= C <= B \/ B <= C <= A) -> 0 < f C * f B ->
      brk A C /\ Rabs (C - r) <= Rabs (B - r) /\ Rabs (B - r) = Rabs (C - B) + Rabs (C - r).
    Proof using Hm Hr Hslope.
      intros HB HC Hs. destruct (f_sign C) as (c1 & c2 & c3), (f_sign B) as (b1 & b2 & b3).
      assert (C <> r) by (intros e; rewrite (c3 e) in Hs; lra).
      assert (B <> r) by (intros e; rewrite (b3 e) in Hs; lra).
      unfold brk in *. destruct HB as [HB|HB].
      - assert (f B < 0) by (apply b2; lra).
        assert (r < C). { destruct (Rlt_dec r C); auto. assert (0 < f C) by (apply c1; lra). nra. }
        split; [left; lra|]. rewrite (Rabs_pos_eq (C - r)), (Rabs_pos_eq (B - r)), (Rabs_left1 (C - B)) by lra. lra.
      - assert (0 < f B) by (apply b1; lra).
        assert (C < r). { destruct (Rlt_dec C r); auto. assert (f C < 0) by (apply c2; lra). nra. }
        split; [right; lra|]. rewrite (Rabs_left1 (C - r)), (Rabs_left1 (B - r)), (Rabs_pos_eq (C - B)) by lra. lra.
    Qed.
    Lemma other_side A B C : brk A B -> (A <= C <= B \/ B <= C <= A) -> f C * f B <= 0 -> A <> B ->
      brk B C.
    Proof using Hm Hr Hslope.
      intros HB HC Hs HAB. destruct (f_sign C) as (c1 & c2 & c3), (f_sign B) as (b1 & b2 & b3).
      unfold brk in *. destruct (Req_EM_T C r) as [e|e]; [lra|]. destruct (Req_EM_T B r) as [e'|e'].
      { subst B. lra. }
      destruct HB as [HB|HB].
      - assert (f B < 0) by (apply b2; lra). right. split; [|lra].
        destruct (Rle_dec C r); auto. assert (f C < 0) by (apply c2; lra). nra.
      - assert (0 < f B) by (apply b1; lra). left. split; [lra|].
        destruct (Rle_dec r C); auto. assert (0 < f C) by (apply c1; lra). nra.
    Qed.

    Lemma main : forall n A B j k1 k2,
      inv A B j k1 -> Rabs (A - B) <= INR k2 * eta2 J2 ->
      (k2 * (2 * (J2 + 2)) + (if Rlt_dec (Rabs (A - r)) (tol / 2) then J2 + 2 else 0) + (J2 + 1 - j) < n)%nat ->
      exists x, ill n A (wt j * f A) B (f B) = Some x.
    Proof using All.
      induction n as [|n IH]; intros A B j k1 k2 Hinv Hk2 Hn; [lia|].
      destruct Hinv as (HB & HWd & Hk1 & HkK & Hj). cbn [ill].
      destruct (Rlt_dec tol (Rabs (B - A))) as [Hw|Hw]; [|eauto].
      rewrite Rabs_minus_sym in Hw.
      assert (HAB : A <> B) by (intros ->; unfold Rminus in Hw; rewrite Rplus_opp_r, Rabs_R0 in Hw; lra).
      cbv zeta. set (C := nxt A (wt j * f A) B (f B)).
      pose proof (nxt_in A B j HB HAB) as HC. fold C in HC. cbv zeta in HC.
      destruct (nxt_split A B j HB HAB) as (HdA & HdB & Hsum & Hden). fold C in HdA, HdB, Hsum.
      pose proof (f_bounds A) as FA. pose proof (f_bounds B) as FB. pose proof (brk_abs A B HB) as Hab.
      pose proof (wt_pos j) as Hwt. pose proof (wt_le1 j) as Hwt1.
      rewrite Rabs_mult, (Rabs_pos_eq (wt j)) in HdA, HdB, Hden by lra.
      set (al := Rabs (A - r)) in *. set (be := Rabs (B - r)) in *.
      assert (Hal : 0 <= al) by apply Rabs_pos. assert (Hbe : 0 <= be) by apply Rabs_pos.
      pose proof (Rabs_pos (f A)) as PA. pose proof (Rabs_pos (f B)) as PB.
      assert (HLW : 0 < L * W) by (apply Rmult_lt_0_compat; lra).
      assert (HfAle : wt j * Rabs (f A) <= L * W).
      { assert (Rabs (f A) <= L * W) by (apply Rle_trans with (L * al); [lra|]; apply Rmult_le_compat_l; lra). nra. }
      assert (HfBle : Rabs (f B) <= L * W) by (apply Rle_trans with (L * be); [lra|]; apply Rmult_le_compat_l; lra).
      pose proof (eta2_le J2) as He21. pose proof eta1_pos as He1. pose proof (eta2_pos J2) as He2.
      destruct (Rle_dec (f C * f B) 0) as [Hs|Hs].
      - (* crossing *)
        pose proof (other_side A B C HB HC Hs HAB) as HBC.
        assert (HWC : Rabs (B - C) = Rabs (A - B) - Rabs (C - A)) by (rewrite (Rabs_minus_sym B C); lra).
        pose proof (Rabs_pos (C - A)) as PCA.
        assert (E0 : ill n B (f B) C (f C) = ill n B (wt 0 * f B) C (f C)) by (f_equal; unfold wt; cbn; field).
        rewrite E0. clear E0.
        assert (Hinv' : inv B C 0 k1). { split; [auto|]. repeat split; try lra; lia. }
        destruct (Rlt_dec al (tol / 2)) as [ha|ha].
        + (* near A: A' = B is far *)
          apply (IH B C 0%nat k1 k2 Hinv'); [lra|]. fold be.
          destruct (Rlt_dec be (tol / 2)); [lra|]. lia.
        + (* far A: the width shrinks by eta2 *)
          assert (Hred : eta2 J2 <= Rabs (C - A)).
          { rewrite HdA. unfold eta2.
            apply Rmult_le_compat; [lra| |lra|].
            - assert (0 < wt J2 * (m * (tol / 2))) by (pose proof (wt_pos J2); pos). pos.
            - assert (Hx : wt J2 * (m * (tol / 2)) <= wt j * Rabs (f A)).
              { apply Rmult_le_compat; try apply Rlt_le, wt_pos; [pos| |].
                - apply wt_mono. unfold J2. lia.
                - apply Rle_trans with (m * al); [|lra]. apply Rmult_le_compat_l; lra. }
              assert (0 < wt J2 * (m * (tol / 2))) by (pose proof (wt_pos J2); pos).
              apply Rle_trans with ((wt j * Rabs (f A)) / (wt j * Rabs (f A) + L * W)).
              + apply frac_mono; lra.
              + apply frac_anti; lra. }
          destruct k2 as [|k2].
          { cbn [INR] in Hk2. lra. }
          apply (IH B C 0%nat k1 k2 Hinv').
          * rewrite S_INR in Hk2. lra.
          * destruct (Rlt_dec (Rabs (B - r)) (tol / 2)); lia.
      - (* same side *)
        apply Rnot_le_lt in Hs. destruct (same_side A B C HB HC Hs) as (HAC & Hle & Hbe').
        fold be in Hle, Hbe'.
        assert (HWC : Rabs (A - C) = Rabs (A - B) - Rabs (C - B)) by (rewrite (Rabs_minus_sym A C); lra).
        pose proof (Rabs_pos (C - B)) as PCB. pose proof (Rabs_pos (C - r)) as PCr.
        replace (wt j * f A / 2) with (wt (S j) * f A) by (rewrite wt_S; field).
        assert (Hbpos : 0 < be).
        { destruct (Req_EM_T be 0) as [e|e]; [|lra]. exfalso.
          assert (f B = 0). { assert (Rabs (f B) = 0) by nra. destruct (Req_EM_T (f B) 0); auto. now apply Rabs_no_R0 in n0. }
          rewrite H in Hs. lra. }
        assert (Hmove : Rabs (A - B) * ((m * be) / (m * be + wt j * Rabs (f A))) <= Rabs (C - B)).
        { rewrite HdB. apply Rmult_le_compat_l; [lra|]. rewrite (Rplus_comm (wt j * Rabs (f A))).
          apply frac_mono; [pos|lra|pos]. }
        destruct (Rlt_dec be (tol / 2)) as [hb|hb].
        + (* near: j < J *)
          assert (HjJ : (j < J)%nat).
          { destruct (le_lt_dec J j) as [h|h]; auto. exfalso.
            pose proof (wt_mono J j h) as Hm'.
            assert (HwJ : wt j * Rabs (f A) < m * (tol / 2)).
            { apply Rle_lt_trans with (wt J * (L * W)).
              - apply Rmult_le_compat; try lra. apply Rle_trans with (L * al); [lra|]; apply Rmult_le_compat_l; lra.
              - unfold wt. apply Rmult_lt_reg_l with (2 ^ J); [apply pow_lt; lra|].
                rewrite <- Rmult_assoc, Rinv_r, Rmult_1_l by (apply pow_nonzero; lra). exact HJ. }
            assert (Hcb : Rabs (C - B) <= be) by lra.
            assert (Hq : 1 / 2 * Rabs (A - B) * (be / (tol / 2)) < Rabs (C - B)).
            { eapply Rlt_le_trans; [|exact Hmove]. rewrite (Rmult_comm (1/2)), Rmult_assoc. apply Rmult_lt_compat_l; [lra|].
              apply Rle_lt_trans with ((m * be) * / (m * (tol / 2) + m * (tol / 2))).
              - right. replace (m * (tol / 2) + m * (tol / 2)) with (m * tol) by field. field. split; lra.
              - unfold Rdiv. apply Rmult_lt_compat_l; [pos|].
                assert (0 < m * (tol / 2)) by pos. assert (0 < m * be) by pos.
                assert (0 <= wt j * Rabs (f A)) by pos.
                apply Rinv_lt_mono; [lra|]. assert (m * be < m * (tol / 2)) by (apply Rmult_lt_compat_l; lra). lra. }
            assert (be <= 1 / 2 * Rabs (A - B) * (be / (tol / 2))).
            { replace (1 / 2 * Rabs (A - B) * (be / (tol / 2))) with (be * (Rabs (A - B) / tol)) by (field; lra).
              rewrite <- (Rmult_1_r be) at 1. apply Rmult_le_compat_l; [lra|].
              apply Rmult_le_reg_r with tol; [lra|]. unfold Rdiv. rewrite Rmult_assoc, Rinv_l; lra. }
            lra. }
          apply (IH A C (S j) k1 k2).
          * split; [auto|]. repeat split; try lra; lia.
          * lra.
          * fold al. destruct (Rlt_dec al (tol / 2)); unfold J2 in *; lia.
        + (* far: the width shrinks by eta1 *)
          assert (Hred : eta1 <= Rabs (C - B)).
          { eapply Rle_trans; [|exact Hmove]. unfold eta1. apply Rmult_le_compat; [lra| |lra|].
            - assert (0 < m * (tol / 2)) by pos. pos.
            - apply Rle_trans with ((m * be) / (m * be + L * W)).
              + apply frac_mono; [pos| |lra]. apply Rmult_le_compat_l; lra.
              + apply frac_anti; [pos|pos|lra]. }
          destruct k1 as [|k1]; [cbn [INR] in Hk1; lra|].
          destruct k2 as [|k2]; [cbn [INR] in Hk2; lra|].
          rewrite S_INR in Hk1, Hk2.
          apply (IH A C (S j) k1 k2).
          * split; [auto|]. repeat split; try lra; lia.
          * lra.
          * fold al. destruct (Rlt_dec al (tol / 2)); lia.
    Qed.
  End Run.
End Illinois.

Lemma archimed_nat x : exists n : nat, x < INR n.
Proof.
  destruct (Rle_dec 0 x) as [h|h].
  - exists (Z.to_nat (up x)). destruct (archimed x) as [H _]. rewrite INR_IZR_INZ, Z2Nat.id; auto.
    apply le_IZR. cbn. lra.
  - exists 0%nat. cbn. lra.
Qed.
Lemma INR_le_pow2 n : INR n <= 2 ^ n.
Proof.
  induction n as [|n IH]; [cbn; lra|]. rewrite S_INR. cbn [pow].
  assert (1 <= 2 ^ n) by (apply pow_R1_Rle; lra). lra.
Qed.

Lemma ill_terminates f m L tol r A B :
  0 < m -> m <= L -> 0 < tol -> (forall x y, x <= y -> m * (y - x) <= f x - f y <= L * (y - x)) ->
  f r = 0 -> (A <= r <= B \/ B <= r <= A) ->
  exists n x, ill f tol n A (f A) B (f B) = Some x.
Proof.
  intros Hm HmL Htol Hs Hr HB.
  set (W := Rmax (Rabs (A - B)) tol).
  assert (HW : tol <= W) by apply Rmax_r.
  destruct (archimed_nat (L * W / (m * (tol / 2)))) as [J HJ].
  assert (HJ' : L * W < 2 ^ J * (m * (tol / 2))).
  { assert (0 < m * (tol / 2)) by pos. pose proof (INR_le_pow2 J).
    replace (L * W) with (L * W / (m * (tol / 2)) * (m * (tol / 2))) by (field; split; lra). apply Rmult_lt_compat_r; lra. }
  pose proof (eta1_pos m L W tol Hm HmL Htol HW) as He1.
  destruct (archimed_nat (W / eta1 m L W tol)) as [K1 HK1].
  assert (HK1' : W <= INR K1 * eta1 m L W tol).
  { replace W with (W / eta1 m L W tol * eta1 m L W tol) at 1 by (field; lra). apply Rmult_le_compat_r; lra. }
  pose proof (eta2_pos m L W tol Hm HmL Htol HW (J2 J K1)) as He2.
  destruct (archimed_nat (W / eta2 m L W tol (J2 J K1))) as [k2 Hk2].
  eexists. 
  replace (f A) with (wt 0 * f A) by (unfold wt; cbn; field).
  eapply (main f m L W tol Hm HmL Htol HW Hs r Hr J K1 HJ' HK1' _ A B 0 K1 k2).
  - unfold inv, brk. split; [auto|]. assert (Rabs (A - B) <= W) by apply Rmax_l. repeat split; try lra; lia.
  - assert (Rabs (A - B) <= W) by apply Rmax_l.
    replace W with (W / eta2 m L W tol (J2 J K1) * eta2 m L W tol (J2 J K1)) in H at 1 by (field; lra).
    eapply Rle_trans; [exact H|]. apply Rmult_le_compat_r; lra.
  - apply Nat.lt_succ_diag_r.
Qed.
