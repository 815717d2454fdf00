From Coq Require Import ZArith NArith List Bool Reals Lra Lia Permutation.
From Verif Require Import Arith XR Tac ModelLib ModelGlicko2 Spec ProofElo MathIllinois MathIllinois2 MathGlicko2.
Import ListNotations.
Local Open Scope R_scope.

(** ** The volatility function on finite numbers *)
Lemma pow2_mul x : x ^ 2 = x * x. Proof. ring. Qed.
Lemma g2_f_eval x d2 p2 v s t : 0 < p2 + v -> 0 < s -> 0 < t ->
  g2_f_value (Fin x) (Fin d2) (Fin p2) (Fin v) (Fin s) (Fin t) = Fin (hf (d2 - p2 - v) (p2 + v) (ln (s ^ 2)) (t ^ 2) x).
Proof.
  intros HD Hs Ht. unfold g2_f_value, hf. cbv zeta. pose proof (exp_pos x).
  rewrite !pow2_mul. xr. reflexivity.
Qed.

(** ** Fuel *)
Lemma g2_illinois_fuel {F} {A : Arith F} n m a fa b fb d2 p2 v s t tol x : (n <= m)%nat ->
  g2_illinois n a fa b fb d2 p2 v s t tol = Some x -> g2_illinois m a fa b fb d2 p2 v s t tol = Some x.
Proof.
  revert m a fa b fb. induction n as [|n IH]; intros m a fa b fb Hm; [discriminate|].
  destruct m as [|m]; [lia|]. cbn [g2_illinois]. cbv zeta.
  destruct (_ >? _)%flt; auto. destruct (_ <=? _)%flt; apply IH; lia.
Qed.
Lemma g2_bracket_fuel {F} {A : Arith F} n m k a d2 p2 v s t x : (n <= m)%nat ->
  g2_bracket n k a d2 p2 v s t = Some x -> g2_bracket m k a d2 p2 v s t = Some x.
Proof.
  revert m k. induction n as [|n IH]; intros m k Hm; [discriminate|].
  destruct m as [|m]; [lia|]. cbn [g2_bracket]. destruct (_ <? _)%flt; auto. apply IH; lia.
Qed.
Lemma g2_new_volatility_fuel {F} {A : Arith F} n m s d2 p2 v t tol x : (n <= m)%nat ->
  g2_new_volatility n s d2 p2 v t tol = Some x -> g2_new_volatility m s d2 p2 v t tol = Some x.
Proof.
  intros Hm. unfold g2_new_volatility. cbv zeta.
  set (a := fln (fpowi s 2)).
  assert (K : forall b, match g2_illinois n a (g2_f_value a d2 p2 v s t) b (g2_f_value b d2 p2 v s t) d2 p2 v s t tol with
     | Some a => Some (fexp (a / #2)%flt) | None => None end = Some x ->
     match g2_illinois m a (g2_f_value a d2 p2 v s t) b (g2_f_value b d2 p2 v s t) d2 p2 v s t tol with
     | Some a => Some (fexp (a / #2)%flt) | None => None end = Some x).
  { intros b. destruct (g2_illinois n _ _ _ _ _ _ _ _ _ _) eqn:E; [|discriminate].
    rewrite (g2_illinois_fuel _ _ _ _ _ _ _ _ _ _ _ _ _ Hm E). auto. }
  destruct (_ >? _)%flt; [apply K|].
  destruct (g2_bracket n _ _ _ _ _ _ _) eqn:E; [|discriminate].
  rewrite (g2_bracket_fuel _ _ _ _ _ _ _ _ _ _ Hm E). apply K.
Qed.

(** ** Bracketing loop *)
Section Vol.
  Variables (d2 p2 v s t tol : R).
  Hypothesis Hd2 : 0 <= d2.
  Hypothesis Hp2 : 0 <= p2.
  Hypothesis Hv : 0 < v.
  Hypothesis Hs : 0 < s.
  Hypothesis Ht : 0 < t.
  Let D := p2 + v.
  Let S0 := d2 - p2 - v.
  Let a := ln (s ^ 2).
  Let T := t ^ 2.
  Let f := hf S0 D a T.

  Lemma HD : 0 < D. Proof using Hp2 Hv. clear -Hp2 Hv. unfold D. lra. Qed.
  Lemma HT : 0 < T. Proof using Ht. clear -Ht. unfold T. apply pow_lt; auto. Qed.
  Lemma HSD : - D <= S0. Proof using Hd2. unfold S0, D. lra. Qed.
  Lemma feval x : g2_f_value (Fin x) (Fin d2) (Fin p2) (Fin v) (Fin s) (Fin t) = Fin (f x).
  Proof using Hp2 Hv Hs Ht. apply g2_f_eval; auto. apply HD. Qed.

  Lemma bracket_spec n k : (1 <= n)%nat -> t / 2 <= INR (k + n - 1) ->
    exists j, (k <= j <= k + n - 1)%nat /\
      g2_bracket n (Fin (INR k)) (Fin a) (Fin d2) (Fin p2) (Fin v) (Fin s) (Fin t) = Some (Fin (a - INR j * t)) /\
      0 <= f (a - INR j * t) /\ (forall i, (k <= i < j)%nat -> f (a - INR i * t) < 0).
  Proof using Hd2 Hp2 Hv Hs Ht.
    revert k. induction n as [|n IH]; intros k Hn Hk; [lia|]. cbn [g2_bracket].
    rewrite xr_neg, xr_fma, feval, (xr_ofZ 0), xr_ltb.
    replace (INR k * - t + a) with (a - INR k * t) by ring.
    destruct (Rltb_spec (f (a - INR k * t)) 0) as [h|h].
    - destruct n as [|n].
      + exfalso. replace (k + 1 - 1)%nat with k in Hk by lia.
        pose proof (hf_left S0 D a T (a - INR k * t) HD HSD HT) as X. fold (f (a - INR k * t)) in X.
        replace ((a - (a - INR k * t)) / T) with (INR k / t) in X by (unfold T; field; lra).
        assert (1 / 2 <= INR k / t). { apply Rmult_le_reg_r with t; auto. replace (INR k / t * t) with (INR k) by (field; lra). lra. }
        lra.
      + rewrite (xr_ofZ 1), xr_add. change (IZR 1) with 1. rewrite <- S_INR.
        destruct (IH (S k) ltac:(lia)) as (j & Hj & E & Hf & Hlt).
        { replace (S k + S n - 1)%nat with (k + S (S n) - 1)%nat by lia. auto. }
        exists j. split; [lia|]. split; [exact E|]. split; [exact Hf|].
        intros i Hi. destruct (Nat.eq_dec i k) as [->|]; [exact h|]. apply Hlt. lia.
    - exists k. split; [lia|]. split; [reflexivity|]. split; [lra|]. intros; lia.
  Qed.

  (** ** Illinois loop *)
  (* Sign invariant. *)
  Definition inv (A fA B fB : R) : Prop := fB = f B /\ f A * f B <= 0 /\ exists p, 0 < p /\ fA = p * f A.

  Lemma ill_step n A fA B fB : inv A fA B fB -> 
    g2_illinois (S n) (Fin A) (Fin fA) (Fin B) (Fin fB) (Fin d2) (Fin p2) (Fin v) (Fin s) (Fin t) (Fin tol) =
    if Rltb tol (Rabs (B - A)) then
      if Reqb (fB - fA) 0 then (match n with O => None | S _ => Some (Fin A) end)
      else let C := A + (A - B) * fA / (fB - fA) in
        if Rleb (f C * fB) 0
        then g2_illinois n (Fin B) (Fin fB) (Fin C) (Fin (f C)) (Fin d2) (Fin p2) (Fin v) (Fin s) (Fin t) (Fin tol)
        else g2_illinois n (Fin A) (Fin (fA / 2)) (Fin C) (Fin (f C)) (Fin d2) (Fin p2) (Fin v) (Fin s) (Fin t) (Fin tol)
    else Some (Fin A).
  Proof using Hp2 Hv Hs Ht.
    intros (EB & HS & p & Hp & EA). cbn [g2_illinois]. cbv zeta.
    rewrite xr_sub, xr_abs. rewrite xr_ltb. destruct (Rltb_spec tol (Rabs (B - A))) as [h|h]; [|reflexivity].
    rewrite !xr_sub, xr_mul, (xr_ofZ 0). destruct (Reqb_spec (fB - fA) 0) as [e|e].
    - assert (Z : fA = 0 /\ fB = 0).
      { assert (fB = fA) by lra. assert (f A = 0 \/ f A <> 0) as [z|z] by (destruct (Req_EM_T (f A) 0); auto); [nra|]. exfalso.
        assert (0 < f A * f A) by nra. rewrite <- EB, H, EA in HS. nra. }
      destruct Z as [-> ->]. rewrite Rmult_0_r.
      assert (N : (Fin 0 / Fin (0 - 0))%flt = NaN). { cbn. rewrite !Reqb_true by lra. reflexivity. }
      rewrite N. change (Fin A + NaN)%flt with NaN.
      assert (FN : g2_f_value NaN (Fin d2) (Fin p2) (Fin v) (Fin s) (Fin t) = NaN).
      { unfold g2_f_value. cbv zeta. assert (x1 : (fln (fpowi (Fin s) 2)) = Fin a) by (rewrite xr_powi2; unfold a; rewrite pow2_mul; xr; reflexivity).
        rewrite x1. reflexivity. }
      rewrite FN. change ((NaN * Fin 0)%flt <=? Fin (IZR 0))%flt with false. cbv iota.
      destruct n; [reflexivity|]. reflexivity.
    - rewrite xr_div by auto. rewrite xr_add, feval, xr_mul, xr_leb. rewrite (xr_ofZ 2), xr_div by lra. reflexivity.
  Qed.

  Lemma inv_cross A fA B fB C : inv A fA B fB -> f C * fB <= 0 -> inv B fB C (f C).
  Proof. intros (EB & HS & p & Hp & EA) H. split; [reflexivity|]. split; [subst; lra|]. exists 1. split; lra. Qed.
  Lemma inv_keep A fA B fB C : inv A fA B fB -> 0 < f C * fB -> inv A (fA / 2) C (f C).
  Proof.
    intros (EB & HS & p & Hp & EA) H. split; [reflexivity|]. split.
    - subst fB. apply Rnot_lt_le. intros X. assert (0 < f C * f B * (f A * f C)) by nra.
      assert (0 <= (f C) * (f C)) by nra. nra.
    - exists (p / 2). split; [lra|]. subst fA. field.
  Qed.

  Lemma ill_sound n A fA B fB x : 0 <= tol -> inv A fA B fB ->
    g2_illinois n (Fin A) (Fin fA) (Fin B) (Fin fB) (Fin d2) (Fin p2) (Fin v) (Fin s) (Fin t) (Fin tol) = Some x ->
    exists X z, x = Fin X /\ f z = 0 /\ Rabs (X - z) <= tol.
  Proof using Hp2 Hv Hs Ht.
    intros Htol. revert A fA B fB. induction n as [|n IH]; intros A fA B fB HI; [discriminate|].
    rewrite (ill_step n A fA B fB HI). destruct (Rltb_spec tol (Rabs (B - A))) as [h|h].
    - destruct (Reqb_spec (fB - fA) 0) as [e|e].
      + destruct n; [discriminate|]. intros [= <-]. exists A, A. split; [reflexivity|].
        split; [|rewrite Rminus_eq_0, Rabs_R0; auto].
        destruct HI as (EB & HS & p & Hp & EA). assert (fB = fA) by lra. rewrite <- EB, H, EA in HS.
        assert (0 <= f A * f A) by nra. assert (f A * f A <= 0) by nra. nra.
      + cbv zeta. set (C := A + (A - B) * fA / (fB - fA)). destruct (Rleb_spec (f C * fB) 0) as [hc|hc].
        * apply IH. now apply (inv_cross A fA B fB).
        * apply IH. apply (inv_keep A fA B fB); auto. lra.
    - intros [= <-]. destruct HI as (EB & HS & _). destruct (hf_root S0 D a T A B HD HT HS) as (z & Hz & Hb).
      exists A, z. split; [reflexivity|]. split; [exact Hz|].
      apply Rnot_lt_le in h. revert h. unfold Rabs. destruct (Rcase_abs (B - A)), (Rcase_abs (A - z)); lra.
  Qed.

  (** Termination transfers from the abstract loop when f is strictly decreasing. *)
  Lemma ill_agrees n A fA B fB x : 0 < tol -> (forall x y, x < y -> f y < f x) -> inv A fA B fB ->
    ill f tol n A fA B fB = Some x ->
    g2_illinois n (Fin A) (Fin fA) (Fin B) (Fin fB) (Fin d2) (Fin p2) (Fin v) (Fin s) (Fin t) (Fin tol) = Some (Fin x).
  Proof using Hp2 Hv Hs Ht.
    intros Htol Hmon. revert A fA B fB. induction n as [|n IH]; intros A fA B fB HI; [discriminate|].
    rewrite (ill_step n A fA B fB HI). cbn [ill]. unfold Rltb. destruct (Rlt_dec tol (Rabs (B - A))) as [h|h]; [|congruence].
    destruct (Reqb_spec (fB - fA) 0) as [e|e].
    - exfalso. destruct HI as (EB & HS & p & Hp & EA). assert (E : fB = fA) by lra. rewrite <- EB, E, EA in HS.
      assert (Z : f A = 0). { destruct (Req_EM_T (f A) 0) as [z|z]; auto. exfalso. assert (0 < f A * f A) by nra. assert (0 < p * (f A * f A)) by (apply Rmult_lt_0_compat; lra). lra. }
      assert (Z' : f B = 0) by (rewrite <- EB, E, EA, Z; ring).
      assert (A = B). { destruct (Rtotal_order A B) as [l|[l|l]]; auto; apply Hmon in l; lra. }
      subst. rewrite Rminus_eq_0, Rabs_R0 in h. lra.
    - cbv zeta. unfold nxt. set (C := A + (A - B) * fA / (fB - fA)). unfold Rleb. destruct (Rle_dec (f C * fB) 0) as [hc|hc].
      + apply IH. now apply (inv_cross A fA B fB).
      + apply IH. apply (inv_keep A fA B fB); auto. lra.
  Qed.

  (** ** The whole iteration *)
  Lemma a_eval : fln (fpowi (Fin s) 2) = Fin a.
  Proof using Hs. rewrite xr_powi2. unfold a. rewrite pow2_mul. xr. reflexivity. Qed.

  Lemma start_bracket n : t / 2 <= INR n -> (1 <= n)%nat ->
    exists b, (if (Fin d2 >? Fin p2 + Fin v)%flt then Some (fln (Fin d2 - Fin p2 - Fin v)%flt)
       else g2_bracket n (#1)%flt (Fin a) (Fin d2) (Fin p2) (Fin v) (Fin s) (Fin t)) = Some (Fin b) /\ f a * f b <= 0.
  Proof using Hd2 Hp2 Hv Hs Ht.
    intros Hn H1. rewrite !xr_add, !xr_sub, xr_ltb. destruct (Rltb_spec (p2 + v) d2) as [h|h].
    - exists (ln S0). fold S0. rewrite xr_ln by (unfold S0; lra). split; [reflexivity|].
      apply hf_bracket_S; try apply HD; try apply HT. unfold S0; lra.
    - destruct (bracket_spec n 1 H1) as (j & Hj & E & Hf & _).
      { replace (1 + n - 1)%nat with n by lia. auto. }
      change (Fin (INR 1)) with (@fofZ XR XRA 1) in E. rewrite E. exists (a - INR j * t). split; [reflexivity|].
      assert (f a <= 0). { apply Rlt_le. apply hf_at_a; [apply HD|apply HT|]. pose proof (exp_pos a). unfold S0. lra. }
      nra.
  Qed.
  Lemma start_some n b : (if (Fin d2 >? Fin p2 + Fin v)%flt then Some (fln (Fin d2 - Fin p2 - Fin v)%flt)
       else g2_bracket n (#1)%flt (Fin a) (Fin d2) (Fin p2) (Fin v) (Fin s) (Fin t)) = Some b ->
    exists b', b = Fin b' /\ f a * f b' <= 0.
  Proof using Hd2 Hp2 Hv Hs Ht.
    intros H. destruct (archimed_nat (t / 2)) as (N & HN).
    destruct (start_bracket (max n (max 1 N))) as (b' & E & P); [|lia|].
    - apply Rle_trans with (INR N); [lra|]. apply le_INR. lia.
    - exists b'. split; auto. destruct (_ >? _)%flt; [congruence|].
      apply (g2_bracket_fuel n (max n (max 1 N))) in H; [congruence|lia].
  Qed.

  Lemma vol_sound n x : 0 <= tol ->
    g2_new_volatility n (Fin s) (Fin d2) (Fin p2) (Fin v) (Fin t) (Fin tol) = Some x ->
    exists s' z, x = Fin s' /\ 0 < s' /\ f z = 0 /\ Rabs (ln (s' ^ 2) - z) <= tol.
  Proof using Hd2 Hp2 Hv Hs Ht.
    intros Htol. unfold g2_new_volatility. cbv zeta. rewrite a_eval.
    match goal with |- context [match ?X with Some _ => _ | None => None end] => set (ob := X); pose proof (start_some n) as SS; fold ob in SS end.
    destruct ob as [b|]; [|discriminate]. destruct (SS b eq_refl) as (b' & -> & P). rewrite !feval.
    destruct (g2_illinois _ _ _ _ _ _ _ _ _ _ _) as [y|] eqn:E; [|discriminate]. intros Hx.
    assert (Hx' : fexp (y / #2)%flt = x) by congruence. clear Hx. subst x.
    apply ill_sound in E; auto.
    - destruct E as (X & z & -> & Hz & Hd). exists (exp (X / 2)), z.
      split; [rewrite (xr_ofZ 2), xr_div, xr_exp by lra; reflexivity|]. split; [apply exp_pos|]. split; [exact Hz|].
      replace (exp (X / 2) ^ 2) with (exp X). { now rewrite ln_exp. }
      cbn [pow]. rewrite Rmult_1_r, <- exp_plus. f_equal. field.
    - split; [reflexivity|]. split; [exact P|]. exists 1. split; lra.
  Qed.

  Lemma vol_terminates : 0 < tol -> d2 < (p2 + v) * (1 + 27 / (2 * t ^ 2)) ->
    exists n0, forall n, (n0 <= n)%nat ->
      exists s', g2_new_volatility n (Fin s) (Fin d2) (Fin p2) (Fin v) (Fin t) (Fin tol) = Some (Fin s').
  Proof using Hd2 Hp2 Hv Hs Ht.
    intros Htol Hc. destruct (archimed_nat (t / 2)) as (N & HN).
    destruct (start_bracket (max 1 N)) as (b & EB & P); [|lia|].
    { apply Rle_trans with (INR N); [lra|]. apply le_INR. lia. }
    pose proof HD as pD. pose proof HT as pT. pose proof HSD as pS.
    set (m := hm S0 D T). set (L := (Rabs S0 + Rabs S0 + 2 * D) / D + / T).
    assert (Hm : 0 < m).
    { unfold m, hm, Rmax. destruct (Rle_dec S0 0) as [h|h]; [rewrite Rmult_0_r; unfold Rdiv; rewrite Rmult_0_l, Rminus_0_r; now apply Rinv_0_lt_compat|].
      enough (2 * S0 / (27 * D) < / T) by lra. apply Rmult_lt_reg_r with (27 * D * T); [nra|].
      replace (2 * S0 / (27 * D) * (27 * D * T)) with (2 * S0 * T) by (field; lra).
      replace (/ T * (27 * D * T)) with (27 * D) by (field; lra).
      fold D T in Hc. assert (X : D * (1 + 27 / (2 * T)) * T = D * T + 27 * D / 2) by (field; lra).
      assert (d2 * T < D * (1 + 27 / (2 * T)) * T) by (apply Rmult_lt_compat_r; auto). rewrite X in H. unfold S0, D in *. nra. }
    assert (Hsl : forall x y, x <= y -> m * (y - x) <= f x - f y <= L * (y - x)).
    { intros. apply hf_slope; auto. lra. }
    assert (HmL : m <= L). { specialize (Hsl 0 1 ltac:(lra)). lra. }
    destruct (hf_root S0 D a T a b pD pT P) as (r & Hr & Hbr).
    destruct (ill_terminates f m L tol r a b Hm HmL Htol Hsl Hr Hbr) as (n1 & x & E).
    exists (max n1 (max 1 N)). intros n Hn. exists (exp (x / 2)).
    apply (g2_new_volatility_fuel (max n1 (max 1 N))); [lia|].
    unfold g2_new_volatility. cbv zeta. rewrite a_eval.
    assert (EB' : (if (Fin d2 >? Fin p2 + Fin v)%flt then Some (fln (Fin d2 - Fin p2 - Fin v)%flt)
       else g2_bracket (max n1 (max 1 N)) (#1)%flt (Fin a) (Fin d2) (Fin p2) (Fin v) (Fin s) (Fin t)) = Some (Fin b)).
    { destruct (_ >? _)%flt; auto. apply (g2_bracket_fuel (max 1 N)); [lia|auto]. }
    rewrite EB', !feval. apply ill_agrees in E; auto.
    - apply (g2_illinois_fuel n1 (max n1 (max 1 N))) in E; [|lia]. rewrite E.
      rewrite (xr_ofZ 2), xr_div, xr_exp by lra. reflexivity.
    - intros x0 y0 h. specialize (Hsl x0 y0 ltac:(lra)). assert (0 < m * (y0 - x0)) by (apply Rmult_lt_0_compat; lra). lra.
    - split; [reflexivity|]. split; [exact P|]. exists 1. split; lra.
  Qed.

  (** Termination whenever all zeros of f are simple. *)
  Lemma ill_agrees' n A fA B fB x : inv A fA B fB ->
    ill f tol n A fA B fB = Some x ->
    exists y, g2_illinois (S n) (Fin A) (Fin fA) (Fin B) (Fin fB) (Fin d2) (Fin p2) (Fin v) (Fin s) (Fin t) (Fin tol) = Some (Fin y).
  Proof using Hp2 Hv Hs Ht.
    revert A fA B fB. induction n as [|n IH]; intros A fA B fB HI; [discriminate|].
    rewrite (ill_step (S n) A fA B fB HI). cbn [ill]. unfold Rltb. destruct (Rlt_dec tol (Rabs (B - A))) as [h|h]; [|eauto].
    destruct (Reqb_spec (fB - fA) 0) as [e|e]; [eauto|].
    cbv zeta. unfold nxt. set (C := A + (A - B) * fA / (fB - fA)). unfold Rleb. destruct (Rle_dec (f C * fB) 0) as [hc|hc].
    - apply IH. now apply (inv_cross A fA B fB).
    - apply IH. apply (inv_keep A fA B fB); auto. lra.
  Qed.
  Lemma vol_terminates_simple : 0 < tol -> (forall x, f x = 0 -> hf' S0 D T x <> 0) ->
    exists n0, forall n, (n0 <= n)%nat ->
      exists s', g2_new_volatility n (Fin s) (Fin d2) (Fin p2) (Fin v) (Fin t) (Fin tol) = Some (Fin s').
  Proof using Hd2 Hp2 Hv Hs Ht.
    intros Htol Hc. destruct (archimed_nat (t / 2)) as (N & HN).
    destruct (start_bracket (max 1 N)) as (b & EB & P); [|lia|].
    { apply Rle_trans with (INR N); [lra|]. apply le_INR. lia. }
    pose proof HD as pD. pose proof HT as pT.
    assert (I : inv a (f a) b (f b)) by (split; [reflexivity|]; split; [exact P|]; exists 1; split; lra).
    assert (G : exists n1 y, g2_illinois n1 (Fin a) (Fin (f a)) (Fin b) (Fin (f b)) (Fin d2) (Fin p2) (Fin v) (Fin s) (Fin t) (Fin tol) = Some (Fin y)).
    { assert (Z : f a <> 0 \/ f b <> 0 \/ (f a = 0 /\ f b = 0)).
      { destruct (Req_EM_T (f a) 0), (Req_EM_T (f b) 0); auto. }
      assert (Z' : f a <> 0 \/ f b <> 0 -> exists n x, ill f tol n a (f a) b (f b) = Some x).
      { intros Z'. apply ill_terminates_simple; auto.
        - intros x. apply hf_cont; auto.
        - intros x Hx. exists (hf' S0 D T x). split; auto. apply hf_dlim; auto. }
      destruct Z as [Z|[Z|[Z1 Z2]]].
      - destruct Z' as (n & x & E); auto. apply ill_agrees' in E; auto. destruct E as (y & E). eauto.
      - destruct Z' as (n & x & E); auto. apply ill_agrees' in E; auto. destruct E as (y & E). eauto.
      - exists 2%nat, a. rewrite (ill_step 1 _ _ _ _ I). destruct (Rltb_spec tol (Rabs (b - a))); auto.
        destruct (Reqb_spec (f b - f a) 0); [auto|lra]. }
    destruct G as (n1 & x & E).
    exists (max n1 (max 1 N)). intros n Hn. exists (exp (x / 2)).
    apply (g2_new_volatility_fuel (max n1 (max 1 N))); [lia|].
    unfold g2_new_volatility. cbv zeta. rewrite a_eval.
    assert (EB' : (if (Fin d2 >? Fin p2 + Fin v)%flt then Some (fln (Fin d2 - Fin p2 - Fin v)%flt)
       else g2_bracket (max n1 (max 1 N)) (#1)%flt (Fin a) (Fin d2) (Fin p2) (Fin v) (Fin s) (Fin t)) = Some (Fin b)).
    { destruct (_ >? _)%flt; auto. apply (g2_bracket_fuel (max 1 N)); [lia|auto]. }
    rewrite EB', !feval.
    apply (g2_illinois_fuel n1 (max n1 (max 1 N))) in E; [|lia]. rewrite E.
    rewrite (xr_ofZ 2), xr_div, xr_exp by lra. reflexivity.
  Qed.

  Lemma vol_unique z z' : d2 < (p2 + v) * (1 + 27 / (2 * t ^ 2)) -> f z = 0 -> f z' = 0 -> z = z'.
  Proof using Hd2 Hp2 Hv Hs Ht.
    intros Hc. pose proof HD as pD. pose proof HT as pT. pose proof HSD as pS. intros h1 h2.
    assert (Hm : 0 < hm S0 D T).
    { unfold hm, Rmax. destruct (Rle_dec S0 0) as [h|h]; [rewrite Rmult_0_r; unfold Rdiv; rewrite Rmult_0_l, Rminus_0_r; now apply Rinv_0_lt_compat|].
      enough (2 * S0 / (27 * D) < / T) by lra. apply Rmult_lt_reg_r with (27 * D * T); [nra|].
      replace (2 * S0 / (27 * D) * (27 * D * T)) with (2 * S0 * T) by (field; lra).
      replace (/ T * (27 * D * T)) with (27 * D) by (field; lra).
      fold D T in Hc. assert (X : D * (1 + 27 / (2 * T)) * T = D * T + 27 * D / 2) by (field; lra).
      assert (d2 * T < D * (1 + 27 / (2 * T)) * T) by (apply Rmult_lt_compat_r; auto). rewrite X in H. unfold S0, D in *. nra. }
    pose proof (hf_slope S0 D a T pD pT ltac:(lra)) as Hsl. fold f in Hsl.
    destruct (Rtotal_order z z') as [l|[l|l]]; auto.
    - specialize (Hsl z z' ltac:(lra)). nra.
    - specialize (Hsl z' z ltac:(lra)). nra.
  Qed.
End Vol.

(** ** Evaluation of the game functions *)
Lemma g2s_pos : 0 < g2s. Proof. unfold g2s; lra. Qed.
Lemma g2_scale_eval : @g2_scale XR XRA = Fin g2s. Proof. reflexivity. Qed.
Lemma g2_mu_eval r : ((Fin r - #1500) / g2_scale)%flt = Fin (g2mu r).
Proof. rewrite g2_scale_eval. pose proof g2s_pos. xr. reflexivity. Qed.
Lemma g2_phi_eval d : (Fin d / g2_scale)%flt = Fin (g2phi d).
Proof. rewrite g2_scale_eval. pose proof g2s_pos. xr. reflexivity. Qed.
Lemma g2g_arg phi : 1 <= 1 + 3 * phi ^ 2 / PI ^ 2.
Proof.
  pose proof PI_RGT_0. assert (0 <= phi ^ 2) by apply pow2_ge_0.
  enough (0 <= 3 * phi ^ 2 / PI ^ 2) by lra. pos.
Qed.
Lemma g2g_range phi : 0 < g2g phi <= 1.
Proof.
  pose proof (g2g_arg phi). unfold g2g. assert (1 <= sqrt (1 + 3 * phi ^ 2 / PI ^ 2)) by now apply sqrt_ge_1.
  split; [pos|]. apply Rinv_le_1; auto.
Qed.
Lemma g2_g_eval phi : g2_g_value (Fin phi) = Fin (g2g phi).
Proof.
  unfold g2_g_value, g2g. pose proof PI_RGT_0. pose proof (g2g_arg phi) as H1. rewrite !pow2_mul in *.
  xr. assert (1 <= sqrt (1 + 3 * (phi * phi) / (PI * PI))) by now apply sqrt_ge_1. xr. reflexivity.
Qed.
Lemma g2E_range mu muj phij : 0 < g2E mu muj phij < 1.
Proof. apply logistic_bounds, exp_pos. Qed.
Lemma g2_e_eval mu muj phij : g2_e_value (Fin mu) (Fin muj) (Fin (g2g phij)) = Fin (g2E mu muj phij).
Proof. unfold g2_e_value, g2E. xr. reflexivity. Qed.
Definition g2t (mu : R) (g : R * R * R) : R := let '(muj, phij, s) := g in g2g phij ^ 2 * g2E mu muj phij * (1 - g2E mu muj phij).
Lemma g2t_pos mu g : 0 < g2t mu g.
Proof. destruct g as [[muj phij] s]. unfold g2t. pose proof (g2g_range phij). pose proof (g2E_range mu muj phij). pos. Qed.
Lemma g2v_sum_pos mu games : games <> [] -> 0 < Rsum (map (g2t mu) games).
Proof.
  intros H. apply Rsum_pos; [destruct games; [congruence|discriminate]|].
  intros x Hx. apply in_map_iff in Hx as (g & <- & _). apply g2t_pos.
Qed.
Lemma g2v_def mu games : g2v mu games = / Rsum (map (g2t mu) games).
Proof. unfold g2v. f_equal. Qed.
Lemma g2v_pos mu games : games <> [] -> 0 < g2v mu games.
Proof. intros H. rewrite g2v_def. apply Rinv_0_lt_compat, g2v_sum_pos; auto. Qed.
Lemma g2v_single mu muj phij s : g2v mu [(muj, phij, s)] = / (g2g phij ^ 2 * g2E mu muj phij * (1 - g2E mu muj phij)).
Proof. unfold g2v. cbn [map]. rewrite Rsum_cons, Rsum_nil, Rplus_0_r. reflexivity. Qed.
Lemma g2M_single mu muj phij s : g2M mu [(muj, phij, s)] = g2g phij * (s - g2E mu muj phij).
Proof. unfold g2M. cbn [map]. rewrite Rsum_cons, Rsum_nil, Rplus_0_r. reflexivity. Qed.
Lemma g2v_perm mu gs gs' : Permutation gs gs' -> g2v mu gs = g2v mu gs'.
Proof. intros H. unfold g2v. f_equal. apply Rsum_perm, Permutation_map, H. Qed.
Lemma g2M_perm mu gs gs' : Permutation gs gs' -> g2M mu gs = g2M mu gs'.
Proof. intros H. unfold g2M. apply Rsum_perm, Permutation_map, H. Qed.

Lemma g2_phi'_pos phi s' v : 0 < s' -> 0 < v -> 0 < g2_phi' phi s' v.
Proof. intros. unfold g2_phi'. assert (0 <= phi ^ 2) by apply pow2_ge_0. pos. Qed.
Lemma g2_new_deviation_eval phi s' v : 0 < s' -> 0 < v ->
  g2_new_deviation (Fin phi) (Fin s') (Fin v) = Fin (g2_phi' phi s' v).
Proof.
  intros Hs Hv. unfold g2_new_deviation, g2_phi'. cbv zeta. assert (0 <= phi * phi) by (apply Rle_0_sqr).
  rewrite !pow2_mul. assert (0 < phi * phi + s' * s') by nra.
  rewrite xr_hypot, xr_powi2, sqrt_sqrt by lra. assert (0 < / (phi * phi + s' * s') + / v) by pos. xr. reflexivity.
Qed.

(** The volatility step of a game or period. *)
Definition g2_vol (fuel : nat) (r RD s t tol : R) (games : list (R * R * R)) : option XR :=
  let v := g2v (g2mu r) games in
  g2_new_volatility fuel (Fin s) (Fin ((v * g2M (g2mu r) games) ^ 2)) (Fin (g2phi RD ^ 2)) (Fin v) (Fin t) (Fin tol).
Definition g2_out (r RD : R) (games : list (R * R * R)) (x : XR) : Glicko2Rating XR :=
  let v := g2v (g2mu r) games in
  let nd := g2_new_deviation (Fin (g2phi RD)) x (Fin v) in
  mkGlicko2 (ffma (ffma (fpowi nd 2) (Fin (g2M (g2mu r) games)) (Fin (g2mu r))) g2_scale #1500)%flt (nd * g2_scale)%flt x.

Lemma g2_out_eval r RD games s' : games <> [] -> 0 < s' ->
  g2_out r RD games (Fin s') = mkGlicko2 (Fin (g2_new_r r RD s' games)) (Fin (g2_new_rd r RD s' games)) (Fin s').
Proof.
  intros Hg Hs. unfold g2_out, g2_new_r, g2_new_rd. cbv zeta.
  rewrite g2_new_deviation_eval by (auto; now apply g2v_pos). rewrite g2_scale_eval, pow2_mul. xr.
  f_equal; f_equal; ring.
Qed.
Lemma g2_vol_sound fuel r RD s t tol games x : games <> [] -> 0 < s -> 0 < t -> 0 <= tol ->
  g2_vol fuel r RD s t tol games = Some x ->
  let v := g2v (g2mu r) games in
  exists s', x = Fin s' /\ g2_solves (v * g2M (g2mu r) games) (g2phi RD) v s t tol s'.
Proof.
  intros Hg Hs Ht Htol H v. pose proof (g2v_pos (g2mu r) games Hg) as Hv. unfold g2_vol in H. cbv zeta in H. fold v in H, Hv.
  apply vol_sound in H; auto; try apply pow2_ge_0.
  destruct H as (s' & z & -> & Hs' & Hz & Hd). exists s'. split; [reflexivity|]. split; [exact Hs'|]. exists z. split; [|exact Hd].
  rewrite g2f_hf. exact Hz.
Qed.

Definition g2_games (rs : list (R * R * Outcomes)) : list (R * R * R) :=
  map (fun '(rj, RDj, o) => (g2mu rj, g2phi RDj, points o)) rs.
Lemma g2_period_eval fuel r RD s t tol (rs : list (R * R * R * Outcomes)) : rs <> [] ->
  glicko2_rating_period fuel (mkGlicko2 (Fin r) (Fin RD) (Fin s))
    (map (fun '(rj, RDj, sj, o) => (mkGlicko2 (Fin rj) (Fin RDj) (Fin sj), o)) rs) (mkGlicko2Config (Fin t) (Fin tol)) =
  let games := map (fun '(rj, RDj, _, o) => (g2mu rj, g2phi RDj, points o)) rs in
  match g2_vol fuel r RD s t tol games with None => None | Some x => Some (g2_out r RD games x) end.
Proof.
  intros Hne. set (games := map (fun (x : R * R * R * Outcomes) => let (y, o) := x in let (z, _) := y in let (rj, RDj) := z in (g2mu rj, g2phi RDj, points o)) rs). cbv zeta. unfold glicko2_rating_period. set (ps := map _ rs).
  destruct ps as [|p0 ps0] eqn:E; [destruct rs; [congruence|discriminate]|]. rewrite <- E. clear E p0 ps0. unfold ps; clear ps.
  cbn [g2_rating g2_deviation g2_volatility g2_tau g2_convergence_tolerance]. rewrite g2_mu_eval, g2_phi_eval.
  assert (V : fsum (map (fun q : Glicko2Rating XR * Outcomes =>
          let g := g2_g_value (g2_deviation (fst q) / g2_scale)%flt in
          let e := g2_e_value (Fin (g2mu r)) ((g2_rating (fst q) - #1500) / g2_scale)%flt g in
          (fpowi g 2 * e * (#1 - e))%flt) (map (fun '(rj, RDj, sj, o) => (mkGlicko2 (Fin rj) (Fin RDj) (Fin sj), o)) rs))
     = Fin (Rsum (map (g2t (g2mu r)) games))).
  { rewrite map_map. unfold games. rewrite map_map. apply xr_sum_map. intros [[[rj RDj] sj] o] _.
    cbn [fst g2_rating g2_deviation]. cbv zeta. rewrite g2_mu_eval, g2_phi_eval, g2_g_eval, g2_e_eval. unfold g2t.
    rewrite (xr_ofZ 1). xr. f_equal. ring. }
  assert (M : fsum (map (fun q : Glicko2Rating XR * Outcomes =>
          let g := g2_g_value (g2_deviation (fst q) / g2_scale)%flt in
          let e := g2_e_value (Fin (g2mu r)) ((g2_rating (fst q) - #1500) / g2_scale)%flt g in
          let s := to_chess_points (snd q) in
          (g * (s - e))%flt) (map (fun '(rj, RDj, sj, o) => (mkGlicko2 (Fin rj) (Fin RDj) (Fin sj), o)) rs))
     = Fin (g2M (g2mu r) games)).
  { rewrite map_map. unfold games, g2M. rewrite map_map. apply xr_sum_map. intros [[[rj RDj] sj] o] _.
    cbn [fst snd g2_rating g2_deviation]. cbv zeta. rewrite g2_mu_eval, g2_phi_eval, g2_g_eval, g2_e_eval, points_eval. xr. reflexivity. }
  assert (Hg : games <> []) by (unfold games; destruct rs; [congruence|discriminate]).
  pose proof (g2v_sum_pos (g2mu r) games Hg) as HV.
  cbv zeta in *. rewrite V, M. rewrite xr_recip by lra. rewrite <- g2v_def. rewrite !xr_mul, !xr_powi2, <- !pow2_mul.
  unfold g2_vol, g2_out. cbv zeta. destruct (g2_new_volatility _ _ _ _ _ _ _); reflexivity.
Qed.

Lemma g2_game_eval fuel r1 RD1 s1 r2 RD2 s2 o t tol :
  glicko2 fuel (mkGlicko2 (Fin r1) (Fin RD1) (Fin s1)) (mkGlicko2 (Fin r2) (Fin RD2) (Fin s2)) o (mkGlicko2Config (Fin t) (Fin tol)) =
  let ga := [(g2mu r2, g2phi RD2, points o)] in
  let gb := [(g2mu r1, g2phi RD1, points (invert o))] in
  match g2_vol fuel r1 RD1 s1 t tol ga, g2_vol fuel r2 RD2 s2 t tol gb with
  | Some x, Some y =>
      let nd1 := g2_new_deviation (Fin (g2phi RD1)) x (Fin (g2v (g2mu r1) ga)) in
      let nd2 := g2_new_deviation (Fin (g2phi RD2)) y (Fin (g2v (g2mu r2) gb)) in
      Some (mkGlicko2 (ffma (g2_new_rating (Fin (g2mu r1)) nd1 (Fin (points o)) (Fin (g2g (g2phi RD2))) (Fin (g2E (g2mu r1) (g2mu r2) (g2phi RD2)))) g2_scale #1500)%flt (nd1 * g2_scale)%flt x,
            mkGlicko2 (ffma (g2_new_rating (Fin (g2mu r2)) nd2 (Fin (points (invert o))) (Fin (g2g (g2phi RD1))) (Fin (g2E (g2mu r2) (g2mu r1) (g2phi RD1)))) g2_scale #1500)%flt (nd2 * g2_scale)%flt y)
  | _, _ => None
  end.
Proof.
  intros. unfold glicko2. cbv zeta. cbn [g2_rating g2_deviation g2_volatility g2_tau g2_convergence_tolerance].
  rewrite !g2_mu_eval, !g2_phi_eval, !g2_g_eval, !g2_e_eval, points_eval.
  assert (PI' : (#1 - Fin (points o))%flt = Fin (points (invert o))).
  { rewrite xr_ofZ, xr_sub. destruct o; cbn [points invert]; f_equal; lra. }
  rewrite PI'.
  assert (V : forall mu muj phij s, g2_v_value (Fin (g2g phij)) (Fin (g2E mu muj phij)) = Fin (g2v mu [(muj, phij, s)])).
  { intros. unfold g2_v_value. rewrite g2v_single. pose proof (g2g_range phij). pose proof (g2E_range mu muj phij).
    rewrite pow2_mul, (xr_ofZ 1). assert (0 < 1 - g2E mu muj phij) by lra. xr. reflexivity. }
  rewrite (V _ _ _ (points o)), (V _ _ _ (points (invert o))).
  assert (DL : forall mu muj phij s, g2_delta_value (Fin s) (Fin (g2v mu [(muj, phij, s)])) (Fin (g2g phij)) (Fin (g2E mu muj phij))
     = Fin (g2v mu [(muj, phij, s)] * g2M mu [(muj, phij, s)])).
  { intros. unfold g2_delta_value. rewrite g2M_single. xr. reflexivity. }
  rewrite !DL. rewrite !xr_powi2, <- !pow2_mul. reflexivity.
Qed.
Lemma g2_new_rating_out r RD rj RDj s s' : 0 < s' ->
  let g := [(g2mu rj, g2phi RDj, s)] in
  let nd := g2_new_deviation (Fin (g2phi RD)) (Fin s') (Fin (g2v (g2mu r) g)) in
  mkGlicko2 (ffma (g2_new_rating (Fin (g2mu r)) nd (Fin s) (Fin (g2g (g2phi RDj))) (Fin (g2E (g2mu r) (g2mu rj) (g2phi RDj)))) g2_scale #1500)%flt
    (nd * g2_scale)%flt (Fin s') = g2_out r RD g (Fin s').
Proof.
  intros Hs g. pose proof (g2v_pos (g2mu r) g ltac:(discriminate)) as Hv. cbv zeta. unfold g2_out. cbv zeta.
  rewrite g2_new_deviation_eval by auto. f_equal. unfold g2_new_rating, g. rewrite g2M_single. f_equal. xr. f_equal. ring.
Qed.

(** ** Property proofs *)
Lemma C37_proof : forall s d2 p2 v t n, 0 <= d2 -> 0 <= p2 -> 0 < v -> 0 < s -> 0 < t ->
  (1 <= n)%nat -> t / 2 <= INR n ->
  exists k, (1 <= k <= n)%nat /\
    g2_bracket n (Fin 1) (Fin (ln (s ^ 2))) (Fin d2) (Fin p2) (Fin v) (Fin s) (Fin t) = Some (Fin (ln (s ^ 2) - INR k * t)) /\
    0 <= g2f (sqrt d2) (sqrt p2) v s t (ln (s ^ 2) - INR k * t) /\
    (forall i, (1 <= i < k)%nat -> g2f (sqrt d2) (sqrt p2) v s t (ln (s ^ 2) - INR i * t) < 0).
Proof.
  intros s d2 p2 v t n Hd Hp Hv Hs Ht Hn Hk.
  destruct (bracket_spec d2 p2 v s t Hd Hp Hv Hs Ht n 1 Hn) as (j & Hj & E & Hf & Hl).
  { replace (1 + n - 1)%nat with n by lia. auto. }
  exists j. split; [lia|]. split; [exact E|]. rewrite g2f_hf, !pow2_sqrt by auto. split; [exact Hf|].
  intros i Hi. rewrite g2f_hf, !pow2_sqrt by auto. apply Hl; auto.
Qed.

Lemma C38_proof : forall fuel s delta phi v t tol x, 0 < v -> 0 < s -> 0 < t -> 0 <= tol ->
  g2_new_volatility fuel (Fin s) (Fin (delta ^ 2)) (Fin (phi ^ 2)) (Fin v) (Fin t) (Fin tol) = Some x ->
  exists s', x = Fin s' /\ g2_solves delta phi v s t tol s'.
Proof.
  intros fuel s delta phi v t tol x Hv Hs Ht Htol H. apply vol_sound in H; auto; try apply pow2_ge_0.
  destruct H as (s' & z & -> & Hs' & Hz & Hd). exists s'. split; [reflexivity|]. split; [exact Hs'|]. exists z. split; [|exact Hd].
  rewrite g2f_hf. exact Hz.
Qed.

Lemma g2_new_r_dir r RD s' muj phij s : 0 < s' ->
  (g2E (g2mu r) muj phij < s -> r < g2_new_r r RD s' [(muj, phij, s)]) /\
  (s < g2E (g2mu r) muj phij -> g2_new_r r RD s' [(muj, phij, s)] < r).
Proof.
  intros Hs. unfold g2_new_r. cbv zeta. rewrite g2M_single.
  pose proof (g2_phi'_pos (g2phi RD) s' _ Hs (g2v_pos (g2mu r) [(muj, phij, s)] ltac:(discriminate))) as Hp.
  pose proof (g2g_range phij) as [Hg _]. pose proof g2s_pos as H0.
  assert (E : g2s * g2mu r + 1500 = r) by (unfold g2mu; field; lra).
  set (p := g2_phi' _ _ _) in *. set (g := g2g phij) in *. set (e := g2E _ _ _).
  assert (0 < g2s * (p ^ 2 * g)) by (assert (0 < p ^ 2) by (apply pow_lt; auto); pos).
  replace (g2s * (g2mu r + p ^ 2 * (g * (s - e))) + 1500) with (r + g2s * (p ^ 2 * g) * (s - e)) by (rewrite <- E at 1; ring).
  split; intros; nra.
Qed.

Lemma C39_proof : forall fuel r1 RD1 s1 r2 RD2 s2 o t tol p q,
  0 < s1 -> 0 < s2 -> 0 < t -> 0 <= tol ->
  glicko2 fuel (mkGlicko2 (Fin r1) (Fin RD1) (Fin s1)) (mkGlicko2 (Fin r2) (Fin RD2) (Fin s2)) o
    (mkGlicko2Config (Fin t) (Fin tol)) = Some (p, q) ->
  let ga := [(g2mu r2, g2phi RD2, points o)] in
  let gb := [(g2mu r1, g2phi RD1, points (invert o))] in
  exists s1' s2',
    p = mkGlicko2 (Fin (g2_new_r r1 RD1 s1' ga)) (Fin (g2_new_rd r1 RD1 s1' ga)) (Fin s1') /\
    q = mkGlicko2 (Fin (g2_new_r r2 RD2 s2' gb)) (Fin (g2_new_rd r2 RD2 s2' gb)) (Fin s2') /\
    g2_solves (g2v (g2mu r1) ga * g2M (g2mu r1) ga) (g2phi RD1) (g2v (g2mu r1) ga) s1 t tol s1' /\
    g2_solves (g2v (g2mu r2) gb * g2M (g2mu r2) gb) (g2phi RD2) (g2v (g2mu r2) gb) s2 t tol s2' /\
    0 < g2_new_rd r1 RD1 s1' ga /\ 0 < g2_new_rd r2 RD2 s2' gb /\
    (o = WIN -> r1 < g2_new_r r1 RD1 s1' ga /\ g2_new_r r2 RD2 s2' gb < r2) /\
    (o = LOSS -> g2_new_r r1 RD1 s1' ga < r1 /\ r2 < g2_new_r r2 RD2 s2' gb).
Proof.
  intros fuel r1 RD1 s1 r2 RD2 s2 o t tol p q H1 H2 Ht Htol. rewrite g2_game_eval. cbv zeta.
  set (ga := [(g2mu r2, g2phi RD2, points o)]). set (gb := [(g2mu r1, g2phi RD1, points (invert o))]).
  destruct (g2_vol fuel r1 RD1 s1 t tol ga) as [x|] eqn:Ex; [|discriminate].
  destruct (g2_vol fuel r2 RD2 s2 t tol gb) as [y|] eqn:Ey; [|discriminate].
  apply g2_vol_sound in Ex; auto; [|discriminate]. apply g2_vol_sound in Ey; auto; [|discriminate].
  destruct Ex as (s1' & -> & S1), Ey as (s2' & -> & S2). cbv zeta in S1, S2.
  pose proof (proj1 S1) as P1. pose proof (proj1 S2) as P2.
  intros E. assert (E' : (g2_out r1 RD1 ga (Fin s1'), g2_out r2 RD2 gb (Fin s2')) = (p, q)).
  { unfold ga, gb in *. rewrite <- !g2_new_rating_out by auto. congruence. }
  rewrite !g2_out_eval in E' by (auto; discriminate). exists s1', s2'.
  split; [congruence|]. split; [congruence|]. split; [exact S1|]. split; [exact S2|].
  pose proof g2s_pos as H0. unfold g2_new_rd.
  split; [apply Rmult_lt_0_compat; auto; apply g2_phi'_pos; auto; apply g2v_pos; discriminate|].
  split; [apply Rmult_lt_0_compat; auto; apply g2_phi'_pos; auto; apply g2v_pos; discriminate|].
  pose proof (g2E_range (g2mu r1) (g2mu r2) (g2phi RD2)). pose proof (g2E_range (g2mu r2) (g2mu r1) (g2phi RD1)).
  split; intros ->; unfold ga, gb; cbn [points invert]; split; apply g2_new_r_dir; auto; lra.
Qed.

Lemma C39_period_proof : forall fuel r RD s t tol rs p,
  0 < s -> 0 < t -> 0 <= tol -> rs <> [] ->
  glicko2_rating_period fuel (mkGlicko2 (Fin r) (Fin RD) (Fin s))
    (map (fun '(rj, RDj, sj, o) => (mkGlicko2 (Fin rj) (Fin RDj) (Fin sj), o)) rs)
    (mkGlicko2Config (Fin t) (Fin tol)) = Some p ->
  let games := map (fun '(rj, RDj, _, o) => (g2mu rj, g2phi RDj, points o)) rs in
  exists s',
    p = mkGlicko2 (Fin (g2_new_r r RD s' games)) (Fin (g2_new_rd r RD s' games)) (Fin s') /\
    g2_solves (g2v (g2mu r) games * g2M (g2mu r) games) (g2phi RD) (g2v (g2mu r) games) s t tol s' /\
    0 < g2_new_rd r RD s' games.
Proof.
  intros fuel r RD s t tol rs p Hs Ht Htol Hne. rewrite g2_period_eval by auto. cbv zeta. set (games := map _ rs).
  assert (Hg : games <> []) by (unfold games; destruct rs; [congruence|discriminate]).
  destruct (g2_vol fuel r RD s t tol games) as [x|] eqn:Ex; [|discriminate].
  apply g2_vol_sound in Ex; auto. destruct Ex as (s' & -> & S). cbv zeta in S. pose proof (proj1 S) as P.
  rewrite g2_out_eval by auto. intros E. exists s'. split; [congruence|]. split; [exact S|].
  unfold g2_new_rd. apply Rmult_lt_0_compat; [apply g2s_pos|]. apply g2_phi'_pos; auto. now apply g2v_pos.
Qed.

(** Volatility-step termination for games. *)
Lemma g2_vol_terminates r RD s t tol games : games <> [] -> 0 < s -> 0 < t -> 0 < tol ->
  let v := g2v (g2mu r) games in
  (v * g2M (g2mu r) games) ^ 2 < (g2phi RD ^ 2 + v) * (1 + 27 / (2 * t ^ 2)) ->
  exists n0, forall n, (n0 <= n)%nat -> exists s', g2_vol n r RD s t tol games = Some (Fin s').
Proof.
  intros Hg Hs Ht Htol v Hc. unfold g2_vol. cbv zeta. fold v. apply vol_terminates; auto; try apply pow2_ge_0.
  now apply g2v_pos.
Qed.

Lemma C40_period_proof : forall r RD s t tol rs, 0 < s -> 0 < t -> 0 < tol -> rs <> [] ->
  let games := map (fun '(rj, RDj, _, o) => (g2mu rj, g2phi RDj, points o)) rs in
  let v := g2v (g2mu r) games in
  (v * g2M (g2mu r) games) ^ 2 < (g2phi RD ^ 2 + v) * (1 + 27 / (2 * t ^ 2)) ->
  exists n0, forall n, (n0 <= n)%nat -> exists p,
    glicko2_rating_period n (mkGlicko2 (Fin r) (Fin RD) (Fin s))
      (map (fun '(rj, RDj, sj, o) => (mkGlicko2 (Fin rj) (Fin RDj) (Fin sj), o)) rs)
      (mkGlicko2Config (Fin t) (Fin tol)) = Some p.
Proof.
  intros r RD s t tol rs Hs Ht Htol Hne games v Hc.
  assert (Hg : games <> []) by (unfold games; destruct rs; [congruence|discriminate]).
  destruct (g2_vol_terminates r RD s t tol games Hg Hs Ht Htol Hc) as (n0 & H). exists n0. intros n Hn.
  destruct (H n Hn) as (s' & E). rewrite g2_period_eval by auto. cbv zeta. fold games. rewrite E. eauto.
Qed.

(** For one game the condition only concerns the odds of the expected score. *)
Lemma single_cond mu phi muj phij s t : 0 < t ->
  let E := g2E mu muj phij in
  (s - E) ^ 2 / (E * (1 - E)) < 1 + 27 / (2 * t ^ 2) ->
  (g2v mu [(muj, phij, s)] * g2M mu [(muj, phij, s)]) ^ 2 <
  (phi ^ 2 + g2v mu [(muj, phij, s)]) * (1 + 27 / (2 * t ^ 2)).
Proof.
  intros Ht E Hc. rewrite g2v_single, g2M_single. fold E. pose proof (g2g_range phij) as [Hg _].
  pose proof (g2E_range mu muj phij) as HE. fold E in HE. set (g := g2g phij) in *. set (K := 1 + 27 / (2 * t ^ 2)) in *.
  assert (HK : 0 < K). { unfold K. assert (0 < 27 / (2 * t ^ 2)) by pos. lra. }
  set (w := g ^ 2 * E * (1 - E)). assert (Hw : 0 < w) by (unfold w; assert (0 < 1 - E) by lra; pos).
  assert (0 < / w) by now apply Rinv_0_lt_compat.
  apply Rlt_le_trans with (/ w * K).
  - replace ((/ w * (g * (s - E))) ^ 2) with (/ w * ((s - E) ^ 2 / (E * (1 - E)))).
    + apply Rmult_lt_compat_l; auto.
    + unfold w. field. repeat split; lra.
  - assert (0 <= phi ^ 2) by apply pow2_ge_0. nra.
Qed.

Lemma C40_game_proof : forall r1 RD1 s1 r2 RD2 s2 o t tol, 0 < s1 -> 0 < s2 -> 0 < t -> 0 < tol ->
  let e1 := g2E (g2mu r1) (g2mu r2) (g2phi RD2) in
  let e2 := g2E (g2mu r2) (g2mu r1) (g2phi RD1) in
  (points o - e1) ^ 2 / (e1 * (1 - e1)) < 1 + 27 / (2 * t ^ 2) ->
  (points (invert o) - e2) ^ 2 / (e2 * (1 - e2)) < 1 + 27 / (2 * t ^ 2) ->
  exists n0, forall n, (n0 <= n)%nat -> exists p q,
    glicko2 n (mkGlicko2 (Fin r1) (Fin RD1) (Fin s1)) (mkGlicko2 (Fin r2) (Fin RD2) (Fin s2)) o
      (mkGlicko2Config (Fin t) (Fin tol)) = Some (p, q).
Proof.
  intros r1 RD1 s1 r2 RD2 s2 o t tol H1 H2 Ht Htol e1 e2 C1 C2.
  destruct (g2_vol_terminates r1 RD1 s1 t tol [(g2mu r2, g2phi RD2, points o)] ltac:(discriminate) H1 Ht Htol) as (n1 & T1).
  { apply single_cond; auto. }
  destruct (g2_vol_terminates r2 RD2 s2 t tol [(g2mu r1, g2phi RD1, points (invert o))] ltac:(discriminate) H2 Ht Htol) as (n2 & T2).
  { apply single_cond; auto. }
  exists (max n1 n2). intros n Hn. rewrite g2_game_eval. cbv zeta.
  destruct (T1 n ltac:(lia)) as (s1' & ->), (T2 n ltac:(lia)) as (s2' & ->). eauto.
Qed.

(** Simple zeros. *)
Lemma g2_vol_simple r RD s t tol games : games <> [] -> 0 < s -> 0 < t -> 0 < tol ->
  let v := g2v (g2mu r) games in
  g2_simple (v * g2M (g2mu r) games) (g2phi RD) v s t ->
  exists n0, forall n, (n0 <= n)%nat -> exists s', g2_vol n r RD s t tol games = Some (Fin s').
Proof.
  intros Hg Hs Ht Htol v Hc. unfold g2_vol. cbv zeta. fold v. pose proof (g2v_pos (g2mu r) games Hg) as Pv. fold v in Pv.
  apply vol_terminates_simple; auto; try apply pow2_ge_0. intros x Hx Hd. apply (Hc x).
  - rewrite g2f_hf. exact Hx.
  - rewrite <- Hd. apply (hf_dlim _ _ (ln (s ^ 2))); [|apply pow_lt; auto]. pose proof (pow2_ge_0 (g2phi RD)). lra.
Qed.
Lemma C40_game_simple_proof : forall r1 RD1 s1 r2 RD2 s2 o t tol, 0 < s1 -> 0 < s2 -> 0 < t -> 0 < tol ->
  let d r r' RD' s := let g := [(g2mu r', g2phi RD', s)] in g2v (g2mu r) g * g2M (g2mu r) g in
  let v r r' RD' := g2v (g2mu r) [(g2mu r', g2phi RD', 0)] in
  g2_simple (d r1 r2 RD2 (points o)) (g2phi RD1) (v r1 r2 RD2) s1 t ->
  g2_simple (d r2 r1 RD1 (points (invert o))) (g2phi RD2) (v r2 r1 RD1) s2 t ->
  exists n0, forall n, (n0 <= n)%nat -> exists p q,
    glicko2 n (mkGlicko2 (Fin r1) (Fin RD1) (Fin s1)) (mkGlicko2 (Fin r2) (Fin RD2) (Fin s2)) o
      (mkGlicko2Config (Fin t) (Fin tol)) = Some (p, q).
Proof.
  intros r1 RD1 s1 r2 RD2 s2 o t tol H1 H2 Ht Htol d v C1 C2.
  destruct (g2_vol_simple r1 RD1 s1 t tol [(g2mu r2, g2phi RD2, points o)] ltac:(discriminate) H1 Ht Htol C1) as (n1 & T1).
  destruct (g2_vol_simple r2 RD2 s2 t tol [(g2mu r1, g2phi RD1, points (invert o))] ltac:(discriminate) H2 Ht Htol C2) as (n2 & T2).
  exists (max n1 n2). intros n Hn. rewrite g2_game_eval. cbv zeta.
  destruct (T1 n ltac:(lia)) as (s1' & ->), (T2 n ltac:(lia)) as (s2' & ->). eauto.
Qed.
Lemma C40_period_simple_proof : forall r RD s t tol rs, 0 < s -> 0 < t -> 0 < tol -> rs <> [] ->
  let games := map (fun '(rj, RDj, _, o) => (g2mu rj, g2phi RDj, points o)) rs in
  let v := g2v (g2mu r) games in
  g2_simple (v * g2M (g2mu r) games) (g2phi RD) v s t ->
  exists n0, forall n, (n0 <= n)%nat -> exists p,
    glicko2_rating_period n (mkGlicko2 (Fin r) (Fin RD) (Fin s))
      (map (fun '(rj, RDj, sj, o) => (mkGlicko2 (Fin rj) (Fin RDj) (Fin sj), o)) rs)
      (mkGlicko2Config (Fin t) (Fin tol)) = Some p.
Proof.
  intros r RD s t tol rs Hs Ht Htol Hne games v Hc.
  assert (Hg : games <> []) by (unfold games; destruct rs; [congruence|discriminate]).
  destruct (g2_vol_simple r RD s t tol games Hg Hs Ht Htol Hc) as (n0 & H). exists n0. intros n Hn.
  destruct (H n Hn) as (s' & E). rewrite g2_period_eval by auto. cbv zeta. fold games. rewrite E. eauto.
Qed.
(** For fixed results at most two volatilities give a multiple zero. *)
Lemma simple_but_two delta phi v t : 0 < v -> 0 < t ->
  exists l : list R, (length l <= 2)%nat /\ forall s, 0 < s -> ~ In s l -> g2_simple delta phi v s t.
Proof.
  intros Hv Ht. pose proof (pow2_ge_0 phi) as Hp. pose proof (pow2_ge_0 delta) as Hd.
  set (S := delta ^ 2 - phi ^ 2 - v). set (D := phi ^ 2 + v). set (T := t ^ 2).
  assert (HD : 0 < D) by (unfold D; lra). assert (HT : 0 < T) by (unfold T; apply pow_lt; auto).
  destruct (hf'_zeros S D T HD HT) as (l & Hl & Hin); [unfold S, D; lra|].
  exists (map (fun x => exp ((x - T * hf S D x T x) / 2)) l). rewrite map_length. split; [auto|].
  intros s Hs Hn x Hx HD0. apply Hn. apply in_map_iff. exists x. split.
  - rewrite g2f_hf in Hx. fold S D T in Hx. 
    assert (E : x - T * hf S D x T x = ln (s ^ 2)).
    { assert (E : hf S D (ln (s ^ 2)) T x = hf S D x T x - (x - ln (s ^ 2)) / T) by (unfold hf; field; pose proof (exp_pos x); lra).
      rewrite Hx in E. assert (hf S D x T x * T = x - ln (s ^ 2)); [|lra].
      replace (hf S D x T x) with ((x - ln (s ^ 2)) / T) by lra. field. lra. }
    rewrite E. rewrite pow2_mul, ln_mult by auto. replace ((ln s + ln s) / 2) with (ln s) by field. now apply exp_ln.
  - apply Hin. pose proof (hf_dlim S D (ln (s ^ 2)) T x HD HT) as H2.
    apply (uniqueness_limite _ _ _ _ H2 HD0).
Qed.
Lemma C40_game_almost_proof : forall r1 RD1 r2 RD2 o t, 0 < t ->
  exists l1 l2 : list R, (length l1 <= 2)%nat /\ (length l2 <= 2)%nat /\
  forall s1 s2 tol, 0 < s1 -> 0 < s2 -> 0 < tol -> ~ In s1 l1 -> ~ In s2 l2 ->
  exists n0, forall n, (n0 <= n)%nat -> exists p q,
    glicko2 n (mkGlicko2 (Fin r1) (Fin RD1) (Fin s1)) (mkGlicko2 (Fin r2) (Fin RD2) (Fin s2)) o
      (mkGlicko2Config (Fin t) (Fin tol)) = Some (p, q).
Proof.
  intros r1 RD1 r2 RD2 o t Ht.
  set (ga := [(g2mu r2, g2phi RD2, points o)]). set (gb := [(g2mu r1, g2phi RD1, points (invert o))]).
  destruct (simple_but_two (g2v (g2mu r1) ga * g2M (g2mu r1) ga) (g2phi RD1) (g2v (g2mu r1) ga) t) as (l1 & L1 & S1); auto.
  { apply g2v_pos. discriminate. }
  destruct (simple_but_two (g2v (g2mu r2) gb * g2M (g2mu r2) gb) (g2phi RD2) (g2v (g2mu r2) gb) t) as (l2 & L2 & S2); auto.
  { apply g2v_pos. discriminate. }
  exists l1, l2. split; [auto|]. split; [auto|]. intros s1 s2 tol H1 H2 Htol n1 n2.
  exact (C40_game_simple_proof r1 RD1 s1 r2 RD2 s2 o t tol H1 H2 Ht Htol (S1 s1 H1 n1) (S2 s2 H2 n2)).
Qed.
Lemma C40_period_almost_proof : forall r RD t rs, 0 < t ->
  exists l : list R, (length l <= 2)%nat /\ forall s tol, 0 < s -> 0 < tol -> ~ In s l ->
  exists n0, forall n, (n0 <= n)%nat -> exists p,
    glicko2_rating_period n (mkGlicko2 (Fin r) (Fin RD) (Fin s))
      (map (fun '(rj, RDj, sj, o) => (mkGlicko2 (Fin rj) (Fin RDj) (Fin sj), o)) rs)
      (mkGlicko2Config (Fin t) (Fin tol)) = Some p.
Proof.
  intros r RD t rs Ht. destruct rs as [|g rs].
  - exists []. split; [cbn; lia|]. intros. exists 0%nat. intros. cbn [map glicko2_rating_period]. eauto.
  - set (rs' := g :: rs). set (games := map (fun '(rj, RDj, _, o) => (g2mu rj, g2phi RDj, points o)) rs').
    destruct (simple_but_two (g2v (g2mu r) games * g2M (g2mu r) games) (g2phi RD) (g2v (g2mu r) games) t) as (l & L & S); auto.
    { apply g2v_pos. discriminate. }
    exists l. split; [auto|]. intros s tol Hs Htol Hn. apply C40_period_simple_proof; auto. discriminate.
Qed.

(** More fuel never changes a result. *)
Lemma C40_fuel_proof : forall (F : Type) (A : Arith F) n m (p1 p2 : Glicko2Rating F) o rs c, (n <= m)%nat ->
  (forall x, glicko2 n p1 p2 o c = Some x -> glicko2 m p1 p2 o c = Some x) /\
  (forall x, glicko2_rating_period n p1 rs c = Some x -> glicko2_rating_period m p1 rs c = Some x).
Proof.
  intros F A n m p1 p2 o rs c Hm. split; intros x.
  - unfold glicko2. cbv zeta.
    destruct (g2_new_volatility n (g2_volatility p1) _ _ _ _ _) eqn:E1; [|discriminate].
    destruct (g2_new_volatility n (g2_volatility p2) _ _ _ _ _) eqn:E2; [|discriminate].
    rewrite (g2_new_volatility_fuel _ _ _ _ _ _ _ _ _ Hm E1), (g2_new_volatility_fuel _ _ _ _ _ _ _ _ _ Hm E2). auto.
  - unfold glicko2_rating_period. destruct rs; auto. cbv zeta.
    destruct (g2_new_volatility n _ _ _ _ _ _) eqn:E1; [|discriminate].
    rewrite (g2_new_volatility_fuel _ _ _ _ _ _ _ _ _ Hm E1). auto.
Qed.

Lemma C41_order_proof : forall fuel r RD s t tol rs rs', Permutation rs rs' ->
  glicko2_rating_period fuel (mkGlicko2 (Fin r) (Fin RD) (Fin s))
    (map (fun '(rj, RDj, sj, o) => (mkGlicko2 (Fin rj) (Fin RDj) (Fin sj), o)) rs) (mkGlicko2Config (Fin t) (Fin tol)) =
  glicko2_rating_period fuel (mkGlicko2 (Fin r) (Fin RD) (Fin s))
    (map (fun '(rj, RDj, sj, o) => (mkGlicko2 (Fin rj) (Fin RDj) (Fin sj), o)) rs') (mkGlicko2Config (Fin t) (Fin tol)).
Proof.
  intros fuel r RD s t tol rs rs' HP. destruct rs as [|x xs].
  - apply Permutation_nil in HP as ->. reflexivity.
  - assert (rs' <> []) by (intros ->; apply Permutation_sym, Permutation_nil in HP; discriminate).
    rewrite !g2_period_eval by (auto; discriminate). cbv zeta. set (g := map _ (x :: xs)). set (g' := map _ rs').
    assert (HG : Permutation g g') by (apply Permutation_map; auto).
    unfold g2_vol, g2_out. cbv zeta. rewrite (g2v_perm _ _ _ HG), (g2M_perm _ _ _ HG). reflexivity.
Qed.

Lemma C41_single_proof : forall fuel r1 RD1 s1 r2 RD2 s2 o t tol p q, 0 < s1 -> 0 < t -> 0 <= tol ->
  glicko2 fuel (mkGlicko2 (Fin r1) (Fin RD1) (Fin s1)) (mkGlicko2 (Fin r2) (Fin RD2) (Fin s2)) o
    (mkGlicko2Config (Fin t) (Fin tol)) = Some (p, q) ->
  glicko2_rating_period fuel (mkGlicko2 (Fin r1) (Fin RD1) (Fin s1)) [(mkGlicko2 (Fin r2) (Fin RD2) (Fin s2), o)]
    (mkGlicko2Config (Fin t) (Fin tol)) = Some p.
Proof.
  intros fuel r1 RD1 s1 r2 RD2 s2 o t tol p q Hs Ht Htol. rewrite g2_game_eval. cbv zeta.
  pose proof (g2_period_eval fuel r1 RD1 s1 t tol [(r2, RD2, s2, o)] ltac:(discriminate)) as E. cbn [map] in E. cbv zeta in E. rewrite E.
  destruct (g2_vol fuel r1 RD1 s1 t tol _) as [x|] eqn:Ex; [|discriminate].
  destruct (g2_vol fuel r2 RD2 s2 t tol _) as [y|] eqn:Ey; [|discriminate]. intros H.
  apply g2_vol_sound in Ex; auto; [|discriminate]. destruct Ex as (s' & -> & S).
  rewrite <- g2_new_rating_out by apply (proj1 S). congruence.
Qed.

Lemma C41_empty_proof : forall (F : Type) (A : Arith F) fuel (p : Glicko2Rating F) c,
  glicko2_rating_period fuel p [] c = Some (glicko2_decay_deviation p).
Proof. reflexivity. Qed.

Lemma C41_decay_proof : forall r RD s, 0 <= RD ->
  exists d, glicko2_decay_deviation (mkGlicko2 (Fin r) (Fin RD) (Fin s)) = mkGlicko2 (Fin r) (Fin d) (Fin s) /\
    d = Rmin (sqrt (RD ^ 2 + (g2s * s) ^ 2)) 350 /\ d <= 350 /\ Rmin RD 350 <= d.
Proof.
  intros r RD s H. unfold glicko2_decay_deviation. cbv zeta. cbn [g2_rating g2_deviation g2_volatility].
  rewrite g2_phi_eval, g2_scale_eval, xr_hypot, xr_mul, (xr_ofZ 350), xr_min. eexists. split; [reflexivity|].
  pose proof g2s_pos as H0.
  assert (E : sqrt (g2phi RD * g2phi RD + s * s) * g2s = sqrt (RD ^ 2 + (g2s * s) ^ 2)).
  { rewrite <- (sqrt_pow2 g2s) at 1 by lra. rewrite <- sqrt_mult.
    - f_equal. unfold g2phi. field. lra.
    - assert (0 <= g2phi RD * g2phi RD) by apply Rle_0_sqr. assert (0 <= s * s) by apply Rle_0_sqr. lra.
    - apply pow2_ge_0. }
  rewrite E. split; [reflexivity|]. split; [apply Rmin_r|].
  apply Rle_min_compat_r. rewrite <- (sqrt_pow2 RD) at 1 by lra. apply sqrt_le_1_alt.
  assert (0 <= (g2s * s) ^ 2) by apply pow2_ge_0. lra.
Qed.

(** Expected scores and confidence interval. *)
Lemma g2_expected_eval r1 RD1 s1 r2 RD2 s2 :
  glicko2_expected_score (mkGlicko2 (Fin r1) (Fin RD1) (Fin s1)) (mkGlicko2 (Fin r2) (Fin RD2) (Fin s2)) =
  let h := sqrt (g2phi RD1 ^ 2 + g2phi RD2 ^ 2) in
  (Fin (g2E (g2mu r1) (g2mu r2) h), Fin (g2E (g2mu r2) (g2mu r1) h)).
Proof.
  unfold glicko2_expected_score. cbv zeta. cbn [g2_rating g2_deviation]. rewrite !g2_mu_eval, !g2_phi_eval, xr_hypot.
  replace (g2phi RD2 * g2phi RD2 + g2phi RD1 * g2phi RD1) with (g2phi RD1 ^ 2 + g2phi RD2 ^ 2) by ring.
  rewrite g2_g_eval, g2_e_eval. f_equal. rewrite xr_ofZ, xr_sub. f_equal. unfold g2E.
  set (h := sqrt _). replace (- g2g h * (g2mu r2 - g2mu r1)) with (- (- g2g h * (g2mu r1 - g2mu r2))) by ring.
  rewrite exp_Ropp. rewrite logistic_compl by apply exp_pos. reflexivity.
Qed.
Lemma g2mu_lt r r' : r < r' <-> g2mu r < g2mu r'.
Proof. unfold g2mu. pose proof g2s_pos as H0. split; intros H; [apply Rmult_lt_compat_r; [now apply Rinv_0_lt_compat|lra]|].
  apply Rmult_lt_reg_r in H; [lra|now apply Rinv_0_lt_compat]. Qed.
Lemma g2E_lt mu mu' muj h : mu < mu' -> g2E mu muj h < g2E mu' muj h.
Proof.
  intros H. unfold g2E. pose proof (exp_pos (- g2g h * (mu' - muj))). apply Rinv_lt_mono; [lra|]. apply Rplus_lt_compat_l, exp_increasing.
  pose proof (g2g_range h). nra.
Qed.
Lemma g2E_self mu h : g2E mu mu h = 1 / 2.
Proof. unfold g2E. rewrite Rminus_eq_0, Rmult_0_r, exp_0. lra. Qed.
Lemma g2g_lt h h' : 0 <= h < h' -> g2g h' < g2g h.
Proof.
  intros H. unfold g2g. pose proof (g2g_arg h). pose proof PI_RGT_0.
  apply Rinv_lt_mono; [pos|]. apply sqrt_lt_1_alt. split; [lra|].
  apply Rplus_lt_compat_l. unfold Rdiv. apply Rmult_lt_compat_r; [pos|]. apply Rmult_lt_compat_l; [lra|].
  cbn. nra.
Qed.
Lemma C75_glicko2_proof : forall r1 RD1 s1 r2 RD2 s2, exists e1 e2,
  glicko2_expected_score (mkGlicko2 (Fin r1) (Fin RD1) (Fin s1)) (mkGlicko2 (Fin r2) (Fin RD2) (Fin s2)) = (Fin e1, Fin e2) /\
  0 < e1 < 1 /\ 0 < e2 < 1 /\ e1 + e2 = 1 /\ (e1 > 1 / 2 <-> r1 > r2) /\
  glicko2_expected_score (mkGlicko2 (Fin r2) (Fin RD2) (Fin s2)) (mkGlicko2 (Fin r1) (Fin RD1) (Fin s1)) = (Fin e2, Fin e1) /\
  (forall r1' e1' e2', glicko2_expected_score (mkGlicko2 (Fin r1') (Fin RD1) (Fin s1)) (mkGlicko2 (Fin r2) (Fin RD2) (Fin s2)) = (Fin e1', Fin e2') ->
     r1 < r1' -> e1 < e1') /\
  (forall RD1' e1' e2', glicko2_expected_score (mkGlicko2 (Fin r1) (Fin RD1') (Fin s1)) (mkGlicko2 (Fin r2) (Fin RD2) (Fin s2)) = (Fin e1', Fin e2') ->
     0 <= RD1 < RD1' -> r1 > r2 -> 1 / 2 < e1' < e1).
Proof.
  intros. rewrite g2_expected_eval. cbv zeta. do 2 eexists. split; [reflexivity|].
  set (h := sqrt (g2phi RD1 ^ 2 + g2phi RD2 ^ 2)).
  split; [apply g2E_range|]. split; [apply g2E_range|]. split; [|split; [|split; [|split]]].
  - unfold g2E. replace (- g2g h * (g2mu r2 - g2mu r1)) with (- (- g2g h * (g2mu r1 - g2mu r2))) by ring.
    rewrite exp_Ropp. pose proof (exp_pos (- g2g h * (g2mu r1 - g2mu r2))). field. lra.
  - rewrite <- (g2E_self (g2mu r2) h). split; intros H; [|apply g2E_lt; now apply (proj1 (g2mu_lt _ _))].
    destruct (Rtotal_order r1 r2) as [l|[l|l]]; auto.
    + apply g2mu_lt in l. pose proof (g2E_lt _ _ (g2mu r2) h l). lra.
    + subst. lra.
  - rewrite g2_expected_eval. cbv zeta. rewrite (Rplus_comm (g2phi RD2 ^ 2)). reflexivity.
  - intros *. rewrite g2_expected_eval. intros [= <- _] H. apply g2E_lt. now apply (proj1 (g2mu_lt _ _)).
  - intros *. rewrite g2_expected_eval. cbv zeta. intros EE H1 H2.
    assert (EE' : e1' = g2E (g2mu r1) (g2mu r2) (sqrt (g2phi RD1' ^ 2 + g2phi RD2 ^ 2))) by congruence. clear EE. subst e1'.
    apply g2mu_lt in H2. split; [rewrite <- (g2E_self (g2mu r2) (sqrt (g2phi RD1' ^ 2 + g2phi RD2 ^ 2))); now apply g2E_lt|].
    assert (G : g2g (sqrt (g2phi RD1' ^ 2 + g2phi RD2 ^ 2)) < g2g h).
    { apply g2g_lt. split; [apply sqrt_pos|]. apply sqrt_lt_1_alt. pose proof (pow2_ge_0 (g2phi RD1)). pose proof (pow2_ge_0 (g2phi RD2)).
      split; [lra|]. apply Rplus_lt_compat_r. unfold g2phi. pose proof g2s_pos as Hg2s.
      assert (0 < / g2s) by now apply Rinv_0_lt_compat. unfold Rdiv. rewrite !Rpow_mult_distr. apply Rmult_lt_compat_r; [pos|].
      cbn. nra. }
    set (h' := sqrt (g2phi RD1' ^ 2 + g2phi RD2 ^ 2)) in *. clearbody h h'. unfold g2E. pose proof (exp_pos (- g2g h * (g2mu r1 - g2mu r2))).
    apply Rinv_lt_mono; [lra|]. apply Rplus_lt_compat_l, exp_increasing. assert (0 < g2mu r1 - g2mu r2) by lra. nra.
Qed.
Lemma C31_glicko2_proof : forall r RD s,
  glicko2_confidence_interval (mkGlicko2 (Fin r) (Fin RD) (Fin s)) = (Fin (r - 196 / 100 * RD), Fin (r + 196 / 100 * RD)).
Proof. intros. unfold glicko2_confidence_interval. cbn [g2_rating g2_deviation]. xr. f_equal; f_equal; lra. Qed.
