(** The volatility iteration of Glicko-2 in double precision: what holds of the
    point that the loop returns, for any computed function close to a decreasing one. *)
From Coq Require Import ZArith List Bool Reals Lra Lia Psatz.
From Flocq Require Import Core.Core IEEE754.BinarySingleNaN.
From Verif Require Import Arith B64 ModelLib ModelGlicko2 SpecB64 MathB64 ProofB64 ProofB64b MathB64b MathAcc.
Import ListNotations.
Local Open Scope R_scope.

Lemma rnd_err x : Rabs x <= bpow radix2 1000 -> Rabs (rnd x - x) <= u0 * Rabs x + bpow radix2 (-1000).
Proof.
  intros H. pose proof u53 as U. pose proof (Rabs_pos x). pose proof (bpow_gt_0 radix2 (-1000)) as B. assert (U0 : 0 < u0) by (unfold u0; lra).
  destruct (Rle_dec (bpow radix2 (-1022)) (Rabs x)) as [L|L].
  - eapply Rle_trans; [apply rnd_rel; split; [exact L|apply Rle_trans with (1 := H); apply bpow_le; lia]|]. assert (bpow radix2 (-53) * Rabs x <= u0 * Rabs x) by (apply Rmult_le_compat_r; lra). lra.
  - eapply Rle_trans; [apply (rnd_abs (-1000)); [lia|apply Rle_trans with (bpow radix2 (-1022)); [lra|apply bpow_le; lia]]|].
    apply Rle_trans with (bpow radix2 (-1000)); [apply bpow_le; lia|]. assert (0 <= u0 * Rabs x) by (apply Rmult_le_pos; lra). lra.
Qed.
Lemma ext_Babs x : nn x -> nn (Babs x) /\ ext (Babs x) = Rabs (ext x).
Proof.
  intro N. destruct x as [s|s| |s m e He]; try discriminate N; split; try reflexivity.
  - simpl. rewrite Rabs_R0. reflexivity.
  - pose proof M64_pos. simpl. destruct s; [rewrite Rabs_Ropp|]; rewrite Rabs_pos_eq by lra; reflexivity.
  - simpl. rewrite <- F2R_Zabs. rewrite abs_cond_Zopp. reflexivity.
Qed.

Lemma mnn x y : x <= 0 -> y <= 0 -> 0 <= x * y. Proof. nra. Qed.
Lemma mnp x y : x <= 0 -> 0 <= y -> x * y <= 0. Proof. nra. Qed.
Lemma mpn x y : 0 <= x -> y <= 0 -> x * y <= 0. Proof. nra. Qed.
Lemma sgn_cases x h : x * h <= 0 -> h <> 0 -> (0 <= x /\ h <= 0) \/ (x <= 0 /\ 0 <= h).
Proof. intros P N. destruct (Rle_dec 0 h) as [K|K]; [right; assert (0 < h) by lra|left; assert (h < 0) by lra]; split; nra. Qed.

Section Ill.
  Variables (L : Libm) (d2 p2 v s t tol : B64).
  Notation F x := (g2_f_value (A := B64A L) x d2 p2 v s t).
  Variables (f : R -> R) (lo hi r m1 eta M : R).
  Definition gmin : R := bpow radix2 (-300).
  Definition rho : R := / 10 ^ 13.
  Hypothesis HF : forall x, fin x -> lo <= ext x <= hi ->
    fin (F x) /\ Rabs (ext (F x) - f (ext x)) <= eta /\ Rabs (ext (F x)) <= M /\ (ext (F x) = 0 \/ gmin <= Rabs (ext (F x))).
  Hypothesis Hf : forall x y, lo <= x -> x <= y -> y <= hi -> m1 * (y - x) <= f x - f y.
  Hypothesis Hr : f r = 0.
  Hypothesis Hlo : -30 <= lo. Hypothesis Hhi : hi <= 30.
  Hypothesis Hm : 0 < m1. Hypothesis Heta : 0 <= eta. Hypothesis HM : 0 < M <= 10 ^ 5.
  Hypothesis Ht : fin tol. Hypothesis Ht' : 99 / 10 ^ 8 <= ext tol.
  Definition wid : R := (4 * rho * M * 10 ^ 6 + eta) / m1 + rho.
  Hypothesis Hw : lo <= r - wid /\ r + wid <= hi.

  Lemma wid_pos : 0 < wid.
  Proof. unfold wid, rho. assert (0 <= (4 * / 10 ^ 13 * M * 10 ^ 6 + eta) / m1) by (apply Rmult_le_pos; [nra|left; apply Rinv_0_lt_compat; exact Hm]). lra. Qed.
  Lemma near_root x e : lo <= x <= hi -> Rabs (f x) <= e -> Rabs (x - r) <= e / m1.
  Proof.
    intros B E. apply Rmult_le_reg_l with m1; [exact Hm|]. replace (m1 * (e / m1)) with e by (field; lra). pose proof wid_pos. apply Rabs_le_inv in E.
    unfold Rabs. destruct (Rcase_abs (x - r)) as [C|C]; [pose proof (Hf x r ltac:(lra) ltac:(lra) ltac:(lra))|pose proof (Hf r x ltac:(lra) ltac:(lra) ltac:(lra))]; rewrite Hr in H0; lra.
  Qed.

  (** the new point of the secant step *)
  Section Step.
    Variables (a fa b fb : B64).
    Hypothesis Fa : fin a. Hypothesis Fb : fin b. Hypothesis Ffa : fin fa. Hypothesis Ffb : fin fb.
    Hypothesis Ba : lo <= ext a <= hi. Hypothesis Bb : lo <= ext b <= hi.
    Hypothesis Bfa : Rabs (ext fa) <= M. Hypothesis Bfb : Rabs (ext fb) <= M.
    Hypothesis Sg : ext fa * ext fb <= 0.
    Hypothesis Gap : gmin <= Rabs (ext fa) + Rabs (ext fb).
    Definition nxt : B64 := Bplus mode_NE a (Bdiv mode_NE (Bmult mode_NE (Bminus mode_NE a b) fa) (Bminus mode_NE fb fa)).

    Let A := ext a. Let B := ext b. Let X := ext fa. Let Y := ext fb. Let H := Y - X.
    Lemma H_abs : Rabs H = Rabs X + Rabs Y.
    Proof. unfold H, X, Y. revert Sg. generalize (ext fa) (ext fb). intros x y S. unfold Rabs. destruct (Rcase_abs (y - x)), (Rcase_abs x), (Rcase_abs y); try lra; nra. Qed.
    Lemma gmin_pos : 0 < gmin. Proof. apply bpow_gt_0. Qed.
    Lemma b1000_small : bpow radix2 (-1000) <= / 10 ^ 100 * gmin.
    Proof.
      unfold gmin. replace (-1000)%Z with (-700 + -300)%Z by lia. rewrite bpow_plus. apply Rmult_le_compat_r; [apply bpow_ge_0|].
      change (-700)%Z with (- Z.of_nat 700)%Z. rewrite bpow_nat. apply Rinv_le_contravar; [apply pow_lt; lra|]. rewrite !pow_IZR. apply IZR_le. vm_compute. discriminate.
    Qed.
    Lemma big1000 x : Rabs x <= 10 ^ 10 -> Rabs x <= bpow radix2 1000.
    Proof. intro Q. apply Rle_trans with (1 := Q). apply Rle_trans with (bpow radix2 40); [simpl; lra|apply bpow_le; lia]. Qed.

    Lemma G_fin : fin (Bminus mode_NE fb fa) /\ Rabs (ext (Bminus mode_NE fb fa) - H) <= u0 * Rabs H /\ (0 <= H -> 0 <= ext (Bminus mode_NE fb fa)) /\ (H <= 0 -> ext (Bminus mode_NE fb fa) <= 0).
    Proof.
      destruct (ext_minus fb fa Ffb Ffa) as [N E]. fold X Y H in E. pose proof H_abs as HA. pose proof gmin_pos.
      assert (HB : Rabs H <= 10 ^ 10) by (unfold X, Y in *; lra).
      assert (R : Rabs (rnd H - H) <= u0 * Rabs H).
      { eapply Rle_trans; [apply rnd_rel; split|].
        - apply Rle_trans with gmin; [unfold gmin; apply bpow_le; lia|unfold X, Y in *; lra].
        - apply Rle_trans with (1 := big1000 _ HB). apply bpow_le; lia.
        - apply Rmult_le_compat_r; [apply Rabs_pos|apply u53]. }
      split; [|rewrite E; split; [exact R|split; [apply rnd_nonneg|apply rnd_0_le]]].
      apply (fin_abs_le _ 1000); [exact N|lia|]. rewrite E. apply big1000. replace (rnd H) with ((rnd H - H) + H) by ring. eapply Rle_trans; [apply Rabs_triang|]. unfold u0 in R. unfold X, Y in *. lra.
    Qed.
    Lemma D_ok : fin (Bminus mode_NE a b) /\ Rabs (ext (Bminus mode_NE a b) - (A - B)) <= 73 / 10 ^ 16 /\ (A <= B -> ext (Bminus mode_NE a b) <= 0) /\ (B <= A -> 0 <= ext (Bminus mode_NE a b)).
    Proof.
      destruct (ext_minus a b Fa Fb) as [N E]. fold A B in E. assert (AB : Rabs (A - B) <= 60) by (apply Rabs_le; unfold A, B in *; lra).
      pose proof (rnd_err (A - B) ltac:(apply big1000; lra)) as R. pose proof b1000_small as S. pose proof gmin_pos. assert (G1 : gmin <= 1) by (unfold gmin; change 1 with (bpow radix2 0); apply bpow_le; lia).
      assert (R' : Rabs (rnd (A - B) - (A - B)) <= 721 / 10 ^ 17) by (unfold u0 in R; lra).
      split; [|rewrite E; split; [lra|split; intros Q; [apply rnd_0_le; lra|apply rnd_nonneg; lra]]].
      apply (fin_abs_le _ 1000); [exact N|lia|]. rewrite E. apply big1000. replace (rnd (A - B)) with ((rnd (A - B) - (A - B)) + (A - B)) by ring. eapply Rle_trans; [apply Rabs_triang|]. lra.
    Qed.

    Let D := ext (Bminus mode_NE a b). Let G := ext (Bminus mode_NE fb fa).
    Lemma GH : 99 / 100 * Rabs H <= Rabs G /\ gmin <= Rabs H /\ H <> 0 /\ G <> 0.
    Proof.
      destruct G_fin as (_ & R & _). fold G in R. pose proof H_abs. pose proof gmin_pos.
      assert (Q1 : 99 / 100 * Rabs H <= Rabs G).
      { pose proof (Rabs_triang (G) (H - G)) as T. replace (G + (H - G)) with H in T by ring. rewrite (Rabs_minus_sym H G) in T. unfold u0 in R. pose proof (Rabs_pos H). lra. }
      assert (Q2 : gmin <= Rabs H) by (unfold X, Y in *; lra).
      split; [exact Q1|split; [exact Q2|]]. split; intros C; rewrite C in *; rewrite Rabs_R0 in *; lra.
    Qed.
    Lemma P_ok : fin (Bmult mode_NE (Bminus mode_NE a b) fa) /\
      Rabs (ext (Bmult mode_NE (Bminus mode_NE a b) fa) - (A - B) * X) <= 15 / 10 ^ 15 * Rabs X + / 10 ^ 100 * gmin /\
      (0 <= D * X -> 0 <= ext (Bmult mode_NE (Bminus mode_NE a b) fa)) /\ (D * X <= 0 -> ext (Bmult mode_NE (Bminus mode_NE a b) fa) <= 0).
    Proof.
      destruct D_ok as (FD & ED & _). fold D in ED. destruct (ext_mult _ fa FD Ffa) as [N E]. fold D X in E.
      assert (AB : Rabs (A - B) <= 60) by (apply Rabs_le; unfold A, B in *; lra).
      assert (DB : Rabs D <= 61). { replace D with ((D - (A - B)) + (A - B)) by ring. eapply Rle_trans; [apply Rabs_triang|]. lra. }
      assert (DX : Rabs (D * X) <= 61 * Rabs X) by (rewrite Rabs_mult; apply Rmult_le_compat_r; [apply Rabs_pos|exact DB]).
      assert (XM : Rabs X <= 10 ^ 5) by (unfold X; lra).
      pose proof (rnd_err (D * X) ltac:(apply big1000; lra)) as R. pose proof b1000_small as S. pose proof gmin_pos. assert (G1 : gmin <= 1) by (unfold gmin; change 1 with (bpow radix2 0); apply bpow_le; lia).
      assert (E2 : Rabs (D * X - (A - B) * X) <= 73 / 10 ^ 16 * Rabs X).
      { replace (D * X - (A - B) * X) with ((D - (A - B)) * X) by ring. rewrite Rabs_mult. apply Rmult_le_compat_r; [apply Rabs_pos|exact ED]. }
      pose proof (Rabs_pos X).
      split; [|rewrite E; split; [|split; [apply rnd_nonneg|apply rnd_0_le]]].
      - apply (fin_abs_le _ 1000); [exact N|lia|]. rewrite E. apply big1000. replace (rnd (D * X)) with ((rnd (D * X) - D * X) + D * X) by ring. eapply Rle_trans; [apply Rabs_triang|]. unfold u0 in R. lra.
      - replace (rnd (D * X) - (A - B) * X) with ((rnd (D * X) - D * X) + (D * X - (A - B) * X)) by ring. eapply Rle_trans; [apply Rabs_triang|]. unfold u0 in R. lra.
    Qed.
    Definition cst : R := A + (A - B) * X / H.
    Lemma q_le : Rabs (X / H) <= 1.
    Proof.
      destruct GH as (_ & Q & N & _). pose proof H_abs. pose proof gmin_pos. unfold Rdiv. rewrite Rabs_mult, Rabs_inv.
      apply Rmult_le_reg_r with (Rabs H); [lra|]. rewrite Rmult_assoc, Rinv_l by lra. pose proof (Rabs_pos Y). lra.
    Qed.
    Lemma T_ok : let P := Bmult mode_NE (Bminus mode_NE a b) fa in let T := Bdiv mode_NE P (Bminus mode_NE fb fa) in
      fin T /\ Rabs (ext T - (A - B) * X / H) <= 4 / 10 ^ 14 /\ (A <= B -> 0 <= ext T) /\ (B <= A -> ext T <= 0).
    Proof.
      intros P T. destruct P_ok as (FP & EP & PP & PN). fold P in FP, EP, PP, PN. destruct G_fin as (FG & EG & GP & GN). fold G in EG, GP, GN.
      destruct GH as (Q1 & Q2 & NH & NG). destruct D_ok as (_ & _ & DN & DP). fold D in DN, DP. pose proof q_le as QL. pose proof gmin_pos as GM. pose proof H_abs as HA.
      destruct (ext_div P (Bminus mode_NE fb fa) FP FG NG) as [N E]. fold T in N, E. fold G in E. set (p := ext P) in *.
      assert (AB : Rabs (A - B) <= 60) by (apply Rabs_le; unfold A, B in *; lra).
      assert (XH : Rabs X <= Rabs H) by (pose proof (Rabs_pos Y); lra). pose proof (Rabs_pos X).
      assert (PB : Rabs p <= 61 * Rabs H).
      { replace p with ((p - (A - B) * X) + (A - B) * X) by ring. eapply Rle_trans; [apply Rabs_triang|]. rewrite (Rabs_mult (A - B) X).
        assert (Rabs (A - B) * Rabs X <= 60 * Rabs H) by (apply Rmult_le_compat; [apply Rabs_pos|apply Rabs_pos|exact AB|exact XH]). lra. }
      assert (HP : 0 < Rabs H) by lra.
      assert (E1 : Rabs (p / G - p / H) <= 62 * u0).
      { replace (p / G - p / H) with (p * (H - G) / (G * H)) by (field; lra). unfold Rdiv. rewrite !Rabs_mult, Rabs_inv, Rabs_mult, (Rabs_minus_sym H G).
        apply Rmult_le_reg_r with (Rabs G * Rabs H); [apply Rmult_lt_0_compat; lra|]. rewrite Rmult_assoc, Rinv_l by (apply Rgt_not_eq; apply Rmult_lt_0_compat; lra). rewrite Rmult_1_r.
        apply Rle_trans with (61 * Rabs H * (u0 * Rabs H)); [apply Rmult_le_compat; [apply Rabs_pos|apply Rabs_pos|exact PB|exact EG]|].
        assert (61 * Rabs H <= 62 * Rabs G) by lra. assert (0 <= u0 * Rabs H) by (unfold u0; apply Rmult_le_pos; lra).
        replace (62 * u0 * (Rabs G * Rabs H)) with (62 * Rabs G * (u0 * Rabs H)) by ring. apply Rmult_le_compat_r; assumption. }
      assert (E2 : Rabs (p / H - (A - B) * X / H) <= 151 / 10 ^ 16).
      { replace (p / H - (A - B) * X / H) with ((p - (A - B) * X) / H) by (field; exact NH). unfold Rdiv. rewrite Rabs_mult, Rabs_inv.
        apply Rmult_le_reg_r with (Rabs H); [exact HP|]. rewrite Rmult_assoc, Rinv_l by lra. lra. }
      assert (E3 : Rabs ((A - B) * X / H) <= 60).
      { unfold Rdiv. rewrite Rmult_assoc, Rabs_mult. change (X * / H) with (X / H). replace 60 with (60 * 1) by ring. apply Rmult_le_compat; [apply Rabs_pos|apply Rabs_pos|exact AB|apply q_le]. }
      assert (E4 : Rabs (p / G - (A - B) * X / H) <= 226 / 10 ^ 16).
      { replace (p / G - (A - B) * X / H) with ((p / G - p / H) + (p / H - (A - B) * X / H)) by ring. eapply Rle_trans; [apply Rabs_triang|]. unfold u0 in E1. lra. }
      assert (E5 : Rabs (p / G) <= 61).
      { replace (p / G) with ((p / G - (A - B) * X / H) + (A - B) * X / H) by ring. eapply Rle_trans; [apply Rabs_triang|]. lra. }
      pose proof (rnd_err (p / G) ltac:(apply big1000; lra)) as R. pose proof b1000_small as S. assert (G1 : gmin <= 1) by (unfold gmin; change 1 with (bpow radix2 0); apply bpow_le; lia).
      assert (Sx : forall u w : Rdefinitions.R, 0 <= u * w -> w <> 0 -> 0 <= u / w).
      { intros u w W1 W2. replace (u / w) with (u * w * (/ w * / w)) by (field; exact W2). apply Rmult_le_pos; [exact W1|]. apply Rle_0_sqr. }
      assert (Sy : forall u w : Rdefinitions.R, u * w <= 0 -> w <> 0 -> u / w <= 0).
      { intros u w W1 W2. assert (0 <= - u / w) by (apply Sx; [nra|exact W2]). unfold Rdiv in *. lra. }
      assert (HX : X * H <= 0). { unfold H. assert (X * Y <= 0) by exact Sg. pose proof (Rle_0_sqr X). unfold Rsqr in *. lra. }
      assert (Sgn : (0 <= X /\ H <= 0) \/ (X <= 0 /\ 0 <= H)).
      { apply sgn_cases; [exact HX|exact NH]. }
      split; [|rewrite E; split; [|split; intros O]].
      - apply (fin_abs_le _ 1000); [exact N|lia|]. rewrite E. apply big1000. replace (rnd (p / G)) with ((rnd (p / G) - p / G) + p / G) by ring. eapply Rle_trans; [apply Rabs_triang|]. unfold u0 in R. lra.
      - replace (rnd (p / G) - (A - B) * X / H) with ((rnd (p / G) - p / G) + (p / G - (A - B) * X / H)) by ring. eapply Rle_trans; [apply Rabs_triang|]. unfold u0 in R. lra.
      - apply rnd_nonneg. apply Sx; [|exact NG]. specialize (DN O). destruct Sgn as [[s1 s2]|[s1 s2]].
        + apply mnn; [apply PN; apply mnp; assumption|apply GN, s2].
        + apply Rmult_le_pos; [apply PP; apply mnn; assumption|apply GP, s2].
      - apply rnd_0_le. apply Sy; [|exact NG]. specialize (DP O). destruct Sgn as [[s1 s2]|[s1 s2]].
        + apply mpn; [apply PP; apply Rmult_le_pos; assumption|apply GN, s2].
        + apply mnp; [apply PN; apply mpn; assumption|apply GP, s2].
    Qed.
    Lemma nxt_ok : fin nxt /\ Rabs (ext nxt - cst) <= rho /\ (A <= B -> A <= ext nxt) /\ (B <= A -> ext nxt <= A).
    Proof.
      destruct T_ok as (FT & ET & TP & TN). unfold nxt. set (T := Bdiv mode_NE _ _) in *. destruct (ext_plus a T Fa FT) as [N E]. fold A in E. set (w := ext T) in *.
      assert (AB : Rabs (A - B) <= 60) by (apply Rabs_le; unfold A, B in *; lra).
      assert (E3 : Rabs ((A - B) * X / H) <= 60).
      { unfold Rdiv. rewrite Rmult_assoc, Rabs_mult. change (X * / H) with (X / H). pose proof q_le. replace 60 with (60 * 1) by ring. apply Rmult_le_compat; [apply Rabs_pos|apply Rabs_pos|exact AB|apply q_le]. }
      assert (E4 : Rabs (A + w) <= 95).
      { replace (A + w) with (A + ((w - (A - B) * X / H) + (A - B) * X / H)) by ring. eapply Rle_trans; [apply Rabs_triang|].
        assert (Rabs A <= 30) by (apply Rabs_le; unfold A; lra). pose proof (Rabs_triang (w - (A - B) * X / H) ((A - B) * X / H)). lra. }
      pose proof (rnd_err (A + w) ltac:(apply big1000; lra)) as R. pose proof b1000_small as S. pose proof gmin_pos. assert (G1 : gmin <= 1) by (unfold gmin; change 1 with (bpow radix2 0); apply bpow_le; lia).
      split; [|rewrite E; split; [|split; intros O]].
      - apply (fin_abs_le _ 1000); [exact N|lia|]. rewrite E. apply big1000. replace (rnd (A + w)) with ((rnd (A + w) - (A + w)) + (A + w)) by ring. eapply Rle_trans; [apply Rabs_triang|]. unfold u0 in R. lra.
      - unfold cst. replace (rnd (A + w) - (A + (A - B) * X / H)) with ((rnd (A + w) - (A + w)) + (w - (A - B) * X / H)) by ring. eapply Rle_trans; [apply Rabs_triang|]. unfold u0, rho in *. lra.
      - unfold A at 1. rewrite <- (rnd_ext a) by exact Fa. apply rnd_le. fold A. specialize (TP O). lra.
      - unfold A at 2. rewrite <- (rnd_ext a) by exact Fa. apply rnd_le. fold A. specialize (TN O). lra.
    Qed.
    (** a step past the far end only happens when the far end is nearly a root *)
    Lemma beyond : 9 / 10 ^ 7 <= Rabs (A - B) -> (A <= B /\ B < ext nxt) \/ (B <= A /\ ext nxt < B) -> Rabs Y <= 3 * rho * M * 10 ^ 6 /\ Rabs (ext nxt - B) <= rho.
    Proof.
      intros W C. destruct nxt_ok as (_ & E & _ & _). set (c := ext nxt) in *. destruct GH as (_ & Q2 & NH & _). pose proof H_abs as HA. pose proof gmin_pos.
      assert (HM2 : Rabs H <= 2 * M) by (unfold X, Y in *; lra).
      assert (CB : cst - B = (A - B) * (Y / H)). { unfold cst. transitivity ((A - B) * (1 + X / H)); [unfold Rdiv; ring|]. replace (1 + X / H) with (Y / H); [reflexivity|]. unfold H in NH |- *. field. exact NH. }
      assert (YH : 0 <= Y / H).
      { replace (Y / H) with (Y * H * (/ H * / H)) by (field; exact NH). apply Rmult_le_pos; [|apply Rle_0_sqr]. unfold H. assert (X * Y <= 0) by exact Sg. pose proof (Rle_0_sqr Y). unfold Rsqr in *. lra. }
      apply Rabs_le_inv in E.
      assert (K : Rabs (A - B) * (Y / H) <= rho /\ Rabs (c - B) <= rho).
      { destruct C as [[O1 O2]|[O1 O2]].
        - assert (cst - B <= 0) by (rewrite CB; assert (0 <= (B - A) * (Y / H)) by (apply Rmult_le_pos; lra); lra). rewrite (Rabs_left1 (A - B)) by lra. replace (- (A - B) * (Y / H)) with (B - cst) by lra. split; [lra|apply Rabs_le; lra].
        - assert (0 <= cst - B) by (rewrite CB; apply Rmult_le_pos; lra). rewrite (Rabs_pos_eq (A - B)) by lra. rewrite <- CB. split; [lra|apply Rabs_le; lra]. }
      destruct K as [K1 K2]. split; [|exact K2].
      assert (YH2 : Y / H = Rabs Y / Rabs H). { rewrite <- (Rabs_pos_eq _ YH). unfold Rdiv. rewrite Rabs_mult, Rabs_inv. reflexivity. }
      rewrite YH2 in K1. assert (0 <= Rabs Y / Rabs H) by (rewrite <- YH2; exact YH).
      assert (K3 : 9 / 10 ^ 7 * (Rabs Y / Rabs H) <= rho) by (eapply Rle_trans; [apply Rmult_le_compat_r; [assumption|exact W]|exact K1]).
      assert (K4 : Rabs Y = Rabs Y / Rabs H * Rabs H) by (field; lra). rewrite K4.
      apply Rle_trans with (rho * (10 ^ 7 / 9) * (2 * M)); [|unfold rho; lra]. apply Rmult_le_compat; [assumption|apply Rabs_pos|lra|exact HM2].
    Qed.
  End Step.

  Definition inv (a fa b fb : B64) : Prop :=
    fin a /\ fin b /\ lo <= ext a <= hi /\ lo <= ext b <= hi /\ fin fa /\ fb = F b /\
    Rabs (ext fa) <= Rabs (ext (F a)) /\ 0 <= ext fa * ext (F a) /\ ext (F a) * ext (F b) <= 0 /\
    (ext fb = 0 -> ext fa = ext (F a)).

  Lemma close_root a b : fin a -> fin b -> lo <= ext a <= hi -> lo <= ext b <= hi -> ext (F a) * ext (F b) <= 0 ->
    Rabs (ext a - r) <= Rabs (ext b - ext a) + eta / m1.
  Proof.
    intros Fa Fb Ba Bb S. destruct (HF a Fa Ba) as (_ & Ea & _ & _). destruct (HF b Fb Bb) as (_ & Eb & _ & _).
    pose proof wid_pos as WP. pose proof (Rabs_pos (ext b - ext a)) as P0. assert (ER : eta = m1 * (eta / m1)) by (field; lra).
    apply Rabs_le_inv in Ea. apply Rabs_le_inv in Eb. set (A := ext a) in *. set (B := ext b) in *. set (u := ext (F a)) in *. set (w := ext (F b)) in *. set (k := eta / m1) in *.
    assert (k0 : 0 <= k) by (unfold k; apply Rmult_le_pos; [exact Heta|left; apply Rinv_0_lt_compat; exact Hm]).
    destruct (Rle_dec (Rabs (f A)) eta) as [Q|Q].
    { pose proof (near_root A eta Ba Q). fold k in H. lra. }
    apply Rnot_le_lt in Q. unfold Rabs in Q. destruct (Rcase_abs (f A)) as [C|C].
    - assert (u < 0) by lra. assert (0 <= w) by nra. assert (r <= A) by (destruct (Rle_dec r A); [assumption|pose proof (Hf A r ltac:(lra) ltac:(lra) ltac:(lra)); rewrite Hr in *; nra]).
      destruct (Rle_dec B r) as [b1|b1]; [rewrite (Rabs_pos_eq (A - r)), (Rabs_left1 (B - A)) by lra; lra|].
      pose proof (Hf r B ltac:(lra) ltac:(lra) ltac:(lra)) as H2. rewrite Hr in H2. assert (B - r <= k) by (apply Rmult_le_reg_l with m1; [exact Hm|lra]).
      rewrite (Rabs_pos_eq (A - r)) by lra. pose proof (Rle_abs (- (B - A))). rewrite Rabs_Ropp in *. lra.
    - assert (0 < u) by lra. assert (w <= 0) by nra. assert (A <= r) by (destruct (Rle_dec A r); [assumption|pose proof (Hf r A ltac:(lra) ltac:(lra) ltac:(lra)); rewrite Hr in *; nra]).
      destruct (Rle_dec r B) as [b1|b1]; [rewrite (Rabs_left1 (A - r)), (Rabs_pos_eq (B - A)) by lra; lra|].
      pose proof (Hf B r ltac:(lra) ltac:(lra) ltac:(lra)) as H2. rewrite Hr in H2. assert (r - B <= k) by (apply Rmult_le_reg_l with m1; [exact Hm|lra]).
      rewrite (Rabs_left1 (A - r)) by lra. pose proof (Rle_abs (B - A)). lra.
  Qed.

  Lemma sg3 x y z : Rabs x <= Rabs y -> 0 <= x * y -> y * z <= 0 -> x * z <= 0.
  Proof.
    intros H1 H2 H3. destruct (Req_dec y 0) as [E|E]; [rewrite E, Rabs_R0 in H1; pose proof (Rabs_pos x); assert (Rabs x = 0) by lra; destruct (Req_dec x 0) as [e|e]; [rewrite e; lra|apply Rabs_no_R0 in e; lra]|].
    destruct (Rlt_dec 0 y); [assert (0 <= x) by nra; assert (z <= 0) by nra; nra|assert (y < 0) by lra; assert (x <= 0) by nra; assert (0 <= z) by nra; nra].
  Qed.
  Lemma sg4 x y z : x * y <= 0 -> 0 < z * y -> x * z <= 0.
  Proof. intros P Q. destruct (Rlt_dec 0 y); [assert (0 < z) by nra; assert (x <= 0) by nra; nra|]. assert (y < 0) by (destruct (Req_dec y 0) as [e|e]; [rewrite e in Q; lra|lra]). assert (z < 0) by nra. assert (0 <= x) by nra. nra. Qed.
  Lemma F_nan : F (B754_nan : B64) = B754_nan.
  Proof. unfold g2_f_value. set (i := fdiv (Arith := B64A L) (fmul _ _) _). change (Bminus mode_NE i (Bdiv mode_NE (Bminus mode_NE (B754_nan : B64) (fln (Arith := B64A L) (fpowi (A := B64A L) s 2))) (fpowi (A := B64A L) t 2)) = B754_nan).
    set (l := fln _). set (q := fpowi _ _). clearbody i l q. destruct l as [|[|]| |]; destruct q as [|[|]| |]; destruct i as [|[|]| |]; reflexivity. Qed.
  Lemma fin0_zero (x : B64) : fin x -> ext x = 0 -> exists sg, x = B754_zero sg.
  Proof.
    intros Fx E. destruct x as [sx|sx| |sx m e He]; [exists sx; reflexivity|discriminate Fx|discriminate Fx|].
    exfalso. apply (eq_0_F2R radix2) in E. simpl in E. destruct sx; discriminate E.
  Qed.
  Lemma nxt_nan a fa b fb : fin a -> fin b -> fin fa -> fin fb -> ext fa = 0 -> ext fb = 0 -> lo <= ext a <= hi -> lo <= ext b <= hi -> nxt a fa b fb = B754_nan.
  Proof.
    intros Fa Fb Ffa Ffb Ea Eb Ba Bb. destruct (fin0_zero fa Ffa Ea) as [s1 E1]. destruct (fin0_zero fb Ffb Eb) as [s2 E2]. subst fa fb. unfold nxt.
    destruct (D_ok a b Fa Fb Ba Bb) as (FD & _). set (D := Bminus mode_NE a b) in *. clearbody D.
    assert (P0 : exists s3, Bmult mode_NE D (B754_zero s1 : B64) = B754_zero s3). { destruct D as [d|d| |d m e He]; try discriminate FD; eexists; reflexivity. }
    destruct P0 as [s3 P0]. rewrite P0. assert (G0 : exists s4, Bminus mode_NE (B754_zero s2 : B64) (B754_zero s1) = B754_zero s4) by (destruct s1, s2; eexists; reflexivity).
    destruct G0 as [s4 G0]. rewrite G0. destruct a as [|[|]| |]; reflexivity.
  Qed.
  Lemma prod_test x y : fin x -> fin y -> Rabs (ext x) <= M -> Rabs (ext y) <= M -> (ext x = 0 \/ gmin <= Rabs (ext x)) -> (ext y = 0 \/ gmin <= Rabs (ext y)) ->
    Bleb (Bmult mode_NE x y) (B754_zero false) = Rle_bool (ext x * ext y) 0.
  Proof.
    intros Fx Fy Bx By Gx Gy. destruct (ext_mult x y Fx Fy) as [N E]. rewrite Bleb_ext by (exact N || reflexivity). rewrite E. change (ext (B754_zero false : B64)) with 0.
    destruct (Rle_bool_spec (ext x * ext y) 0) as [Q|Q].
    - apply Rle_bool_true. apply rnd_0_le, Q.
    - apply Rle_bool_false. pose proof gmin_pos.
      destruct Gx as [Gx|Gx]; [rewrite Gx in Q; lra|]. destruct Gy as [Gy|Gy]; [rewrite Gy in Q; lra|].
      assert (Z : bpow radix2 (-600) <= ext x * ext y). { rewrite <- (Rabs_pos_eq (ext x * ext y)) by lra. rewrite Rabs_mult. change (-600)%Z with (-300 + -300)%Z. rewrite bpow_plus. fold gmin. apply Rmult_le_compat; lra. }
      apply Rlt_le_trans with (bpow radix2 (-600)); [apply bpow_gt_0|]. rewrite <- (rnd_pow2 (-600)) by lia. apply rnd_le, Z.
  Qed.
  Lemma half_ok x : fin x -> let h := Bdiv mode_NE x (b64_of_Z 2) in fin h /\ Rabs (ext h) <= Rabs (ext x) /\ 0 <= ext h * ext x.
  Proof.
    intros Fx h. destruct (ap_Z 2 ltac:(lia)) as [F2 E2]. assert (E2' : ext (b64_of_Z 2) = 2) by (apply Rabs_le_inv in E2; lra).
    destruct (ext_div x (b64_of_Z 2) Fx F2 ltac:(rewrite E2'; lra)) as [N E]. fold h in N, E. rewrite E2' in E.
    assert (K : Rabs (ext h) <= Rabs (ext x) /\ 0 <= ext h * ext x).
    { rewrite E. destruct (Rle_dec 0 (ext x)) as [Q|Q].
      - assert (0 <= rnd (ext x / 2)) by (apply rnd_nonneg; lra). assert (rnd (ext x / 2) <= ext x) by (rewrite <- (rnd_ext x) at 2 by exact Fx; apply rnd_le; lra).
        rewrite !Rabs_pos_eq by lra. split; [lra|apply Rmult_le_pos; lra].
      - assert (rnd (ext x / 2) <= 0) by (apply rnd_0_le; lra). assert (ext x <= rnd (ext x / 2)) by (rewrite <- (rnd_ext x) at 1 by exact Fx; apply rnd_le; lra).
        rewrite !Rabs_left1 by lra. split; [lra|apply mnn; lra]. }
    split; [|exact K]. apply fin_iff; [exact N|]. apply Rle_lt_trans with (1 := proj1 K). apply fin_iff; [destruct x; try discriminate Fx; reflexivity|exact Fx].
  Qed.

  Lemma ill_result fuel : forall a fa b fb x, inv a fa b fb -> g2_illinois (A := B64A L) fuel a fa b fb d2 p2 v s t tol = Some x ->
    fin x /\ lo <= ext x <= hi /\ Rabs (ext x - r) <= ext tol + rho + eta / m1.
  Proof.
    induction fuel as [|fuel IH]; intros a fa b fb x I E; [discriminate E|].
    destruct I as (Fa & Fb & Ba & Bb & Ffa & Eb & Ab & S1 & S2 & Z).
    destruct (HF a Fa Ba) as (FFa & Ea & Ma & Ga). destruct (HF b Fb Bb) as (FFb & Eb' & Mb & Gb).
    assert (k0 : 0 <= eta / m1) by (apply Rmult_le_pos; [exact Heta|left; apply Rinv_0_lt_compat; exact Hm]).
    cbn [g2_illinois] in E.
    change (fltb tol (fabs (Arith := B64A L) (fsub b a))) with (Bltb tol (Babs (Bminus mode_NE b a))) in E.
    destruct (D_ok b a Fb Fa Bb Ba) as (FD & ED & _).
    assert (ND : nn (Bminus mode_NE b a)) by (destruct (Bminus mode_NE b a); try discriminate FD; reflexivity).
    destruct (ext_Babs _ ND) as [NA EA]. rewrite Bltb_ext in E by (exact NA || (destruct tol; try discriminate Ht; reflexivity)). rewrite EA in E.
    set (dd := ext (Bminus mode_NE b a)) in *. assert (DW : Rabs (Rabs dd - Rabs (ext b - ext a)) <= 73 / 10 ^ 16) by (eapply Rle_trans; [apply Rabs_triang_inv2|exact ED]). apply Rabs_le_inv in DW.
    destruct (Rlt_bool_spec (ext tol) (Rabs dd)) as [C|C].
    2: { injection E as E. subst x. split; [exact Fa|split; [exact Ba|]]. pose proof (close_root a b Fa Fb Ba Bb S2). unfold rho. lra. }
    change (fadd a (fdiv (fmul (fsub a b) fa) (fsub fb fa))) with (nxt a fa b fb) in E.
    assert (Ffb : fin fb) by (rewrite Eb; exact FFb).
    assert (Cs : (ext fb = 0 /\ ext (F a) = 0) \/ gmin <= Rabs (ext fa) + Rabs (ext fb)).
    { destruct (Req_dec (ext fb) 0) as [Eb0|Eb0]; [destruct Ga as [Ga|Ga]; [left; split; assumption|right; rewrite (Z Eb0); pose proof (Rabs_pos (ext fb)); lra]|].
      right. rewrite Eb in *. destruct Gb as [Gb|Gb]; [contradiction|pose proof (Rabs_pos (ext fa)); lra]. }
    destruct Cs as [[Eb0 Ga0]|Gap].
    - (* both values are zero: the new point is NaN and the loop stops at a root *)
      assert (NX : nxt a fa b fb = B754_nan) by (apply nxt_nan; try assumption; rewrite (Z Eb0); exact Ga0).
      rewrite NX in E. rewrite F_nan in E.
      change (fleb (Arith := B64A L) (fmul (B754_nan : B64) fb) (fofZ 0)) with (Bleb (Bmult mode_NE (B754_nan : B64) fb) (b64_of_Z 0)) in E.
      assert (N1 : Bmult mode_NE (B754_nan : B64) fb = B754_nan) by (destruct fb as [|[|]| |]; reflexivity). rewrite N1 in E. change (Bleb (B754_nan : B64) (b64_of_Z 0)) with false in E. cbv iota in E.
      destruct fuel as [|fuel]; [discriminate E|]. cbn [g2_illinois] in E.
      change (fltb tol (fabs (Arith := B64A L) (fsub (B754_nan : B64) a))) with (Bltb tol (Babs (Bminus mode_NE (B754_nan : B64) a))) in E.
      assert (N2 : Babs (Bminus mode_NE (B754_nan : B64) a) = B754_nan) by (destruct a as [|[|]| |]; reflexivity). rewrite N2, Bltb_nan_r in E.
      injection E as E. subst x. split; [exact Fa|split; [exact Ba|]].
      rewrite Ga0 in Ea. assert (Ea' : Rabs (f (ext a)) <= eta) by (rewrite Rabs_minus_sym, Rminus_0_r in Ea; exact Ea). pose proof (near_root _ _ Ba Ea'). unfold rho. lra.
    - assert (Sg : ext fa * ext fb <= 0) by (rewrite Eb; apply (sg3 _ (ext (F a))); assumption).
      assert (Mfa : Rabs (ext fa) <= M) by lra. assert (Mfb : Rabs (ext fb) <= M) by (rewrite Eb; exact Mb).
      destruct (nxt_ok a fa b fb Fa Fb Ffa Ffb Ba Bb Mfa Mfb Sg Gap) as (Fc & Ec & O1 & O2).
      pose proof (beyond a fa b fb Fa Fb Ffa Ffb Ba Bb Mfa Mfb Sg Gap) as By.
      set (c := nxt a fa b fb) in *.
      assert (W : 9 / 10 ^ 7 <= Rabs (ext a - ext b)) by (rewrite Rabs_minus_sym; lra). specialize (By W).
      assert (Bc : lo <= ext c <= hi).
      { assert (NB : Rabs (ext fb) <= 3 * rho * M * 10 ^ 6 /\ Rabs (ext c - ext b) <= rho -> lo <= ext c <= hi).
        { intros [B1 B2]. assert (FB : Rabs (f (ext b)) <= 4 * rho * M * 10 ^ 6 + eta).
          { replace (f (ext b)) with (ext (F b) - (ext (F b) - f (ext b))) by ring. eapply Rle_trans; [apply Rabs_triang|]. rewrite Rabs_Ropp. rewrite <- Eb at 1. unfold rho in *. assert (0 <= / 10 ^ 13 * M * 10 ^ 6) by (assert (0 < M) by apply HM; lra). lra. }
          pose proof (near_root _ _ Bb FB) as NR. unfold wid in Hw. set (q := (4 * rho * M * 10 ^ 6 + eta) / m1) in *. apply Rabs_le_inv in NR. apply Rabs_le_inv in B2. lra. }
        destruct (Rle_dec (ext a) (ext b)) as [O|O].
        - specialize (O1 O). destruct (Rle_dec (ext c) (ext b)); [lra|]. apply NB, By. left. lra.
        - specialize (O2 ltac:(lra)). destruct (Rle_dec (ext b) (ext c)); [lra|]. apply NB, By. right. lra. }
      destruct (HF c Fc Bc) as (FFc & _ & Mc & Gc).
      change (fleb (Arith := B64A L) (fmul (F c) fb) (fofZ 0)) with (Bleb (Bmult mode_NE (F c) fb) (B754_zero false)) in E.
      rewrite prod_test in E; [|exact FFc|exact Ffb|exact Mc|exact Mfb|exact Gc|rewrite Eb; exact Gb].
      destruct (Rle_bool_spec (ext (F c) * ext fb) 0) as [Q|Q]; apply (IH _ _ _ _ _) in E; try exact E.
      + unfold inv. rewrite Eb in *. split; [exact Fb|]. split; [exact Fc|]. split; [exact Bb|]. split; [exact Bc|]. split; [exact FFb|]. split; [reflexivity|].
        split; [lra|]. split; [apply Rle_0_sqr|]. split; [rewrite Rmult_comm; exact Q|reflexivity].
      + destruct (half_ok fa Ffa) as (Fh & Ah & Sh). change (fdiv (Arith := B64A L) fa (fofZ 2)) with (Bdiv mode_NE fa (b64_of_Z 2)) in *. set (h := Bdiv mode_NE fa (b64_of_Z 2)) in *.
        unfold inv. split; [exact Fa|]. split; [exact Fc|]. split; [exact Ba|]. split; [exact Bc|]. split; [exact Fh|]. split; [reflexivity|].
        split; [lra|]. split; [|split].
        * assert (- ext h * ext (F a) <= 0); [|lra]. apply (sg3 _ (- ext fa)); [rewrite !Rabs_Ropp; exact Ah|lra|lra].
        * rewrite Eb in Q. apply (sg4 _ (ext (F b))); assumption.
        * intros K. rewrite K in Q. lra.
  Qed.
End Ill.
