(** The Illinois iteration of Glicko-2 in double precision stops: for any computed
    function that is within small noise of a nearly linear decreasing one. *)
From Coq Require Import ZArith List Bool Reals Lra Lia Psatz.
From Flocq Require Import Core.Core IEEE754.BinarySingleNaN.
From Verif Require Import Arith B64 ModelLib ModelGlicko2 SpecB64 MathB64 ProofB64 ProofB64b MathB64b MathAcc MathIllF MathG2F.
Import ListNotations.
Local Open Scope R_scope.

Lemma mul_np a b : 0 < b -> a * b <= 0 -> a <= 0. Proof. intros B H. destruct (Rle_dec a 0) as [|C]; [assumption|]. pose proof (Rmult_lt_0_compat a b ltac:(lra) B). lra. Qed.
Lemma mul_pp a b : 0 < b -> 0 < a * b -> 0 < a. Proof. intros B H. destruct (Rlt_dec 0 a) as [|C]; [assumption|]. pose proof (Rmult_le_compat_r b a 0 ltac:(lra) ltac:(lra)). lra. Qed.
Lemma rnd_mult_id m e : (Z.abs m < 2 ^ 53)%Z -> (-1000 <= e <= 900)%Z -> rnd (IZR m * bpow radix2 e) = IZR m * bpow radix2 e.
Proof.
  intros M E. apply rnd_id.
  - change (IZR m * bpow radix2 e) with (F2R (Float radix2 m e)). apply (generic_format_FLT radix2 (-1074) 53). exists (Float radix2 m e); [reflexivity|exact M|simpl; lia].
  - rewrite Rabs_mult, (Rabs_pos_eq (bpow radix2 e)) by apply bpow_ge_0. apply Rle_trans with (bpow radix2 53 * bpow radix2 e).
    + apply Rmult_le_compat_r; [apply bpow_ge_0|]. rewrite <- abs_IZR. change (bpow radix2 53) with (IZR (2 ^ 53)). apply IZR_le. lia.
    + rewrite <- bpow_plus. unfold M64. apply bpow_le. lia.
Qed.

Section Between.
  Variables (lo hi M : R).
  Hypothesis Hlo : -16 <= lo. Hypothesis Hhi : hi <= -21 / 10. Hypothesis HM : 0 < M <= 10 ^ 5.
  Variables (a fa b fb : B64).
  Hypothesis Fa : fin a. Hypothesis Fb : fin b. Hypothesis Ffa : fin fa. Hypothesis Ffb : fin fb.
  Hypothesis Ba : lo <= ext a <= hi. Hypothesis Bb : lo <= ext b <= hi.
  Hypothesis Bfa : Rabs (ext fa) <= M. Hypothesis Bfb : Rabs (ext fb) <= M.
  Hypothesis Sg : ext fa * ext fb <= 0.
  Hypothesis Gap : gmin <= Rabs (ext fa) + Rabs (ext fb).
  Hypothesis W : Rabs (ext a - ext b) <= 995 / 1000.
  Let A := ext a. Let B := ext b. Let X := ext fa. Let Y := ext fb.
  Lemma D_exact : ext (Bminus mode_NE a b) = A - B.
  Proof.
    destruct (ext_minus a b Fa Fb) as [_ E]. rewrite E.
    assert (K : bpow radix2 1 <= Rabs A /\ bpow radix2 1 <= Rabs B) by (change (bpow radix2 1) with 2; unfold A, B; rewrite !Rabs_left1 by lra; lra).
    destruct (mult_of a 1 Fa (proj1 K)) as [m Em]. destruct (mult_of b 1 Fb (proj2 K)) as [n En]. fold A in Em. fold B in En. fold A B. fold A B in W. rewrite Em, En in *. change (1 - 52)%Z with (-51)%Z in *.
    rewrite <- Rmult_minus_distr_r, <- minus_IZR in *. apply rnd_mult_id; [|lia].
    rewrite Rabs_mult, (Rabs_pos_eq (bpow radix2 (-51))) in W by apply bpow_ge_0.
    apply lt_IZR. rewrite abs_IZR. apply Rmult_lt_reg_r with (bpow radix2 (-51)); [apply bpow_gt_0|]. apply Rle_lt_trans with (1 := W). change (IZR (2 ^ 53)) with (bpow radix2 53). rewrite <- bpow_plus. simpl. lra.
  Qed.
  Lemma G_big : Rabs X <= Rabs (ext (Bminus mode_NE fb fa)).
  Proof.
    destruct (ext_minus fb fa Ffb Ffa) as [_ E]. rewrite E. fold X Y. fold X Y in Sg.
    destruct (Req_dec X 0) as [Z|Z]; [rewrite Z, Rabs_R0; apply Rabs_pos|]. destruct (Rle_dec 0 X) as [P|P].
    - assert (Y <= 0) by nra. rewrite <- (Rabs_Ropp (rnd _)), <- rnd_opp. eapply Rle_trans; [|apply Rle_abs]. rewrite Rabs_pos_eq by exact P. unfold X at 1. rewrite <- (rnd_ext fa) by exact Ffa. apply rnd_le. fold X. lra.
    - assert (0 <= Y) by nra. eapply Rle_trans; [|apply Rle_abs]. rewrite Rabs_left1 by lra. unfold X at 1. rewrite <- (rnd_ext fa), <- rnd_opp by exact Ffa. apply rnd_le. fold X. lra.
  Qed.
  Let P := Bmult mode_NE (Bminus mode_NE a b) fa. Let T := Bdiv mode_NE P (Bminus mode_NE fb fa).
  Lemma T_small : Rabs (ext T) <= Rabs (A - B) + 18 / 10 ^ 17.
  Proof.
    destruct (P_ok lo hi M ltac:(lra) ltac:(lra) HM a fa b Fa Fb Ffa Ba Bb Bfa) as (FP & _ & _ & _). fold P in FP.
    destruct (G_fin M HM fa fb Ffa Ffb Bfa Bfb Sg Gap) as (FG & _ & _ & _). pose proof G_big as GB.
    destruct (GH M HM fa fb Ffa Ffb Bfa Bfb Sg Gap) as (Q1 & Q2 & _ & NG). set (G := ext (Bminus mode_NE fb fa)) in *.
    destruct (ext_div P (Bminus mode_NE fb fa) FP FG NG) as [_ E]. fold T G in E.
    destruct (D_ok lo hi ltac:(lra) ltac:(lra) a b Fa Fb Ba Bb) as (FD & _). destruct (ext_mult _ fa FD Ffa) as [_ EP]. fold P in EP. rewrite D_exact in EP. fold X in EP.
    fold A B in W. fold X in Bfa. assert (DX : Rabs ((A - B) * X) <= Rabs (A - B) * Rabs X) by (rewrite Rabs_mult; lra).
    assert (DX2 : Rabs (A - B) * Rabs X <= 1 * Rabs X) by (apply Rmult_le_compat_r; [apply Rabs_pos|lra]).
    pose proof (rnd_err ((A - B) * X) ltac:(apply big1000; lra)) as R1. rewrite <- EP in R1. pose proof gmin_pos as GP. pose proof b1000_small as BS.
    assert (PB : Rabs (ext P) <= Rabs (A - B) * Rabs X * (1 + u0) + / 10 ^ 100 * gmin).
    { replace (ext P) with ((ext P - (A - B) * X) + (A - B) * X) by ring. eapply Rle_trans; [apply Rabs_triang|]. unfold u0 in *. lra. }
    assert (GP' : 0 < Rabs G) by lra.
    assert (QB : Rabs (ext P / G) <= Rabs (A - B) * (1 + u0) + 2 / 10 ^ 100).
    { unfold Rdiv. rewrite Rabs_mult, Rabs_inv. apply Rmult_le_reg_r with (Rabs G); [exact GP'|]. rewrite Rmult_assoc, Rinv_l, Rmult_1_r by lra. apply Rle_trans with (1 := PB). rewrite Rmult_plus_distr_r.
      assert (Rabs (A - B) * Rabs X * (1 + u0) <= Rabs (A - B) * (1 + u0) * Rabs G).
      { replace (Rabs (A - B) * Rabs X * (1 + u0)) with (Rabs (A - B) * (1 + u0) * Rabs X) by ring. apply Rmult_le_compat_l; [|exact GB]. apply Rmult_le_pos; [apply Rabs_pos|unfold u0; lra]. }
      lra. }
    assert (QS : Rabs (ext P / G) <= bpow radix2 0) by (simpl; unfold u0 in QB; lra).
    pose proof (rnd_abs 0 (ext P / G) ltac:(lia) QS) as R2. change (0 - 54)%Z with (- Z.of_nat 54)%Z in R2. rewrite bpow_nat in R2. rewrite <- E in R2.
    replace (ext T) with ((ext T - ext P / G) + ext P / G) by ring. eapply Rle_trans; [apply Rabs_triang|]. unfold u0 in QB. lra.
  Qed.
  Lemma near_B z (c : B64) : fin c -> ext c = rnd z -> -17 <= z <= -2 -> Rabs (B - z) <= 19 / 10 ^ 17 -> ext c = B.
  Proof.
    intros Fc Ec Bz H.
    assert (N : Rabs (ext c - z) <= Rabs (B - z)).
    { rewrite Ec, rnd_rnd0_small. 2: { apply Rle_trans with (bpow radix2 5); [simpl; rewrite Rabs_left1 by lra; lra|apply bpow_le; lia]. }
      unfold rnd0. destruct (round_N_pt radix2 fexp64 (fun x => negb (Z.even x)) z) as [_ Q]. apply Q. unfold B. rewrite ext_fin by exact Fb. apply generic_format_B2R. }
    assert (CB : Rabs (ext c - B) <= 38 / 10 ^ 17). { replace (ext c - B) with ((ext c - z) - (B - z)) by ring. eapply Rle_trans; [apply Rabs_triang|]. rewrite Rabs_Ropp. lra. }
    assert (K : bpow radix2 1 <= Rabs (ext c) /\ bpow radix2 1 <= Rabs B).
    { change (bpow radix2 1) with 2. apply Rabs_le_inv in CB. unfold B in *. rewrite !Rabs_left1 by lra. lra. }
    destruct (mult_of c 1 Fc (proj1 K)) as [m Em]. destruct (mult_of b 1 Fb (proj2 K)) as [n En]. fold B in En. rewrite Em, En in *. change (1 - 52)%Z with (- Z.of_nat 51)%Z in *. rewrite bpow_nat in *.
    rewrite <- Rmult_minus_distr_r, <- minus_IZR, Rabs_mult in CB. rewrite <- abs_IZR, (Rabs_pos_eq (/ 2 ^ 51)) in CB by lra.
    assert (ZZ : (m = n)%Z). { assert (Q : IZR (Z.abs (m - n)) < 1) by lra. apply lt_IZR in Q. lia. } rewrite ZZ. reflexivity.
  Qed.
  Lemma nxt_between : (A <= B -> A <= ext (nxt a fa b fb) <= B) /\ (B <= A -> B <= ext (nxt a fa b fb) <= A).
  Proof.
    destruct (nxt_ok lo hi M ltac:(lra) ltac:(lra) HM a fa b fb Fa Fb Ffa Ffb Ba Bb Bfa Bfb Sg Gap) as (Fc & _ & O1 & O2). fold A B in O1, O2.
    pose proof (T_ok lo hi M ltac:(lra) ltac:(lra) HM a fa b fb Fa Fb Ffa Ffb Ba Bb Bfa Bfb Sg Gap) as TO. cbv zeta in TO. fold P T in TO. destruct TO as (FT & _ & TP & TN). fold A B in TP, TN.
    pose proof T_small as TS. apply Rabs_le_inv in TS.
    destruct (ext_plus a T Fa FT) as [_ E]. fold A in E. change (Bplus mode_NE a T) with (nxt a fa b fb) in E. unfold A, B in *.
    split; intros O; (split; [|]).
    - apply O1, O.
    - specialize (TP O). rewrite Rabs_left1 in TS by lra. destruct (Rle_dec (ext a + ext T) (ext b)) as [C|C].
      + rewrite E. rewrite <- (rnd_ext b) by exact Fb. apply rnd_le, C.
      + right. apply (near_B (ext a + ext T)); [exact Fc|exact E|lra|]. unfold B. apply Rabs_le. lra.
    - specialize (TN O). rewrite Rabs_pos_eq in TS by lra. destruct (Rle_dec (ext b) (ext a + ext T)) as [C|C].
      + rewrite E. rewrite <- (rnd_ext b) by exact Fb. apply rnd_le, C.
      + right. symmetry. apply (near_B (ext a + ext T)); [exact Fc|exact E|lra|]. unfold B. apply Rabs_le. lra.
    - apply O2, O.
  Qed.
End Between.

(** ** Termination *)
Section Term.
  Variables (L : Libm) (d2 p2 v s t tol : B64).
  Notation F x := (g2_f_value (A := B64A L) x d2 p2 v s t).
  Variables (lo hi r ms Ms eta gam : R).
  Hypothesis Hlo : -16 <= lo. Hypothesis Hhi : hi <= -21 / 10. Hypothesis Hw : hi - lo <= 995 / 1000.
  Hypothesis Hms : 0 < ms. Hypothesis HMs : ms <= Ms <= 5 / 4 * ms.
  Hypothesis Heta : 0 <= eta <= ms * (2 / 10 ^ 14). Hypothesis Hgam : eta <= 1000 * gam. Hypothesis Hgm : 10 * gmin <= gam.
  Hypothesis HF : forall x, fin x -> lo <= ext x <= hi ->
    fin (F x) /\ Rabs (ext (F x)) <= 4000 /\ (ext (F x) = 0 \/ gam <= Rabs (ext (F x))) /\
    (ext x <= r -> ms * (r - ext x) - eta <= ext (F x) <= Ms * (r - ext x) + eta) /\
    (r <= ext x -> - (Ms * (ext x - r)) - eta <= ext (F x) <= - (ms * (ext x - r)) + eta).
  Hypothesis Ht : fin tol. Hypothesis Ht' : 99 / 10 ^ 8 <= ext tol.
  Notation kap := (ext tol / 4). Notation Zn := (ext tol / 32).

  Definition halts (a fa b fb : B64) : Prop := exists N x, forall k, g2_illinois (A := B64A L) (N + k) a fa b fb d2 p2 v s t tol = Some x.

  Lemma test_val a b : fin a -> fin b -> lo <= ext a <= hi -> lo <= ext b <= hi ->
    Bltb tol (Babs (Bminus mode_NE b a)) = Rlt_bool (ext tol) (Rabs (ext b - ext a)).
  Proof.
    intros Fa Fb Ba Bb. assert (W : Rabs (ext b - ext a) <= 995 / 1000) by (apply Rabs_le; lra).
    destruct (ext_minus b a Fb Fa) as [ND _]. destruct (ext_Babs _ ND) as [NA EA]. rewrite Bltb_ext by (exact NA || (destruct tol; try discriminate Ht; reflexivity)).
    rewrite EA, (D_exact lo hi Hhi b a Fb Fa Bb Ba W). reflexivity.
  Qed.
  Lemma halts_stop a fa b fb : fin a -> fin b -> lo <= ext a <= hi -> lo <= ext b <= hi -> Rabs (ext b - ext a) <= ext tol -> halts a fa b fb.
  Proof.
    intros Fa Fb Ba Bb W. exists 1%nat, a. intro k. cbn [g2_illinois Nat.add].
    change (fltb tol (fabs (Arith := B64A L) (fsub b a))) with (Bltb tol (Babs (Bminus mode_NE b a))). rewrite test_val by assumption. rewrite Rlt_bool_false by exact W. reflexivity.
  Qed.
  Lemma halts_step a fa b fb : fin a -> fin b -> lo <= ext a <= hi -> lo <= ext b <= hi -> fb = F b ->
    let c := nxt a fa b fb in fin c -> lo <= ext c <= hi ->
    (ext (F c) * ext fb <= 0 -> halts b fb c (F c)) -> (0 < ext (F c) * ext fb -> halts a (Bdiv mode_NE fa (b64_of_Z 2)) c (F c)) -> halts a fa b fb.
  Proof.
    intros Fa Fb Ba Bb Eb c Fc Bc H1 H2.
    destruct (Rle_dec (Rabs (ext b - ext a)) (ext tol)) as [W|W]; [apply halts_stop; assumption|].
    destruct (HF b Fb Bb) as (FFb & Mb & Gb & _). destruct (HF c Fc Bc) as (FFc & Mc & Gc & _). pose proof gmin_pos.
    assert (PT : Bleb (Bmult mode_NE (F c) fb) (B754_zero false) = Rle_bool (ext (F c) * ext fb) 0).
    { apply (prod_test 4000); rewrite ?Eb; try assumption; [destruct Gc as [G|G]|destruct Gb as [G|G]]; try (left; exact G); right; lra. }
    assert (ST : forall n, g2_illinois (A := B64A L) (S n) a fa b fb d2 p2 v s t tol =
      (if Bleb (Bmult mode_NE (F c) fb) (B754_zero false) then g2_illinois (A := B64A L) n b fb c (F c) d2 p2 v s t tol
       else g2_illinois (A := B64A L) n a (Bdiv mode_NE fa (b64_of_Z 2)) c (F c) d2 p2 v s t tol)).
    { intro n. cbn [g2_illinois]. change (fltb tol (fabs (Arith := B64A L) (fsub b a))) with (Bltb tol (Babs (Bminus mode_NE b a))).
      rewrite test_val by assumption. rewrite Rlt_bool_true by lra. reflexivity. }
    rewrite PT in ST. destruct (Rle_bool_spec (ext (F c) * ext fb) 0) as [Q|Q]; [destruct (H1 Q) as (N & x & K)|destruct (H2 Q) as (N & x & K)];
      exists (S N), x; intro k; cbn [Nat.add]; rewrite ST; apply K.
  Qed.
  Lemma half_rel x : fin x -> gmin <= Rabs (ext x) -> let h := Bdiv mode_NE x (b64_of_Z 2) in
    fin h /\ Rabs (ext h - ext x / 2) <= / 100 * Rabs (ext x).
  Proof.
    intros Fx G h. destruct (half_ok x Fx) as (Fh & _ & _). split; [exact Fh|].
    destruct (ap_Z 2 ltac:(lia)) as [F2 E2]. assert (E2' : ext (b64_of_Z 2) = 2) by (apply Rabs_le_inv in E2; lra).
    destruct (ext_div x (b64_of_Z 2) Fx F2 ltac:(rewrite E2'; lra)) as [_ E]. fold h in E. rewrite E2' in E. rewrite E.
    assert (HA : Rabs (ext x / 2) = Rabs (ext x) / 2) by (unfold Rdiv; rewrite Rabs_mult, (Rabs_pos_eq (/ 2)) by lra; reflexivity).
    eapply Rle_trans; [apply rnd_rel; rewrite HA; split|].
    - apply Rle_trans with (gmin / 2); [|lra]. unfold gmin. replace (bpow radix2 (-300) / 2) with (bpow radix2 (-300) * bpow radix2 (-1)) by (simpl (bpow radix2 (-1)); lra). rewrite <- bpow_plus. apply bpow_le. lia.
    - assert (Rabs (ext x) < M64) by (apply fin_iff; [apply fin_nn; exact Fx|exact Fx]). unfold M64 in *. replace (bpow radix2 1023) with (bpow radix2 1024 / 2); [lra|]. change 1024%Z with (1023 + 1)%Z. rewrite bpow_plus. change (bpow radix2 1) with 2. lra.
    - rewrite HA. pose proof (Rabs_pos (ext x)). change (-53)%Z with (- Z.of_nat 53)%Z. rewrite bpow_nat. apply Rle_trans with (/ 100 * (Rabs (ext x) / 2)); [apply Rmult_le_compat_r; lra|lra].
  Qed.

  (** positions and values seen from the side [o] of the root on which [b] lies *)
  Section Side.
    Variable o : R. Hypothesis Ho : o = 1 \/ o = -1.
    Notation D x := (o * (r - ext x)).
    Lemma side x : fin x -> lo <= ext x <= hi -> fin (F x) /\ (o * ext (F x) = 0 \/ gam <= Rabs (o * ext (F x))) /\
      (0 <= D x -> ms * D x - eta <= o * ext (F x) <= Ms * D x + eta) /\ (D x <= 0 -> Ms * D x - eta <= o * ext (F x) <= ms * D x + eta).
    Proof.
      intros Fx Bx. destruct (HF x Fx Bx) as (FF & _ & G & H1 & H2). split; [exact FF|]. set (y := ext (F x)) in *.
      split; [destruct Ho as [-> | ->]; [rewrite Rmult_1_l; exact G|replace (-1 * y) with (- y) by ring; rewrite Rabs_Ropp; destruct G; [left; lra|right; assumption]]|].
      destruct Ho as [-> | ->]; split; intros Q.
      - specialize (H1 ltac:(lra)). lra.
      - specialize (H2 ltac:(lra)). lra.
      - specialize (H2 ltac:(lra)). lra.
      - specialize (H1 ltac:(lra)). lra.
    Qed.
    Lemma D_diff x y : Rabs (ext x - ext y) = Rabs (D x - D y).
    Proof. destruct Ho as [-> | ->]; [rewrite Rabs_minus_sym|]; f_equal; ring. Qed.
    Lemma step_facts a fa b fb : fin a -> fin b -> lo <= ext a <= hi -> lo <= ext b <= hi -> fin fa -> fb = F b -> Rabs (ext fa) <= 4000 ->
      o * ext fa <= 0 -> 0 <= o * ext fb -> gmin <= - (o * ext fa) + o * ext fb -> D a <= D b ->
      let c := nxt a fa b fb in fin c /\ lo <= ext c <= hi /\ D a <= D c <= D b /\
        Rabs (D c * (- (o * ext fa) + o * ext fb) - (D a * (o * ext fb) + D b * - (o * ext fa))) <= rho * (- (o * ext fa) + o * ext fb).
    Proof.
      intros Fa Fb Ba Bb Ffa Eb Bfa Sa Sb Gap O c. destruct (HF b Fb Bb) as (FFb & Mb & _). rewrite <- Eb in FFb, Mb.
      assert (Ab : Rabs (ext fa) + Rabs (ext fb) = - (o * ext fa) + o * ext fb).
      { destruct Ho as [E|E]; rewrite E in *; [rewrite (Rabs_left1 (ext fa)), (Rabs_pos_eq (ext fb)) by lra; ring|rewrite (Rabs_pos_eq (ext fa)), (Rabs_left1 (ext fb)) by lra; ring]. }
      assert (Sg : ext fa * ext fb <= 0). { assert ((o * ext fa) * (o * ext fb) <= 0) by (apply mnp; assumption). replace (ext fa * ext fb) with ((o * ext fa) * (o * ext fb)); [assumption|]. destruct Ho as [-> | ->]; ring. }
      assert (Gap' : gmin <= Rabs (ext fa) + Rabs (ext fb)) by lra.
      assert (W : Rabs (ext a - ext b) <= 995 / 1000) by (apply Rabs_le; lra).
      destruct (nxt_ok lo hi 4000 ltac:(lra) ltac:(lra) ltac:(lra) a fa b fb Fa Fb Ffa FFb Ba Bb Bfa Mb Sg Gap') as (Fc & Ec & _).
      destruct (nxt_between lo hi 4000 Hlo Hhi ltac:(lra) a fa b fb Fa Fb Ffa FFb Ba Bb Bfa Mb Sg Gap' W) as [B1 B2]. fold c in Fc, Ec, B1, B2.
      split; [exact Fc|]. split; [destruct (Rle_dec (ext a) (ext b)); [specialize (B1 ltac:(lra))|specialize (B2 ltac:(lra))]; lra|].
      split; [destruct Ho as [E|E]; rewrite E in *; [specialize (B2 ltac:(lra))|specialize (B1 ltac:(lra))]; lra|].
      set (x := - (o * ext fa)) in *. set (y := o * ext fb) in *. pose proof gmin_pos.
      assert (CE : o * (r - cst a fa b fb) = (D a * y + D b * x) / (x + y)).
      { unfold cst. assert (NH : ext fb - ext fa = o * (x + y)) by (unfold x, y; destruct Ho as [-> | ->]; ring). assert (NX : ext fa = - o * x) by (unfold x; destruct Ho as [-> | ->]; ring).
        rewrite NH, NX. destruct Ho as [-> | ->]; field; lra. }
      replace (D c * (x + y) - (D a * y + D b * x)) with ((o * (cst a fa b fb - ext c)) * (x + y)).
      2: { replace (D a * y + D b * x) with (o * (r - cst a fa b fb) * (x + y)) by (rewrite CE; field; lra). ring. }
      rewrite Rabs_mult, (Rabs_pos_eq (x + y)) by lra. apply Rmult_le_compat_r; [lra|]. rewrite Rabs_mult, Rabs_minus_sym. destruct Ho as [-> | ->]; [rewrite Rabs_R1|replace (-1) with (- (1)) by ring; rewrite Rabs_Ropp, Rabs_R1]; lra.
    Qed.

    (** [b] is close to the root and its value is small compared with that kept for [a] *)
    Lemma near_b n : forall a fa b fb, fin a -> fin b -> lo <= ext a <= hi -> lo <= ext b <= hi -> fin fa -> fb = F b -> Rabs (ext fa) <= 4000 ->
      o * ext fa < 0 -> 0 <= o * ext fb -> (o * ext fb = 0 -> gmin <= - (o * ext fa)) -> - (o * ext fa) <= gam * (19 / 10) ^ n ->
      D a <= D b -> D b <= Zn -> o * ext fb * (D b - D a) <= kap * - (o * ext fa) -> halts a fa b fb.
    Proof.
      pose proof gmin_pos as GP. induction n as [|n IH]; intros a fa b fb Fa Fb Ba Bb Ffa Eb Bfa Sa Sb Z0 An O Zb K.
      all: destruct (side b Fb Bb) as (_ & Gb & Pb & Nb); rewrite <- Eb in Gb, Pb, Nb.
      all: assert (Gb' : o * ext fb = 0 \/ gam <= o * ext fb) by (rewrite Rabs_pos_eq in Gb by exact Sb; exact Gb); clear Gb.
      all: destruct (Rle_dec (D b - D a) (9 / 10 * ext tol)) as [W|W]; [apply halts_stop; try assumption; rewrite (D_diff b a), Rabs_pos_eq by lra; lra|apply Rnot_le_lt in W].
      all: set (x := - (o * ext fa)) in *; set (y := o * ext fb) in *; set (w := D b - D a) in *; assert (X0 : 0 < x) by (unfold x; lra).
      all: assert (Gap : gmin <= x + y) by (destruct Gb' as [E|E]; [specialize (Z0 E); lra|lra]).
      all: destruct (step_facts a fa b fb Fa Fb Ba Bb Ffa Eb Bfa ltac:(lra) Sb Gap O) as (Fc & Bc & Oc & Ec); fold x y in Ec; set (c := nxt a fa b fb) in *.
      all: assert (Mv : (D b - D c) * (x + y) <= w * y + rho * (x + y)) by (apply Rabs_le_inv in Ec; unfold w; lra).
      all: apply halts_step; try assumption; fold c; [intros Q|intros Q].
      1,3: apply halts_stop; try assumption; rewrite (D_diff c b), Rabs_left1 by lra;
        apply Rmult_le_reg_r with (x + y); [lra|]; apply Rle_trans with ((kap + rho) * (x + y)); [|apply Rmult_le_compat_r; [lra|unfold rho; lra]];
        assert (0 <= kap * y) by (apply Rmult_le_pos; lra); lra.
      - (* n = 0 *) exfalso. assert (Y : gam <= y) by (destruct Gb' as [E|E]; [exfalso; assert (ext fb = 0) by (unfold y in E; destruct Ho as [-> | ->]; lra); rewrite H in Q; lra|exact E]).
        simpl in An. assert (gam * (9 / 10 * ext tol) <= y * w) by (apply Rmult_le_compat; lra). assert (kap * x <= kap * gam) by (apply Rmult_le_compat_l; lra).
        assert (0 < gam * ext tol) by (apply Rmult_lt_0_compat; lra). lra.
      - assert (Y : gam <= y) by (destruct Gb' as [E|E]; [exfalso; assert (ext fb = 0) by (unfold y in E; destruct Ho as [-> | ->]; lra); rewrite H in Q; lra|exact E]).
        assert (XY : y <= 3 / 10 * x). { apply Rmult_le_reg_r with (9 / 10 * ext tol); [lra|]. assert (y * (9 / 10 * ext tol) <= y * w) by (apply Rmult_le_compat_l; lra). assert (0 <= x * ext tol) by (apply Rmult_le_pos; lra). lra. }
        destruct (half_rel fa Ffa) as [Fh Eh]; [destruct Ho as [E|E]; unfold x, y in *; rewrite E in *; [rewrite Rabs_left1 by lra; lra|rewrite Rabs_pos_eq by lra; lra]|].
        set (h := Bdiv mode_NE fa (b64_of_Z 2)) in *.
        assert (Hx : 49 / 100 * x <= - (o * ext h) <= 51 / 100 * x).
        { assert (Rabs (ext fa) = x) by (unfold x in *; destruct Ho as [E|E]; rewrite E in *; [rewrite Rabs_left1 by lra; ring|rewrite Rabs_pos_eq by lra; ring]).
          rewrite H in Eh. apply Rabs_le_inv in Eh. unfold x in *. destruct Ho as [E|E]; rewrite E in *; lra. }
        assert (Yc : 0 < o * ext (F c)). { replace (ext (F c) * ext fb) with ((o * ext (F c)) * y) in Q by (unfold y; destruct Ho as [-> | ->]; ring). nra. }
        destruct (side c Fc Bc) as (_ & _ & Pc & Nc).
        set (nu := eta / ms). assert (En : eta = ms * nu) by (unfold nu; field; lra). assert (N0 : 0 <= nu <= 2 / 10 ^ 14) by (split; apply Rmult_le_reg_l with ms; lra).
        assert (Dc : - nu <= D c). { destruct (Rle_dec 0 (D c)); [lra|]. specialize (Nc ltac:(lra)). apply Rmult_le_reg_l with ms; [exact Hms|]. lra. }
        assert (Db : - nu <= D b) by lra.
        assert (BY : w * y <= (D b + nu + rho) * (13 / 10) * x).
        { apply Rle_trans with ((D b + nu + rho) * (x + y)). 2: { rewrite (Rmult_assoc (D b + nu + rho)). apply Rmult_le_compat_l; [unfold rho; lra|lra]. }
          assert (w * y <= (D b - D c) * (x + y) + rho * (x + y)) by (apply Rabs_le_inv in Ec; unfold w; lra).
          assert ((D b - D c) * (x + y) <= (D b + nu) * (x + y)) by (apply Rmult_le_compat_r; lra). lra. }
        assert (GY : o * ext (F c) <= 2 * y \/ (D b <= 4 * nu /\ o * ext (F c) <= 6000 * y)).
        { assert (Fc1 : o * ext (F c) <= 5 / 4 * ms * Rmax 0 (D b) + ms * nu).
          { assert (M1 : 0 <= Rmax 0 (D b) /\ D b <= Rmax 0 (D b)) by (split; [apply Rmax_l|apply Rmax_r]). set (mm := Rmax 0 (D b)) in *.
            assert (0 <= ms * mm) by (apply Rmult_le_pos; lra).
            destruct (Rle_dec 0 (D c)) as [C|C]; [specialize (Pc C)|specialize (Nc ltac:(lra))].
            - assert (Ms * D c <= 5 / 4 * ms * mm) by (apply Rmult_le_compat; lra). lra.
            - assert (ms * D c <= 0) by (apply mpn; lra). lra. }
          destruct (Rle_dec (4 * nu) (D b)) as [C|C].
          - left. specialize (Pb ltac:(lra)). rewrite Rmax_right in Fc1 by lra. assert (ms * (4 * nu) <= ms * D b) by (apply Rmult_le_compat_l; lra). lra.
          - right. split; [lra|]. assert (Rmax 0 (D b) <= 4 * nu) by (apply Rmax_lub; lra). assert (5 / 4 * ms * Rmax 0 (D b) <= 5 / 4 * ms * (4 * nu)) by (apply Rmult_le_compat_l; lra). lra. }
        apply IH; try assumption; try reflexivity; try lra.
        + apply Rle_trans with (2 := Bfa). apply (half_ok fa Ffa).
        + simpl in An. assert (0 < (19 / 10) ^ n) by (apply pow_lt; lra). assert (- (o * ext h) <= gam * (19 / 10) ^ n); [|assumption]. lra.
        + apply Rle_trans with (o * ext (F c) * w); [apply Rmult_le_compat_l; unfold w; lra|].
          apply Rle_trans with (kap * (49 / 100 * x)); [|apply Rmult_le_compat_l; lra].
          assert (w0 : 0 <= w) by lra. assert (xt : 0 <= x * ext tol) by (apply Rmult_le_pos; lra).
          assert (xr : x * rho <= x * (ext tol / 10 ^ 6)) by (apply Rmult_le_compat_l; [lra|unfold rho; lra]). assert (xn : x * nu <= x * (ext tol / 10 ^ 6)) by (apply Rmult_le_compat_l; lra).
          destruct GY as [G|[G1 G2]].
          * apply Rle_trans with (2 * y * w); [apply Rmult_le_compat_r; assumption|]. assert (x * D b <= x * Zn) by (apply Rmult_le_compat_l; lra). lra.
          * apply Rle_trans with (6000 * y * w); [apply Rmult_le_compat_r; assumption|]. assert (x * D b <= x * (4 * nu)) by (apply Rmult_le_compat_l; lra).
            assert (xr' : x * rho <= x * (ext tol * 102 / 10 ^ 9)) by (apply Rmult_le_compat_l; [lra|unfold rho; lra]). assert (xn' : x * nu <= x * (ext tol * 203 / 10 ^ 10)) by (apply Rmult_le_compat_l; lra). lra.
    Qed.
  End Side.

  Lemma big_pow : exists n, 4000 <= gam * (19 / 10) ^ n.
  Proof.
    pose proof gmin_pos. assert (G : 0 < gam) by lra. destruct (Pow_x_infinity (19 / 10) ltac:(rewrite Rabs_pos_eq; lra) (4000 / gam)) as [N HN].
    exists N. specialize (HN N ltac:(lia)). rewrite Rabs_pos_eq in HN by (left; apply pow_lt; lra). apply Rmult_le_reg_r with (/ gam); [apply Rinv_0_lt_compat, G|].
    replace (gam * (19 / 10) ^ N * / gam) with ((19 / 10) ^ N) by (field; lra). unfold Rdiv in HN. lra.
  Qed.
  Lemma o_abs o x : (o = 1 \/ o = -1) -> Rabs (o * x) = Rabs x.
  Proof. intros [-> | ->]; rewrite Rabs_mult; [rewrite Rabs_R1|replace (-1) with (- (1)) by ring; rewrite Rabs_Ropp, Rabs_R1]; ring. Qed.
  Lemma o_sqr o x y : (o = 1 \/ o = -1) -> x * y = (o * x) * (o * y).
  Proof. intros [-> | ->]; ring. Qed.

  Definition kept o (a fa : B64) : Prop := fa = F a \/ (Zn < - (o * (r - ext a)) /\ fin fa /\ 48 / 100 * - (o * ext (F a)) <= - (o * ext fa) <= 52 / 100 * - (o * ext (F a))).

  Definition Pn (B : R) : Prop := forall o a fa b fb, (o = 1 \/ o = -1) -> fin a -> fin b -> lo <= ext a <= hi -> lo <= ext b <= hi -> fb = F b ->
    o * ext (F a) <= 0 -> 0 <= o * ext fb -> kept o a fa ->
    (Zn < - (o * (r - ext a)) -> Zn < o * (r - ext b) -> - (o * (r - ext a)) * (o * (r - ext b)) <= B) -> halts a fa b fb.

  Section One.
    Variables (B o : R) (a fa b fb : B64). Hypothesis Ho : o = 1 \/ o = -1.
    Hypothesis Fa : fin a. Hypothesis Fb : fin b. Hypothesis Ba : lo <= ext a <= hi. Hypothesis Bb : lo <= ext b <= hi. Hypothesis Eb : fb = F b.
    Hypothesis Sa : o * ext (F a) <= 0. Hypothesis Sb : 0 <= o * ext fb. Hypothesis Kp : kept o a fa.
    Notation da := (o * (r - ext a)). Notation db := (o * (r - ext b)).
    Hypothesis W : 9 / 10 * ext tol < db - da.
    Lemma kept_facts : fin fa /\ Rabs (ext fa) <= 4000 /\ o * ext fa <= 0 /\ 48 / 100 * - (o * ext (F a)) <= - (o * ext fa) <= - (o * ext (F a)).
    Proof.
      destruct (HF a Fa Ba) as (FFa & Ma & _). destruct Kp as [K|(_ & K1 & K2)]; [rewrite K; split; [exact FFa|]; split; [exact Ma|]; lra|].
      split; [exact K1|]. split; [|lra]. rewrite <- (o_abs o) by exact Ho. rewrite <- (o_abs o) in Ma by exact Ho. rewrite Rabs_left1 in Ma by exact Sa. apply Rabs_le. lra.
    Qed.
    Definition nu : R := eta / ms.
    Lemma nu_facts : eta = ms * nu /\ 0 <= nu <= 2 / 10 ^ 14.
    Proof. assert (En : eta = ms * nu) by (unfold nu; field; lra). split; [exact En|]. split; apply Rmult_le_reg_l with ms; lra. Qed.
    (** b is near the root *)
    Lemma case_b : db <= Zn -> halts a fa b fb.
    Proof.
      intros Zb. destruct kept_facts as (Ffa & Bfa & Sfa & Kf). destruct nu_facts as [En N0]. pose proof gmin_pos as GP.
      destruct (side o Ho a Fa Ba) as (_ & Ga & _ & Na). destruct (side o Ho b Fb Bb) as (_ & _ & Pb & Nb). rewrite <- Eb in Pb, Nb. rewrite Rabs_left1 in Ga by exact Sa.
      set (al := - da) in *. assert (EA : da = - al) by (unfold al; ring). rewrite EA in *. clearbody al.
      assert (A8 : 86 / 100 * ext tol <= al) by lra. specialize (Na ltac:(lra)).
      assert (K1 : ms * (10 ^ 6 * nu) <= ms * al) by (apply Rmult_le_compat_l; lra). assert (P0 : 0 < ms * al) by (apply Rmult_lt_0_compat; lra).
      assert (Fa1 : 47 / 100 * (ms * al) <= - (o * ext fa)) by lra.
      destruct big_pow as [q Hq]. apply (near_b o Ho q); try assumption; rewrite ?EA; try lra.
      - assert (- (o * ext fa) <= 4000) by (rewrite <- (Rabs_left1 (o * ext fa)) by exact Sfa; rewrite (o_abs o) by exact Ho; exact Bfa). lra.
      - assert (Fb1 : o * ext fb <= 5 / 4 * ms * Zn + ms * nu).
        { destruct (Rle_dec 0 db) as [C|C]; [specialize (Pb C)|specialize (Nb ltac:(lra))].
          - assert (Ms * db <= 5 / 4 * ms * Zn) by (apply Rmult_le_compat; lra). lra.
          - assert (ms * db <= 0) by (apply mpn; lra). assert (0 <= ms * Zn) by (apply Rmult_le_pos; lra). lra. }
        apply Rle_trans with ((5 / 4 * ms * Zn + ms * nu) * (104 / 100 * al)); [apply Rmult_le_compat; lra|].
        assert (K2 : ms * nu <= ms * (ext tol / 10 ^ 6)) by (apply Rmult_le_compat_l; lra).
        apply Rle_trans with (ms * (ext tol / 20) * (104 / 100 * al)); [apply Rmult_le_compat_r; lra|].
        apply Rle_trans with (kap * (47 / 100 * (ms * al))); [|apply Rmult_le_compat_l; lra].
        assert (0 <= ext tol * (ms * al)) by (apply Rmult_le_pos; lra). lra.
    Qed.
    Hypothesis Zb : Zn < db.
    Lemma fb_far : 999 / 1000 * (ms * db) <= o * ext fb <= 1251 / 1000 * (ms * db) /\ 0 < ms * db /\ gam <= o * ext fb.
    Proof.
      destruct nu_facts as [En N0]. destruct (side o Ho b Fb Bb) as (_ & Gb & Pb & _). rewrite <- Eb in Gb, Pb. rewrite Rabs_pos_eq in Gb by exact Sb. specialize (Pb ltac:(lra)).
      assert (K1 : ms * (10 ^ 6 * nu) <= ms * db) by (apply Rmult_le_compat_l; lra). assert (P0 : 0 < ms * db) by (apply Rmult_lt_0_compat; lra).
      assert (Ms * db <= 5 / 4 * ms * db) by (apply Rmult_le_compat_r; lra). split; [lra|]. split; [exact P0|]. destruct Gb; lra.
    Qed.
    (** a is near the root *)
    Lemma case_a : - da <= Zn -> halts a fa b fb.
    Proof.
      intros Za. destruct kept_facts as (Ffa & Bfa & Sfa & Kf). destruct nu_facts as [En N0]. pose proof gmin_pos as GP. destruct fb_far as (Fb1 & P0 & Gb).
      destruct (side o Ho a Fa Ba) as (_ & _ & Pa & Na).
      assert (Da : da <= nu) by (destruct (Rle_dec da 0); [lra|]; specialize (Pa ltac:(lra)); apply Rmult_le_reg_l with ms; lra).
      set (x := - (o * ext fa)) in *. set (y := o * ext fb) in *.
      assert (X0 : 0 <= x <= 126 / 100 * (ms * Zn)).
      { split; [unfold x; lra|]. assert (KZ : ms * (10 ^ 6 * nu) <= ms * Zn) by (apply Rmult_le_compat_l; lra). assert (0 <= ms * Zn) by (apply Rmult_le_pos; lra).
        destruct (Rle_dec da 0) as [C|C]; [specialize (Na C)|specialize (Pa ltac:(lra))].
        - assert (Ms * - da <= 5 / 4 * ms * Zn) by (apply Rmult_le_compat; lra). lra.
        - assert (0 <= ms * da) by (apply Rmult_le_pos; lra). lra. }
      assert (DB : 86 / 100 * ext tol <= db) by lra.
      assert (XY : x * 20 <= y). { assert (ms * (86 / 100 * ext tol) <= ms * db) by (apply Rmult_le_compat_l; lra). lra. }
      destruct (step_facts o Ho a fa b fb Fa Fb Ba Bb Ffa Eb Bfa Sfa Sb ltac:(fold x y; lra) ltac:(lra)) as (Fc & Bc & Oc & Ec). fold x y in Ec. set (c := nxt a fa b fb) in *.
      set (dc := o * (r - ext c)) in *.
      assert (Dc : dc <= 15 / 10 * Zn).
      { apply Rmult_le_reg_r with (x + y); [lra|]. apply Rabs_le_inv in Ec.
        assert (E1 : da * y <= nu * y) by (apply Rmult_le_compat_r; lra).
        assert (E2 : db * x <= db * (126 / 100 * (ms * Zn))) by (apply Rmult_le_compat_l; lra).
        assert (E3 : 0 <= Zn * y) by (apply Rmult_le_pos; lra). assert (E4 : Zn * (999 / 1000 * (ms * db)) <= Zn * y) by (apply Rmult_le_compat_l; lra).
        assert (E5 : rho * (x + y) <= Zn / 10 ^ 3 * (x + y)) by (apply Rmult_le_compat_r; [lra|unfold rho; lra]). assert (E6 : nu * y <= Zn / 10 ^ 3 * y) by (apply Rmult_le_compat_r; lra).
        assert (0 <= Zn * x) by (apply Rmult_le_pos; lra). lra. }
      apply halts_step; try assumption; fold c; intros Q.
      - (* crossing: c is near the root and b far *)
        rewrite (o_sqr o) in Q by exact Ho. fold y in Q. assert (Sc : o * ext (F c) <= 0) by (apply (mul_np _ y); [lra|lra]).
        assert (Ho' : - o = 1 \/ - o = -1) by (destruct Ho as [-> | ->]; [right|left]; ring).
        destruct (side o Ho c Fc Bc) as (_ & _ & Pc & Nc). fold dc in Pc, Nc.
        assert (AC : - (o * ext (F c)) <= 2 * (ms * Zn)).
        { assert (KZ : ms * (10 ^ 6 * nu) <= ms * Zn) by (apply Rmult_le_compat_l; lra). assert (0 <= ms * Zn) by (apply Rmult_le_pos; lra).
          destruct (Rle_dec dc 0) as [C|C]; [specialize (Nc C)|specialize (Pc ltac:(lra))].
          - assert (Ms * - dc <= 5 / 4 * ms * Zn) by (apply Rmult_le_compat; lra). lra.
          - assert (0 <= ms * dc) by (apply Rmult_le_pos; lra). lra. }
        destruct (HF b Fb Bb) as (FFb & Mb & _). rewrite <- Eb in FFb, Mb.
        destruct big_pow as [q Hq]. apply (near_b (- o) Ho' q); try assumption; try reflexivity; rewrite ?Ropp_mult_distr_l_reverse; fold y dc; try lra.
        + rewrite Ropp_involutive. unfold y. rewrite <- (Rabs_pos_eq (o * ext fb)) by exact Sb. rewrite (o_abs o) by exact Ho. lra.
        + rewrite Ropp_involutive. replace (- (o * ext (F c) * (- dc - - db))) with (- (o * ext (F c)) * (db - dc)) by ring.
          apply Rle_trans with (2 * (ms * Zn) * (12 / 10 * db)); [apply Rmult_le_compat; lra|].
          apply Rle_trans with (kap * (999 / 1000 * (ms * db))); [|apply Rmult_le_compat_l; lra]. assert (0 <= ext tol * (ms * db)) by (apply Rmult_le_pos; lra). lra.
      - apply halts_stop; try assumption. rewrite (D_diff o Ho c a). fold dc. apply Rabs_le. lra.
    Qed.
    Hypothesis Za : Zn < - da.
    Lemma fa_far : 999 / 1000 * (ms * - da) <= - (o * ext (F a)) <= 1251 / 1000 * (ms * - da) /\ 0 < ms * - da /\ gam <= - (o * ext (F a)).
    Proof.
      destruct nu_facts as [En N0]. destruct (side o Ho a Fa Ba) as (_ & Ga & _ & Na). rewrite Rabs_left1 in Ga by exact Sa. specialize (Na ltac:(lra)).
      assert (K1 : ms * (10 ^ 6 * nu) <= ms * - da) by (apply Rmult_le_compat_l; lra). assert (P0 : 0 < ms * - da) by (apply Rmult_lt_0_compat; lra).
      assert (Ms * - da <= 5 / 4 * ms * - da) by (apply Rmult_le_compat_r; lra). split; [lra|]. split; [exact P0|]. destruct Ga; lra.
    Qed.
    (** both are far from the root *)
    Variable B' : R. Hypothesis HB : - da * db <= B. Hypothesis HB' : B * (4 / 5) <= B'. Hypothesis IH : Pn B'.
    Lemma case_far : halts a fa b fb.
    Proof.
      destruct kept_facts as (Ffa & Bfa & Sfa & Kf). destruct nu_facts as [En N0]. pose proof gmin_pos as GP. destruct fb_far as (Fb1 & Q0 & Gb). destruct fa_far as (Fa1 & P0 & Ga).
      assert (MZ : ms * (10 ^ 6 * nu) <= ms * Zn) by (apply Rmult_le_compat_l; lra).
      set (x := - (o * ext fa)) in *. set (y := o * ext fb) in *.
      destruct (step_facts o Ho a fa b fb Fa Fb Ba Bb Ffa Eb Bfa Sfa Sb ltac:(fold x y; lra) ltac:(lra)) as (Fc & Bc & Oc & Ec). fold x y in Ec. set (c := nxt a fa b fb) in *.
      set (dc := o * (r - ext c)) in *. set (al := - da) in *. assert (EA : da = - al) by (unfold al; ring). rewrite EA in *. set (be := db) in *.
      destruct (side o Ho c Fc Bc) as (_ & _ & Pc & Nc). fold dc in Pc, Nc.
      assert (Ho' : - o = 1 \/ - o = -1) by (destruct Ho as [-> | ->]; [right|left]; ring).
      assert (XY : 0 < x + y) by lra. apply Rabs_le_inv in Ec.
      assert (Rr : rho * (x + y) <= Zn / 10 ^ 4 * (x + y)) by (apply Rmult_le_compat_r; [lra|unfold rho; lra]).
      assert (ab : 0 < al * be) by (apply Rmult_lt_0_compat; lra). assert (m2 : 0 < ms * (al * be)) by (apply Rmult_lt_0_compat; lra).
      assert (Zy : Zn * y <= al * y) by (apply Rmult_le_compat_r; lra). assert (Zx : Zn * x <= be * x) by (apply Rmult_le_compat_r; lra).
      assert (Y1 : al * (999 / 1000 * (ms * be)) <= al * y <= al * (1251 / 1000 * (ms * be))) by (split; apply Rmult_le_compat_l; lra).
      (* in both cases c stays within 0.76 of a, and on the far side it never gets past a fraction of b *)
      assert (X1 : be * (479 / 1000 * (ms * al)) <= be * x <= be * (1251 / 1000 * (ms * al))) by (split; apply Rmult_le_compat_l; lra).
      apply halts_step; try assumption; fold c; intros Q; rewrite (o_sqr o) in Q by exact Ho; fold y in Q.
      - (* crossing *)
        assert (Sc : o * ext (F c) <= 0) by (apply (mul_np _ y); [lra|lra]).
        apply (IH (- o)); try assumption; try reflexivity; rewrite ?Ropp_mult_distr_l_reverse, <- ?Eb; fold y dc be; try lra.
        + left. exact Eb.
        + intros _ _. match goal with |- ?l <= _ => replace l with (be * - dc) by ring end. apply Rle_trans with (2 := HB'). apply Rle_trans with (al * be * (4 / 5)); [|apply Rmult_le_compat_r; lra].
          replace (al * be * (4 / 5)) with (be * (4 / 5 * al)) by ring. apply Rmult_le_compat_l; [lra|].
          apply Rmult_le_reg_r with (x + y); [exact XY|]. assert (0 <= al * x) by (apply Rmult_le_pos; lra). assert (0 <= Zn * x) by (apply Rmult_le_pos; lra). assert (Zn * x <= al * x) by (apply Rmult_le_compat_r; lra). lra.
      - (* staying on the side of b: only when the full value of a was kept *)
        assert (Yc : 0 < o * ext (F c)) by (apply (mul_pp _ y); [lra|lra]). assert (Cn : - nu <= dc) by (destruct (Rle_dec 0 dc); [lra|]; specialize (Nc ltac:(lra)); apply Rmult_le_reg_l with ms; lra).
        destruct Kp as [K|(_ & _ & K2)].
        + assert (Ex : x = - (o * ext (F a))) by (unfold x; rewrite K; reflexivity). rewrite <- Ex in *.
          destruct (half_rel fa Ffa) as [Fh Eh]; [rewrite <- (o_abs o) by exact Ho; rewrite Rabs_left1 by exact Sfa; fold x; lra|]. set (h := Bdiv mode_NE fa (b64_of_Z 2)) in *.
          apply (IH o); try assumption; try reflexivity; fold dc be; try lra.
          * right. rewrite EA. split; [lra|]. split; [exact Fh|]. assert (HA : Rabs (ext fa) = x) by (rewrite <- (o_abs o) by exact Ho; apply Rabs_left1; exact Sfa).
            rewrite <- K. fold x. rewrite HA in Eh. apply Rabs_le_inv in Eh. unfold x in *. destruct Ho as [E|E]; rewrite E in *; lra.
          * intros _ _. rewrite EA. apply Rle_trans with (2 := HB'). apply Rle_trans with (al * be * (4 / 5)); [|apply Rmult_le_compat_r; lra].
            replace (- - al * dc) with (al * dc) by ring. rewrite (Rmult_assoc al). apply Rmult_le_compat_l; [lra|].
            apply Rmult_le_reg_r with (x + y); [exact XY|]. assert (0 <= be * y) by (apply Rmult_le_pos; lra). assert (Zn * y <= be * y) by (apply Rmult_le_compat_r; lra). lra.
        + exfalso. fold x in K2. assert (X2 : be * x <= be * (52 / 100 * (1251 / 1000 * (ms * al)))) by (apply Rmult_le_compat_l; lra).
          assert (Cn2 : - nu * (x + y) <= dc * (x + y)) by (apply Rmult_le_compat_r; lra).
          assert (nu * (x + y) <= Zn / 10 ^ 6 * (x + y)) by (apply Rmult_le_compat_r; lra). lra.
    Qed.
  End One.

  Lemma Pn_gen B B' : (B <= Zn * Zn \/ (B * (4 / 5) <= B' /\ Pn B')) -> Pn B.
  Proof.
    intros HB o a fa b fb Ho Fa Fb Ba Bb Eb Sa Sb Kp Pr. destruct nu_facts as [En N0].
    destruct (Rle_dec (o * (r - ext b) - o * (r - ext a)) (9 / 10 * ext tol)) as [W|W].
    - apply halts_stop; try assumption. rewrite (D_diff o Ho b a).
      destruct (side o Ho a Fa Ba) as (_ & _ & Pa & _). destruct (side o Ho b Fb Bb) as (_ & _ & _ & Nb). rewrite <- Eb in Nb.
      set (da := o * (r - ext a)) in *. set (db := o * (r - ext b)) in *.
      assert (Da : da <= nu) by (destruct (Rle_dec da 0); [lra|]; specialize (Pa ltac:(lra)); apply Rmult_le_reg_l with ms; lra).
      assert (Db : - nu <= db) by (destruct (Rle_dec 0 db); [lra|]; specialize (Nb ltac:(lra)); apply Rmult_le_reg_l with ms; lra).
      apply Rabs_le. lra.
    - apply Rnot_le_lt in W. destruct (Rle_dec (o * (r - ext b)) Zn) as [Zb|Zb]; [apply (case_b o a fa b fb); assumption|apply Rnot_le_lt in Zb].
      destruct (Rle_dec (- (o * (r - ext a))) Zn) as [Za|Za]; [apply (case_a o a fa b fb); assumption|apply Rnot_le_lt in Za].
      specialize (Pr Za Zb). destruct HB as [HB|[HB IH]].
      + exfalso. assert (Zn * Zn < - (o * (r - ext a)) * (o * (r - ext b))) by (apply Rmult_gt_0_lt_compat; lra). lra.
      + apply (case_far B o a fa b fb) with (B' := B'); assumption.
  Qed.
  Lemma Pn_all n : Pn (Zn * Zn * (5 / 4) ^ n).
  Proof.
    induction n as [|n IH]; [apply (Pn_gen _ 0); left; simpl; lra|]. apply (Pn_gen _ (Zn * Zn * (5 / 4) ^ n)). right. split; [simpl; lra|exact IH].
  Qed.
  (** from any bracket with the values of its ends *)
  Theorem ill_halts a b : fin a -> fin b -> lo <= ext a <= hi -> lo <= ext b <= hi -> lo <= r <= hi -> ext (F a) <= 0 -> 0 <= ext (F b) -> halts a (F a) b (F b).
  Proof.
    intros Fa Fb Ba Bb Br Sa Sb. destruct (Pow_x_infinity (5 / 4) ltac:(rewrite Rabs_pos_eq; lra) (/ (Zn * Zn))) as [N HN].
    specialize (HN N ltac:(lia)). rewrite Rabs_pos_eq in HN by (left; apply pow_lt; lra). assert (ZZ : 0 < Zn * Zn) by (apply Rmult_lt_0_compat; lra).
    apply (Pn_all N 1 a (F a) b (F b) (or_introl eq_refl) Fa Fb Ba Bb eq_refl ltac:(lra) ltac:(lra) (or_introl eq_refl)).
    intros _ _. apply Rle_trans with 1.
    - replace 1 with (1 * 1) by ring. apply Rle_trans with (Rabs (- (1 * (r - ext a))) * Rabs (1 * (r - ext b))); [rewrite <- Rabs_mult, Rmult_1_l; apply Rle_abs|].
      apply Rmult_le_compat; try apply Rabs_pos; apply Rabs_le; lra.
    - apply Rmult_le_reg_r with (/ (Zn * Zn)); [apply Rinv_0_lt_compat, ZZ|]. replace (Zn * Zn * (5 / 4) ^ N * / (Zn * Zn)) with ((5 / 4) ^ N) by (field; lra). lra.
  Qed.
End Term.
