(** Accuracy in double precision: TrueSkill drawn matches, expected scores and match quality of teams. *)
From Coq Require Import ZArith NArith List Bool Reals Lra Lia Psatz.
From Flocq Require Import Core.Core IEEE754.BinarySingleNaN.
From Verif Require Import Arith XR B64 ModelLib ModelTS Spec SpecTS SpecNormal SpecTSN SpecB64 SpecAcc SpecAcc6 Tac MathB64 ProofB64 ProofB64b ProofB64c MathB64b ProofB64f MathAcc MathAcc2 MathAccR MathTS MathTSW MathTSInv MathTSStart MathTSAcc MathTSDraw MathTSNorm MathTSNorm2 MathTSLip MathTSLip2 ProofBoost2 ProofTS ProofTSAcc ProofTSDraw ProofTSNorm ProofAcc ProofAcc2 ProofAcc3 ProofAccTS ProofAccTS2 ProofAccTS3 ProofAccTS4 MathRel MathAccWL MathAccTST ProofAccTST.
Import Spec ListNotations.
Local Open Scope R_scope.
#[local] Opaque Bplus Bminus Bmult Bdiv Bfma Bsqrt Bopp Babs b64_max b64_min b64_of_Z b64_lit.


(** a drawn match: one team *)
Lemma team_draw L n M (t t' : list (TrueSkillRating B64)) dp beta tau c v w rm V W sg vN wN : tst_size n M -> tst_usual n M t -> num_in 1 100 beta -> num_in 0 100 tau -> B2R tau <= B2R beta ->
  forall C N, 2 <= N -> C ^ 2 = N * B2R beta ^ 2 + tst_var t + tst_var t' -> 0 <= tst_var t' -> C ^ 2 <= N * 1372.14 * B2R beta ^ 2 ->
  ap rm sg 0 -> sg = 1 \/ sg = -1 -> ap c C (1 / 10 ^ 12 * C) -> 1.41 <= C <= 10 ^ 6 -> ap v V (12 / 10 ^ 10) -> ap w W (5 / 10 ^ 8) -> Rabs V <= 11.4 -> - 0.0002 <= W <= 1.0002 ->
  Rabs (V - vN) <= 0.0000186 * Rabs vN + 40000 * (1 / 10 ^ 11) -> Rabs (W - wN) <= 0.0002 + 920000 * (1 / 10 ^ 11) ->
  tst_close (B2R tau) C (sg * vN) wN 0.0000187 (5 / 10 ^ 7) 0.00021 t (ts_update_team (A := B64A L) (mkTSConfig dp beta tau) v w c rm t).
Proof.
  intros HZ HU Hb Ht TB C N HN HC V' CU Arm Hs Ac BC Av Aw BV BW HV HW. unfold ts_update_team. apply close_map. intros p HI S. cbn [ts_rating ts_uncertainty ts_dynamics_factor].
  destruct (var_player n M t (tst_var t) (tst_var t') N beta tau p HZ HU HI HN Hb Ht TB (Rle_refl _) V') as (Nr & Nu & S0 & HS & HS'). fold S in S0, HS, HS'. rewrite <- HC in HS, HS'.
  assert (AS : Rabs sg = 1) by (destruct Hs as [-> | ->]; [apply Rabs_R1|rewrite Rabs_left; lra]). destruct (num_ap _ _ _ Hb) as [_ Bb].
  assert (QW : 0.0001 <= 1 - W * S / C ^ 2).
  { assert (C0 : 0 < C ^ 2) by lra. assert (b2 : 1 <= B2R beta ^ 2) by nra.
    assert (Nb : N * B2R beta ^ 2 <= 2 * ((N - 1) * B2R beta ^ 2)) by (rewrite <- Rmult_assoc; apply Rmult_le_compat_r; lra). set (y := (N - 1) * B2R beta ^ 2) in *. set (z := N * B2R beta ^ 2) in *. replace (N * 1372.14 * B2R beta ^ 2) with (1372.14 * z) in CU by (unfold z; ring).
    assert (DM : S / C ^ 2 <= 1 - 1 / 2745). { apply Rmult_le_reg_r with (C ^ 2); [lra|]. unfold Rdiv at 1. rewrite Rmult_assoc, Rinv_l by lra. lra. }
    assert (DM0 : 0 < S / C ^ 2) by (apply Rdiv_lt_0_compat; lra). replace (W * S / C ^ 2) with (W * (S / C ^ 2)) by (unfold Rdiv; ring).
    assert (W * (S / C ^ 2) <= 1.0002 * (S / C ^ 2)) by (apply Rmult_le_compat_r; lra). lra. }
  destruct (side_ts L (ts_rating p) (ts_uncertainty p) v c w tau rm V C W sg vN wN (12 / 10 ^ 10) (5 / 10 ^ 8) _ _ Nr Nu Ht Arm AS Ac BC Av Aw ltac:(lra) ltac:(lra) HS ltac:(lra) ltac:(fold S; lra) ltac:(fold S; lra) HV HW) as (Y1 & Y2 & Y3). fold S in Y1, Y3.
  assert (K0 : 0 < S / C) by (apply Rdiv_lt_0_compat; lra). rewrite Rabs_mult, AS. pose proof (Rabs_pos vN) as P0.
  split; [|split; [exact Y2|]].
  - replace (S / C * (sg * vN)) with (sg * (S / C * vN)) by ring. destruct Y1 as [F Y1]. split; [exact F|]. eapply Rle_trans; [exact Y1|]. apply Rplus_le_compat; [apply Rmult_le_compat_l; lra|lra].
  - eapply Rle_trans; [exact Y3|]. apply Rplus_le_compat_r. apply Rmult_le_compat_r; [|lra]. left. apply Rdiv_lt_0_compat; [apply pow_lt; auto|lra].
Qed.
Lemma C119_draw_proof : forall L (n : nat) M (t1 t2 : list (TrueSkillRating B64)) (dp beta tau : B64), exp_accurate L -> lnp_accurate L ->
  tst_size n M -> tst_usual n M t1 -> tst_usual n M t2 ->
  num_in 0.01 0.99 dp -> num_in 1 100 beta -> num_in 0 100 tau -> B2R tau <= B2R beta ->
  let N := INR (length t1 + length t2) in let b := B2R beta in let c := tst_c N b t1 t2 in let t := (tst_sum t1 - tst_sum t2) / c in
  Rabs (tst_sum t1 - tst_sum t2) <= 10 * c -> tst_var t1 + tst_var t2 <= N * (1400 * B2R dp ^ 2 - 1) * b ^ 2 ->
  let g := trueskill_two_teams (A := B64A L) t1 t2 DRAW (mkTSConfig dp beta tau) in
  exists x, 0 <= x /\ Rabs (Ncdf x - Ncdf (- x) - B2R dp) <= 0.0000121 /\
    let e := x * sqrt N * b in let v := vdrawN t (e / c) in let w := wdrawN t (e / c) in
    tst_close (B2R tau) c v w 0.0000187 (5 / 10 ^ 7) 0.00021 t1 (fst g) /\ tst_close (B2R tau) c (- v) w 0.0000187 (5 / 10 ^ 7) 0.00021 t2 (snd g).
Proof.
  intros L n M t1 t2 dp beta tau HE HL HZ U1 U2 Hd Hb Ht TB N b c t HD HM g.
  destruct (teams_common L n M t1 t2 beta HZ U1 U2 Hb) as (BN & An & Ac & _ & _ & BC & C2 & SC & AD & _ & V1 & V2). fold N in BN, An, Ac, BC, C2, SC. fold b in Ac, BC, C2, SC. fold c in Ac, BC, C2, SC.
  destruct (margin_x L dp beta _ N HE HL Hd Hb An ltac:(lra)) as (x & Am & X0 & XU & X1). fold b in Am. set (mg := ts_draw_margin (A := B64A L) dp beta _) in *. set (cc := ctB L beta t1 t2) in *.
  exists x. split; [lra|]. split; [exact X1|]. intros e v w. fold e in Am. destruct (num_ap _ _ _ Hb) as [_ Bb]. fold b in Bb. destruct (num_ap _ _ _ Hd) as [_ Bd].
  assert (SN : 0 < sqrt N * b) by (apply Rmult_lt_0_compat; [apply sqrt_lt_R0|]; lra).
  assert (IC : 0 < / c <= 1) by (split; [apply Rinv_0_lt_compat; lra|rewrite <- Rinv_1; apply Rinv_le_contravar; lra]). assert (CC : c * / c = 1) by (apply Rinv_r; lra).
  assert (E30 : 1 / 30 <= unit_margin (B2R dp) * sqrt N * b / c). { unfold c, tst_c. rewrite Rplus_assoc. apply margin_30; [lra|lra|lra|]. split; [lra|exact HM]. }
  assert (SB : 0 < sqrt N * b / c <= 1). { split; [apply Rdiv_lt_0_compat; lra|]. rewrite <- CC. apply Rmult_le_compat_r; lra. }
  assert (EX : 1 / 30.4 <= e / c <= 2.73).
  { split.
    - unfold e. replace (x * sqrt N * b / c) with (unit_margin (B2R dp) * sqrt N * b / c + (x - unit_margin (B2R dp)) * (sqrt N * b / c)) by (unfold Rdiv; ring).
      assert (Q : - (2 / 10 ^ 10) <= (x - unit_margin (B2R dp)) * (sqrt N * b / c)). { apply Rabs_le_inv in XU. clear - XU SB. nra. } lra.
    - unfold e, Rdiv. rewrite !Rmult_assoc. rewrite <- (Rmult_assoc (sqrt N)). unfold Rdiv in SB. apply Rle_trans with (2.73 * 1); [apply Rmult_le_compat; lra|lra]. }
  assert (BT : Rabs t <= 10). { unfold t, Rdiv. rewrite Rabs_mult, (Rabs_pos_eq (/ c)) by lra. apply Rle_trans with (10 * c * / c); [apply Rmult_le_compat_r; lra|rewrite Rmult_assoc, CC; lra]. }
  assert (U0 : 0 < u0 <= 12 / 10 ^ 17) by ulra. assert (AC : Rabs c = c) by (apply Rabs_pos_eq; lra).
  assert (I99 : 0 < / (0.99 * c)) by (apply Rinv_0_lt_compat; lra). assert (QC : forall k, k * c / (0.99 * c) = k / 0.99) by (intros; field; lra).
  assert (Q1 : (12 / 10 ^ 12 + 10 * (66 / 10 ^ 16 * c)) / (0.99 * c) <= 87 / 10 ^ 13 / 0.99). { rewrite <- QC. unfold Rdiv at 1 3. apply Rmult_le_compat_r; lra. }
  assert (Q2 : (0 + 2.73 * (66 / 10 ^ 16 * c)) / (0.99 * c) <= 1 / 10 ^ 13 / 0.99). { rewrite <- QC. unfold Rdiv at 1 3. apply Rmult_le_compat_r; lra. }
  pose proof (ap_div _ _ _ _ _ _ (0.99 * c) 10 11 AD Ac ltac:(lra) ltac:(rewrite AC; lra) BT ltac:(lra) ltac:(okb)) as At. apply (ap_weak _ _ _ (1 / 10 ^ 11)) in At; [|lra]. fold t in At.
  pose proof (ap_div _ _ _ _ _ _ (0.99 * c) 2.73 3 Am Ac ltac:(lra) ltac:(rewrite AC; lra) ltac:(rewrite Rabs_pos_eq; lra) ltac:(lra) ltac:(okb)) as Ae. apply (ap_weak _ _ _ (1 / 10 ^ 11)) in Ae; [|lra].
  destruct (draw_vw L _ _ t (e / c) (1 / 10 ^ 11) HE At Ae ltac:(lra) BT ltac:(lra)) as (V & W & Av & Aw & BV & BW & HV & HW). fold v in HV. fold w in HW. rewrite <- fold_vd in Av. rewrite <- fold_wd in Aw.
  apply (ap_weak _ _ _ (1 / 10 ^ 12 * c)) in Ac; [|lra].
  assert (P1 : ap (b64_of_Z 1) 1 0) by (apply ap_Z; vm_compute; discriminate). assert (P2 : ap (b64_of_Z (-1)) (-1) 0) by (apply ap_Z; vm_compute; discriminate).
  assert (C2' : c ^ 2 = N * b ^ 2 + tst_var t2 + tst_var t1) by lra.
  assert (D2 : B2R dp ^ 2 <= 0.9801). { clear - Bd. nra. } assert (b2 : 1 <= b ^ 2) by (clear - Bb; nra).
  assert (CU : c ^ 2 <= N * 1372.14 * b ^ 2).
  { rewrite C2. apply Rle_trans with (N * b ^ 2 + N * (1400 * B2R dp ^ 2 - 1) * b ^ 2); [lra|]. replace (N * b ^ 2 + N * (1400 * B2R dp ^ 2 - 1) * b ^ 2) with (N * (1400 * B2R dp ^ 2) * b ^ 2) by ring. apply Rmult_le_compat_r; [lra|]. apply Rmult_le_compat_l; lra. }
  pose proof (two_dec_eq L t1 t2 DRAW dp beta tau (proj1 U1) (proj1 U2)) as EG. fold cc mg in EG. cbv zeta in EG. fold g in EG. rewrite EG. clear EG g. cbn [fst snd].
  split.
  - replace v with (1 * v) by ring. exact (team_draw L n M t1 t2 dp beta tau cc _ _ _ V W 1 v w HZ U1 Hb Ht TB c N (proj1 BN) C2 ltac:(lra) CU P1 (or_introl eq_refl) Ac ltac:(lra) Av Aw BV BW HV HW).
  - replace (- v) with (-1 * v) by ring. exact (team_draw L n M t2 t1 dp beta tau cc _ _ _ V W (-1) v w HZ U2 Hb Ht TB c N (proj1 BN) C2' ltac:(lra) CU P2 (or_intror eq_refl) Ac ltac:(lra) Av Aw BV BW HV HW).
Qed.

(** ** Expected scores *)
Lemma win_ap L d cc D C : exp_accurate L -> ap d D (12 / 10 ^ 12) -> ap cc C (66 / 10 ^ 16 * C) -> 1.41 <= C -> Rabs D <= 22 * C ->
  ap (cdfB L (Bdiv mode_NE d cc)) (Ncdf (D / C)) (0.0000104 * Ncdf (D / C)) /\
  ap (Bminus mode_NE (b64_of_Z 1) (cdfB L (Bdiv mode_NE d cc))) (1 - Ncdf (D / C)) (0.0000104 * (1 - Ncdf (D / C)) + 3 / 10 ^ 11) /\ Rabs (D / C) <= 22.
Proof.
  intros HE AD Ac BC HD. assert (U0 : 0 < u0 <= 12 / 10 ^ 17) by ulra.
  assert (IC : 0 < / C) by (apply Rinv_0_lt_compat; lra). assert (CC : C * / C = 1) by (apply Rinv_r; lra). assert (AC : Rabs C = C) by (apply Rabs_pos_eq; lra).
  assert (BT : Rabs (D / C) <= 22). { unfold Rdiv. rewrite Rabs_mult, (Rabs_pos_eq (/ C)) by lra. apply Rle_trans with (22 * C * / C); [apply Rmult_le_compat_r; lra|rewrite Rmult_assoc, CC; lra]. }
  assert (I99 : 0 < / (0.99 * C)) by (apply Rinv_0_lt_compat; lra). assert (QC : forall k, k * C / (0.99 * C) = k / 0.99) by (intros; field; lra).
  assert (Q1 : (12 / 10 ^ 12 + 22 * (66 / 10 ^ 16 * C)) / (0.99 * C) <= 88 / 10 ^ 13 / 0.99). { rewrite <- QC. unfold Rdiv at 1 3. apply Rmult_le_compat_r; lra. }
  pose proof (ap_div _ _ _ _ _ _ (0.99 * C) 22 23 AD Ac ltac:(lra) ltac:(rewrite AC; lra) BT ltac:(lra) ltac:(okb)) as At. apply (ap_weak _ _ _ (1 / 10 ^ 11)) in At; [|lra].
  destruct (cdf_shift L _ _ _ HE At ltac:(lra) BT) as [X1 X2]. pose proof (Ncdf_range (D / C)) as NR. set (p := Ncdf (D / C)) in *.
  split; [apply (ap_weak _ _ _ _ X1); lra|]. split; [apply (ap_weak _ _ _ _ X2); lra|exact BT].
Qed.
Lemma C119_expected_two_proof : forall L (n : nat) M (t1 t2 : list (TrueSkillRating B64)) (dp beta tau : B64), exp_accurate L ->
  tst_size n M -> tst_usual n M t1 -> tst_usual n M t2 -> num_in 1 100 beta ->
  let N := INR (length t1 + length t2) in let b := B2R beta in let c := tst_c N b t1 t2 in let p := tst_p N b t1 t2 in
  Rabs (tst_sum t1 - tst_sum t2) <= 22 * c ->
  let e := ts_expected_score_two_teams (A := B64A L) t1 t2 (mkTSConfig dp beta tau) in
  near (fst e) p (0.0000104 * p) /\ near (snd e) (1 - p) (0.0000104 * (1 - p) + 3 / 10 ^ 11).
Proof.
  intros L n M t1 t2 dp beta tau HE HZ U1 U2 Hb N b c p HD e.
  destruct (teams_common L n M t1 t2 beta HZ U1 U2 Hb) as (BN & An & _ & Ac & _ & BC & C2 & SC & AD & _). fold N in BN, An, Ac, BC, C2, SC. fold b in Ac, BC, C2, SC. fold c in Ac, BC, C2, SC.
  destruct (win_ap L _ _ _ c HE AD Ac ltac:(lra) HD) as (X1 & X2 & _). split; apply ap_near; assumption.
Qed.

(** ** Match quality *)
Lemma quality_ap L d cs nn b N BT D C2 : exp_accurate L -> ap d D (12 / 10 ^ 12) -> rl cs C2 (53 * v0) -> ap nn N 0 -> ap b BT 0 -> 2 <= N <= 2500 -> 1 <= BT <= 100 -> N * BT ^ 2 <= C2 <= 36 * 10 ^ 6 ->
  D ^ 2 <= 484 * C2 -> let q := sqrt (N * BT ^ 2 / C2) * exp (- D ^ 2 / (2 * C2)) in
  ap (Bmult mode_NE (Bsqrt mode_NE (Bdiv mode_NE (Bmult mode_NE nn (Bmult mode_NE b b)) cs)) (l_exp L (Bdiv mode_NE (Bopp (Bmult mode_NE d d)) (Bmult mode_NE (b64_of_Z 2) cs)))) q (1 / 10 ^ 9 * q).
Proof.
  intros HE Ad Rc An Ab BN Bb BC HD q. assert (V0 : 0 < v0 < / 10 ^ 15) by (unfold v0; lra). assert (U0 : 0 < u0 <= 12 / 10 ^ 17) by ulra.
  assert (Q3 : 1 <= BT * BT <= 10000) by nra. assert (Q : 2 <= N * (BT * BT) <= 2500 * 10000) by nra. assert (EQ : N * BT ^ 2 = N * (BT * BT)) by ring. rewrite EQ in *.
  pose proof (rl_exact _ _ Ab ltac:(lra)) as Eb. pose proof (rl_exact _ _ An ltac:(lra)) as En. pose proof (rl_mul _ _ _ _ _ _ v0 Eb Eb ltac:(lra) ltac:(lra) ltac:(lra)) as EB.
  pose proof (rl_mul _ _ _ _ _ _ (2 * v0) En EB ltac:(lra) ltac:(lra) ltac:(lra)) as EN. set (Y := N * (BT * BT)) in *.
  assert (BY : / 10 ^ 8 <= Y / C2 <= 1). { split; apply Rmult_le_reg_r with C2; try lra; unfold Rdiv; rewrite Rmult_assoc, Rinv_l by lra; lra. }
  pose proof (rl_div _ _ _ _ _ _ (60 * v0) EN Rc ltac:(lra) ltac:(lra) ltac:(lra)) as ED.
  assert (BSY : / 10 ^ 4 <= sqrt (Y / C2) <= 1). { split; [rewrite <- (sqrt_pow2 (/ 10 ^ 4)) by lra|rewrite <- sqrt_1]; apply sqrt_le_1_alt; lra. }
  pose proof (rl_sqrt _ _ _ (61 * v0) ED ltac:(lra) ltac:(lra) ltac:(lra)) as ES.
  (* the exponent *)
  assert (SC : 0 < sqrt C2) by (apply sqrt_lt_R0; lra). assert (SS : sqrt C2 * sqrt C2 = C2) by (apply sqrt_sqrt; lra). set (sc := sqrt C2) in *. assert (S1 : 1 <= sc <= 6000) by (split; apply Rsqr_incr_0_var; unfold Rsqr; lra).
  assert (DA : Rabs D <= 22 * sc). { apply Rsqr_incr_0_var; [|lra]. rewrite <- Rsqr_abs. unfold Rsqr. replace (22 * sc * (22 * sc)) with (484 * (sc * sc)) by ring. rewrite SS. replace (D * D) with (D ^ 2) by ring. exact HD. }
  pose proof (Rabs_pos D) as D0.
  assert (DD : 0 <= Rabs D * Rabs D <= 484 * C2). { split; [apply Rmult_le_pos; lra|]. rewrite <- SS. replace (484 * (sc * sc)) with (22 * sc * (22 * sc)) by ring. apply Rmult_le_compat; lra. }
  assert (sC : sc <= C2) by (rewrite <- SS; rewrite <- (Rmult_1_r sc) at 1; apply Rmult_le_compat_l; lra).
  assert (uC : 0 <= u0 * C2 <= 12 / 10 ^ 17 * C2) by (split; [apply Rmult_le_pos; lra|apply Rmult_le_compat_r; lra]).
  pose proof (ap_mul _ _ _ _ _ _ (Rabs D) (Rabs D) (490 * C2) Ad Ad (Rle_refl _) (Rle_refl _) ltac:(lra) ltac:(okb)) as A2. apply (ap_weak _ _ _ (6 / 10 ^ 10 * C2)) in A2; [|lra]. apply ap_opp in A2.
  pose proof (rl_mul _ _ _ _ _ _ (54 * v0) (rl_exact _ _ (ap_Z 2 ltac:(vm_compute; discriminate)) ltac:(lra)) Rc ltac:(lra) ltac:(lra) ltac:(lra)) as [_ [_ R2]].
  set (y := - (D * D) / (2 * C2)). assert (By : -242 <= y <= 0).
  { unfold y. assert (0 <= D * D / (2 * C2) <= 242); [|unfold Rdiv in *; rewrite <- Ropp_mult_distr_l; lra]. assert (DD' : 0 <= D * D <= 484 * C2) by (replace (D * D) with (Rabs D * Rabs D); [exact DD|]; rewrite <- Rabs_mult; apply Rabs_pos_eq; nra).
    split; [unfold Rdiv; apply Rmult_le_pos; [lra|left; apply Rinv_0_lt_compat; lra]|]. apply Rmult_le_reg_r with (2 * C2); [lra|]. unfold Rdiv. rewrite Rmult_assoc, Rinv_l by lra. lra. }
  assert (Q1 : (6 / 10 ^ 10 * C2 + 242 * (54 * v0 * (2 * C2))) / (1.98 * C2) <= 4 / 10 ^ 10). { apply Rmult_le_reg_r with (1.98 * C2); [lra|]. unfold Rdiv at 1. rewrite Rmult_assoc, Rinv_l by lra. unfold v0. lra. }
  pose proof (ap_div _ _ _ _ _ _ (1.98 * C2) 242 243 A2 R2 ltac:(lra) ltac:(rewrite Rabs_pos_eq by lra; unfold v0; lra) ltac:(fold y; apply Rabs_le; lra) ltac:(lra) ltac:(okb)) as A3. fold y in A3. apply (ap_weak _ _ _ (5 / 10 ^ 10)) in A3; [|lra].
  destruct (exp_ap L _ _ _ HE A3 ltac:(apply Rabs_le; lra) ltac:(lra)) as [AE BE]. destruct ES as [P1 [_ AS]]. set (sq := sqrt (Y / C2)) in *. assert (ey : exp y <= 1) by (rewrite <- exp_0; destruct (proj2 By) as [H| ->]; [left; apply exp_increasing; lra|lra]). pose proof (exp_pos y) as ep.
  assert (Eq : q = sq * exp y) by (unfold q, y, sq; rewrite EQ; replace (D ^ 2) with (D * D) by ring; reflexivity). rewrite Eq. set (ex := exp y) in *.
  assert (P : 0 < sq * ex) by (apply Rmult_lt_0_compat; lra). 
  pose proof (ap_mul _ _ _ _ _ _ sq ex (1.01 * (sq * ex)) AS AE ltac:(rewrite Rabs_pos_eq; lra) ltac:(rewrite Rabs_pos_eq; lra)) as H. set (z := sq * ex) in *.
  assert (E1 : sq * ((1.01 * (5 / 10 ^ 10) + 1.1 / 10 ^ 15) * ex) + ex * (61 * v0 * sq) + 61 * v0 * sq * ((1.01 * (5 / 10 ^ 10) + 1.1 / 10 ^ 15) * ex) = ((1.01 * (5 / 10 ^ 10) + 1.1 / 10 ^ 15) + 61 * v0 + 61 * v0 * (1.01 * (5 / 10 ^ 10) + 1.1 / 10 ^ 15)) * z) by (unfold z; ring).
  rewrite E1 in H. assert (E2 : ((1.01 * (5 / 10 ^ 10) + 1.1 / 10 ^ 15) + 61 * v0 + 61 * v0 * (1.01 * (5 / 10 ^ 10) + 1.1 / 10 ^ 15)) * z <= 6 / 10 ^ 10 * z) by (apply Rmult_le_compat_r; [lra|unfold v0; lra]).
  assert (u0z : u0 * (1.01 * z) <= 13 / 10 ^ 17 * z) by (replace (u0 * (1.01 * z)) with (u0 * 1.01 * z) by ring; apply Rmult_le_compat_r; lra).
  assert (Z1 : / 10 ^ 190 <= 1.01 * z <= 10 ^ 190).
  { assert (sq * ex <= 1 * 1) by (apply Rmult_le_compat; lra). assert (/ 10 ^ 4 * / 10 ^ 180 <= z) by (apply Rmult_le_compat; [lra|left; apply Rinv_0_lt_compat, pow_lt; lra|lra|lra]).
    assert (/ 10 ^ 190 <= / 10 ^ 4 * / 10 ^ 180). { rewrite <- Rinv_mult by (apply pow_nonzero; lra). apply Rinv_le_contravar; [apply Rmult_lt_0_compat; apply pow_lt; lra|]. rewrite <- pow_add. apply Rle_pow; [lra|lia]. }
    assert (10 <= 10 ^ 190) by (rewrite <- (pow_1 10) at 1; apply Rle_pow; [lra|lia]). unfold z in *. lra. }
  specialize (H ltac:(lra)). apply (ap_weak _ _ (((1.01 * (5 / 10 ^ 10) + 1.1 / 10 ^ 15) + 61 * v0 + 61 * v0 * (1.01 * (5 / 10 ^ 10) + 1.1 / 10 ^ 15)) * z + u0 * (1.01 * z))); [|lra].
  apply H. assert (10 ^ 190 <= 10 ^ 200) by (apply Rle_pow; [lra|lia]). assert (/ 10 ^ 200 <= / 10 ^ 190) by (apply Rinv_le_contravar; [apply pow_lt; lra|auto]). clear - Z1 H0 H1. lra.
Qed.
Lemma C119_quality_two_proof : forall L (n : nat) M (t1 t2 : list (TrueSkillRating B64)) (dp beta tau : B64), exp_accurate L ->
  tst_size n M -> tst_usual n M t1 -> tst_usual n M t2 -> num_in 1 100 beta ->
  let N := INR (length t1 + length t2) in let b := B2R beta in let c := tst_c N b t1 t2 in
  Rabs (tst_sum t1 - tst_sum t2) <= 22 * c ->
  let q := sqrt (N * b ^ 2 / c ^ 2) * exp (- (tst_sum t1 - tst_sum t2) ^ 2 / (2 * c ^ 2)) in
  near (match_quality_two_teams (A := B64A L) t1 t2 (mkTSConfig dp beta tau)) q (1 / 10 ^ 9 * q).
Proof.
  intros L n M t1 t2 dp beta tau HE HZ U1 U2 Hb N b c HD q.
  destruct (teams_common L n M t1 t2 beta HZ U1 U2 Hb) as (BN & An & _ & _ & Rc & BC & C2 & SC & AD & _ & V1 & V2). fold N in BN, An, Rc, BC, C2, SC. fold b in Rc, BC, C2, SC. fold c in Rc, BC, C2, SC.
  destruct (num_ap _ _ _ Hb) as [Ab Bb]. fold b in Ab, Bb. apply ap_near.
  assert (H2 : (tst_sum t1 - tst_sum t2) ^ 2 <= 484 * c ^ 2). { rewrite <- (pow2_abs (tst_sum t1 - tst_sum t2)). replace (484 * c ^ 2) with ((22 * c) ^ 2) by ring. apply pow_incr. split; [apply Rabs_pos|exact HD]. }
  exact (quality_ap L _ _ _ _ N b _ (c ^ 2) HE AD Rc An Ab ltac:(lra) Bb ltac:(split; [lra|nra]) H2).
Qed.
