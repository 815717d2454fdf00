(** Accuracy in double precision: TrueSkill matches of two teams. *)
From Coq Require Import ZArith NArith List Bool Reals Lra Lia Psatz.
From Flocq Require Import Core.Core IEEE754.BinarySingleNaN.
From Verif Require Import Arith XR B64 ModelLib ModelTS Spec SpecTS SpecNormal SpecTSN SpecB64 SpecAcc SpecAcc6 Tac MathB64 ProofB64 ProofB64b ProofB64c MathB64b ProofB64f MathAcc MathAcc2 MathAccR MathTS MathTSW MathTSInv MathTSStart MathTSAcc MathTSDraw MathTSNorm MathTSNorm2 MathTSLip MathTSLip2 ProofBoost2 ProofTS ProofTSAcc ProofTSDraw ProofTSNorm ProofAcc ProofAcc2 ProofAcc3 ProofAccTS ProofAccTS2 ProofAccTS3 ProofAccTS4 MathRel MathAccWL MathAccTST.
Import Spec ListNotations.
Local Open Scope R_scope.
#[local] Opaque Bplus Bminus Bmult Bdiv Bfma Bsqrt Bopp Babs b64_max b64_min b64_of_Z b64_lit.

Definition ctB (L : Libm) (beta : B64) (t1 t2 : list (TrueSkillRating B64)) : B64 :=
  Bsqrt mode_NE (Bfma mode_NE (ts_total_players (A := B64A L) t1 t2) (Bmult mode_NE beta beta) (Bplus mode_NE (ts_team_uncertainty_sq (A := B64A L) t1) (ts_team_uncertainty_sq (A := B64A L) t2))).
(** [x] times [sqrt N * b] is the computed margin *)
Lemma margin_x L dp beta nn N : exp_accurate L -> lnp_accurate L -> num_in 0.01 0.99 dp -> num_in 1 100 beta -> ap nn N 0 -> 2 <= N <= 2500 ->
  let b := B2R beta in let mg := ts_draw_margin (A := B64A L) dp beta nn in
  exists x, ap mg (x * sqrt N * b) 0 /\ 0 <= x <= 2.73 /\ Rabs (x - unit_margin (B2R dp)) <= 2 / 10 ^ 10 /\ Rabs (Ncdf x - Ncdf (- x) - B2R dp) <= 0.0000121.
Proof.
  intros HE HL Hd Hb An BN b mg. destruct (num_ap _ _ _ Hd) as [Ad Bd]. destruct (num_ap _ _ _ Hb) as [Ab Bb]. fold b in Ab, Bb.
  destruct (margin_ap L dp beta nn _ _ N HE HL Ad Ab An Bd ltac:(lra) ltac:(lra)) as [Am BM]. fold mg in Am.
  assert (SN : 0 < sqrt N) by (apply sqrt_lt_R0; lra). set (um := unit_margin (B2R dp)) in *. set (G := sqrt N * b) in *. assert (G0 : 0 < G) by (apply Rmult_lt_0_compat; lra). exists (ext mg / G). rewrite Rmult_assoc. fold G.
  assert (EX : ext mg / G * G = ext mg) by (field; lra). rewrite EX. destruct (unit_margin_acc (B2R dp) ltac:(lra)) as [X0 X1]. fold um in X0, X1.
  assert (MG : Rabs (ext mg / G - um) <= 2 / 10 ^ 10).
  { destruct Am as [_ Am]. rewrite Rmult_assoc in Am. fold G in Am. apply Rmult_le_reg_r with G; [lra|]. rewrite <- (Rabs_pos_eq G) at 2 by lra. rewrite <- Rabs_mult, Rmult_minus_distr_r, EX. exact Am. }
  pose proof (Rabs_le_inv _ _ MG) as MI. split; [apply ap_self; apply Am|]. split; [lra|]. split; [exact MG|].
  pose proof phi_le as Lp.
  pose proof (Ncdf_lip (ext mg / G) um 0.4 (fun z _ => Lp z)) as L1. pose proof (Ncdf_lip (- (ext mg / G)) (- um) 0.4 (fun z _ => Lp z)) as L2.
  replace (- (ext mg / G) - - um) with (- (ext mg / G - um)) in L2 by ring. rewrite Rabs_Ropp in L2. apply Rabs_le_inv in L1, L2, X1.
  apply Rabs_le; lra.
Qed.
Lemma teams_common L n M t1 t2 (beta : B64) : tst_size n M -> tst_usual n M t1 -> tst_usual n M t2 -> num_in 1 100 beta ->
  let N := INR (length t1 + length t2) in let b := B2R beta in let c := tst_c N b t1 t2 in
  2 <= N <= 100 /\ ap (ts_total_players (A := B64A L) t1 t2) N 0 /\ ap (ctB L beta t1 t2) c (66 / 10 ^ 16 * c) /\
  ap (Bsqrt mode_NE (Bplus mode_NE (ts_team_uncertainty_sq (A := B64A L) t2) (Bfma mode_NE (ts_total_players (A := B64A L) t1 t2) (Bmult mode_NE beta beta) (ts_team_uncertainty_sq (A := B64A L) t1)))) c (66 / 10 ^ 16 * c) /\
  rl (Bplus mode_NE (Bfma mode_NE (ts_total_players (A := B64A L) t1 t2) (Bmult mode_NE beta beta) (ts_team_uncertainty_sq (A := B64A L) t1)) (ts_team_uncertainty_sq (A := B64A L) t2)) (c ^ 2) (53 * v0) /\
  1.41 <= c <= 6000 /\ c ^ 2 = N * b ^ 2 + tst_var t1 + tst_var t2 /\ sqrt N * b <= c /\
  ap (Bminus mode_NE (ts_team_rating (A := B64A L) t1) (ts_team_rating (A := B64A L) t2)) (tst_sum t1 - tst_sum t2) (12 / 10 ^ 12) /\
  ap (Bminus mode_NE (ts_team_rating (A := B64A L) t2) (ts_team_rating (A := B64A L) t1)) (tst_sum t2 - tst_sum t1) (12 / 10 ^ 12) /\
  / 10 ^ 6 <= tst_var t1 /\ / 10 ^ 6 <= tst_var t2.
Proof.
  intros HZ U1 U2 Hb N b c. destruct (num_ap _ _ _ Hb) as [Ab Bb]. fold b in Ab, Bb. destruct (usual_n _ _ _ HZ U1) as [Hn L1]. destruct (usual_n _ _ _ HZ U2) as [_ L2].
  assert (BN : 2 <= N <= 100). { unfold N. split; [apply (le_INR 2); lia|]. replace 100 with (INR 100) by (rewrite INR_IZR_INZ; reflexivity). apply le_INR; lia. }
  pose proof (total_ap L t1 t2 ltac:(lia)) as An. fold N in An. destruct (tst_ap L n M t1 HZ U1) as (_ & _ & R1 & V1). destruct (tst_ap L n M t2 HZ U2) as (_ & _ & R2 & V2).
  destruct (tcs_ap _ b _ _ _ N _ _ Ab Bb An ltac:(lra) R1 R2 V1 V2) as (C1 & C2 & C3). destruct (tc_rng N b _ _ ltac:(lra) Bb V1 V2) as (BC & CC & SC).
  split; [exact BN|]. split; [exact An|]. split; [exact C1|]. split; [exact C2|]. split; [exact C3|]. split; [exact BC|]. split; [exact CC|]. split; [exact SC|].
  split; [exact (tdiff_ap L n M t1 t2 HZ U1 U2)|]. split; [exact (tdiff_ap L n M t2 t1 HZ U2 U1)|]. split; lra.
Qed.
(** what the update of each player needs *)
Lemma var_player n M (t : list (TrueSkillRating B64)) V V' N b tau (p : TrueSkillRating B64) : tst_size n M -> tst_usual n M t -> In p t -> 2 <= N -> num_in 1 100 b -> num_in 0 100 tau -> B2R tau <= B2R b -> tst_var t <= V -> 0 <= V' ->
  let S := B2R (ts_uncertainty p) ^ 2 + B2R tau ^ 2 in let c2 := N * B2R b ^ 2 + V + V' in
  num_in (- 10 ^ 4) (10 ^ 4) (ts_rating p) /\ num_in (/ 1000) 100 (ts_uncertainty p) /\ 0 < S /\ S + 1 <= c2 /\ S + (N - 1) * B2R b ^ 2 <= c2.
Proof.
  intros [_ [BM _]] [_ [_ HF]] HI HN [_ Hb] [_ Ht] TB HV HV' S c2. destruct (proj1 (Forall_forall _ _) HF p HI) as [[F B] [F' B']].
  pose proof (var_in t p HI) as VI. assert (T2 : 0 <= B2R tau ^ 2 <= B2R b ^ 2) by (split; [apply pow2_ge_0|apply pow_incr; lra]). assert (b2 : 1 <= B2R b ^ 2) by nra.
  assert (U2 : 0 < B2R (ts_uncertainty p) ^ 2) by (apply pow_lt; lra). assert (Nb : 2 * B2R b ^ 2 <= N * B2R b ^ 2) by (apply Rmult_le_compat_r; lra).
  split; [split; [exact F|]; destruct B; split; eapply Rle_trans; try eassumption; lra|]. split; [split; assumption|]. split; [unfold S; apply Rplus_lt_le_0_compat; [exact U2|apply T2]|].
  assert (SV : S <= V + B2R b ^ 2) by (unfold S; apply Rplus_le_compat; [apply Rle_trans with (tst_var t); [exact VI|exact HV]|apply T2]). unfold c2. split; lra.
Qed.
Lemma close_map (tau c v w ev ea ew : R) (t : list (TrueSkillRating B64)) (f : TrueSkillRating B64 -> TrueSkillRating B64) : (forall p, In p t -> let S := B2R (ts_uncertainty p) ^ 2 + tau ^ 2 in
    near (ts_rating (f p)) (B2R (ts_rating p) + S / c * v) (S / c * (ev * Rabs v + ea) + 3 / 10 ^ 12) /\
    num_in (/ 10 ^ 6) 150 (ts_uncertainty (f p)) /\
    Rabs (B2R (ts_uncertainty (f p)) ^ 2 - S * (1 - w * S / c ^ 2)) <= ew * (S ^ 2 / c ^ 2) + 2 / 10 ^ 15 * S) -> tst_close tau c v w ev ea ew t (map f t).
Proof.
  intros H. split; [apply map_length|]. intros i p p' H1 H2. rewrite nth_error_map, H1 in H2. injection H2 as <-. apply H. apply (nth_error_In _ _ H1).
Qed.
(** a decided match: one team *)
Lemma team_dec L n M (t t' : list (TrueSkillRating B64)) dp beta tau c v w rm V W sg vN wN : tst_size n M -> tst_usual n M t -> num_in 1 100 beta -> num_in 0 100 tau -> B2R tau <= B2R beta ->
  forall C N, 2 <= N -> C ^ 2 = N * B2R beta ^ 2 + tst_var t + tst_var t' -> 0 <= tst_var t' ->
  ap rm sg 0 -> sg = 1 \/ sg = -1 -> ap c C (1 / 10 ^ 12 * C) -> 1.41 <= C <= 10 ^ 6 -> rp v V (2 / 10 ^ 12) -> ap w W (5 / 10 ^ 9) -> V <= 27 -> 0 < W < 1 ->
  Rabs (V - vN) <= 0.00001041 * vN -> Rabs (W - wN) <= 0.000202 -> 0 < vN ->
  tst_close (B2R tau) C (sg * vN) wN 0.0000105 0 0.000203 t (ts_update_team (A := B64A L) (mkTSConfig dp beta tau) v w c rm t).
Proof.
  intros HZ HU Hb Ht TB C N HN HC V' Arm Hs Ac BC Rv Aw BV BW HV HW VN. unfold ts_update_team. apply close_map. intros p HI S. cbn [ts_rating ts_uncertainty ts_dynamics_factor].
  destruct (var_player n M t (tst_var t) (tst_var t') N beta tau p HZ HU HI HN Hb Ht TB (Rle_refl _) V') as (Nr & Nu & S0 & HS & _). fold S in S0, HS. rewrite <- HC in HS.
  assert (AS : Rabs sg = 1) by (destruct Hs as [-> | ->]; [apply Rabs_R1|rewrite Rabs_left; lra]).
  destruct (side_dec L (ts_rating p) (ts_uncertainty p) v c w tau rm V C W sg vN wN Nr Nu Ht Arm AS Ac BC Rv Aw BV BW HS HV HW VN) as (Y1 & Y2 & Y3). fold S in Y1, Y3.
  assert (K0 : 0 < S / C) by (apply Rdiv_lt_0_compat; lra). rewrite Rabs_mult, AS, (Rabs_pos_eq vN) by lra. rewrite Rabs_mult, (Rabs_pos_eq (S / C)), (Rabs_pos_eq vN) in Y1 by lra.
  split; [|split; [exact Y2|exact Y3]]. replace (S / C * (sg * vN)) with (sg * (S / C * vN)) by ring. destruct Y1 as [F Y1]. split; [exact F|]. eapply Rle_trans; [exact Y1|]. right. ring.
Qed.
Lemma two_dec_eq L t1 t2 o dp beta tau : t1 <> [] -> t2 <> [] ->
  trueskill_two_teams (A := B64A L) t1 t2 o (mkTSConfig dp beta tau) =
  let vw := ts_vw (A := B64A L) o (ts_rating_delta (A := B64A L) o (ts_team_rating (A := B64A L) t1) (ts_team_rating (A := B64A L) t2)) (ts_draw_margin (A := B64A L) dp beta (ts_total_players (A := B64A L) t1 t2)) (ctB L beta t1 t2) in
  let rm := ts_rank_multipliers (A := B64A L) o in
  (ts_update_team (A := B64A L) (mkTSConfig dp beta tau) (fst vw) (snd vw) (ctB L beta t1 t2) (fst rm) t1,
   ts_update_team (A := B64A L) (mkTSConfig dp beta tau) (fst vw) (snd vw) (ctB L beta t1 t2) (snd rm) t2).
Proof.
  intros N1 N2. destruct t1; [congruence|]. destruct t2; [congruence|].
  destruct o; reflexivity.
Qed.
Lemma C119_decided_proof : forall L (n : nat) M (t1 t2 : list (TrueSkillRating B64)) (dp beta tau : B64) o, exp_accurate L -> lnp_accurate L ->
  tst_size n M -> tst_usual n M t1 -> tst_usual n M t2 ->
  num_in 0.01 0.99 dp -> num_in 1 100 beta -> num_in 0 100 tau -> B2R tau <= B2R beta -> o <> DRAW ->
  let N := INR (length t1 + length t2) in let b := B2R beta in let c := tst_c N b t1 t2 in let t := (tst_sum t1 - tst_sum t2) / c in
  Rabs (tst_sum t1 - tst_sum t2) <= 22 * c ->
  let g := trueskill_two_teams (A := B64A L) t1 t2 o (mkTSConfig dp beta tau) in
  exists x, 0 <= x /\ Rabs (Ncdf x - Ncdf (- x) - B2R dp) <= 0.0000121 /\
    let e := x * sqrt N * b in let v := tsN_v o t (e / c) in let w := tsN_w o t (e / c) in
    tst_close (B2R tau) c v w 0.0000105 0 0.000203 t1 (fst g) /\ tst_close (B2R tau) c (- v) w 0.0000105 0 0.000203 t2 (snd g).
Proof.
  intros L n M t1 t2 dp beta tau o HE HL HZ U1 U2 Hd Hb Ht TB HO N b c t HD g.
  destruct (teams_common L n M t1 t2 beta HZ U1 U2 Hb) as (BN & An & Ac & _ & _ & BC & C2 & SC & AD & AD' & V1 & V2). fold N in BN, An, Ac, BC, C2, SC. fold b in Ac, BC, C2, SC. fold c in Ac, BC, C2, SC.
  destruct (margin_x L dp beta _ N HE HL Hd Hb An ltac:(lra)) as (x & Am & X0 & _ & X1). fold b in Am. set (mg := ts_draw_margin (A := B64A L) dp beta _) in *. set (cc := ctB L beta t1 t2) in *.
  exists x. split; [lra|]. split; [exact X1|]. intros e v w. fold e in Am. destruct (num_ap _ _ _ Hb) as [_ Bb]. fold b in Bb.
  assert (SN : 0 < sqrt N * b) by (apply Rmult_lt_0_compat; [apply sqrt_lt_R0|]; lra).
  assert (BE : 0 <= e <= 2.73 * c). { unfold e. rewrite Rmult_assoc. split; [apply Rmult_le_pos; lra|apply Rmult_le_compat; lra]. }
  apply (ap_weak _ _ _ (1 / 10 ^ 12 * c)) in Ac; [|lra]. apply (ap_weak _ _ _ (1 / 10 ^ 11 * c)) in AD; [|lra]. apply (ap_weak _ _ _ (1 / 10 ^ 11 * c)) in AD'; [|lra].
  assert (P1 : ap (b64_of_Z 1) 1 0) by (apply ap_Z; vm_compute; discriminate). assert (P2 : ap (b64_of_Z (-1)) (-1) 0) by (apply ap_Z; vm_compute; discriminate).
  assert (HD' : Rabs (tst_sum t2 - tst_sum t1) <= 22 * c) by (rewrite Rabs_minus_sym; exact HD).
  assert (C2' : c ^ 2 = N * b ^ 2 + tst_var t2 + tst_var t1) by lra. pose proof (two_dec_eq L t1 t2 o dp beta tau (proj1 U1) (proj1 U2)) as EG. fold cc mg in EG. cbv zeta in EG. fold g in EG. rewrite EG. clear EG g.
  destruct o; [| |congruence]; cbn [fst snd].
  - destruct (dec_vw L _ mg cc _ e c HE AD Am Ac ltac:(lra) HD BE) as (V & W & Rv & Aw & BV & BW & HV & HW & VN). fold t in HV, HW, VN.
    split.
    + replace v with (1 * v) by ring. exact (team_dec L n M t1 t2 dp beta tau cc _ _ _ V W 1 v w HZ U1 Hb Ht TB c N (proj1 BN) C2 ltac:(lra) P1 (or_introl eq_refl) Ac ltac:(lra) Rv Aw (proj2 BV) BW HV HW VN).
    + replace (- v) with (-1 * v) by ring. exact (team_dec L n M t2 t1 dp beta tau cc _ _ _ V W (-1) v w HZ U2 Hb Ht TB c N (proj1 BN) C2' ltac:(lra) P2 (or_intror eq_refl) Ac ltac:(lra) Rv Aw (proj2 BV) BW HV HW VN).
  - destruct (dec_vw L _ mg cc _ e c HE AD' Am Ac ltac:(lra) HD' BE) as (V & W & Rv & Aw & BV & BW & HV & HW & VN).
    assert (ET : (tst_sum t2 - tst_sum t1) / c = - t) by (unfold t; field; lra). rewrite ET in HV, HW, VN. set (vv := vwinN (- t) (e / c)) in *.
    split.
    + replace v with (-1 * vv) by (unfold v, tsN_v, vv; ring). exact (team_dec L n M t1 t2 dp beta tau cc _ _ _ V W (-1) vv w HZ U1 Hb Ht TB c N (proj1 BN) C2 ltac:(lra) P2 (or_intror eq_refl) Ac ltac:(lra) Rv Aw (proj2 BV) BW HV HW VN).
    + replace (- v) with (1 * vv) by (unfold v, tsN_v, vv; ring). exact (team_dec L n M t2 t1 dp beta tau cc _ _ _ V W 1 vv w HZ U2 Hb Ht TB c N (proj1 BN) C2' ltac:(lra) P1 (or_introl eq_refl) Ac ltac:(lra) Rv Aw (proj2 BV) BW HV HW VN).
Qed.
