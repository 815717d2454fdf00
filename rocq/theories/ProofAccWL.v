(** Weng-Lin teams in double precision: two teams, many teams, expected scores. *)
From Coq Require Import ZArith NArith List Bool Reals Lra Lia Psatz.
From Flocq Require Import Core.Core IEEE754.BinarySingleNaN.
From Verif Require Import Arith XR B64 ModelLib ModelWengLin Spec SpecB64 SpecAcc SpecAcc5 Tac MathB64 ProofB64 ProofB64b ProofB64c MathB64b ProofB64d MathAcc MathAcc2 ProofWengLin ProofAcc ProofAcc2 MathRel MathAccWL.
Import Spec ListNotations.
Local Open Scope R_scope.
#[local] Opaque Bplus Bminus Bmult Bdiv Bfma Bsqrt Bopp Babs b64_max b64_min b64_of_Z b64_lit.

(** the bound on the error of a probability, for teams of up to [n] players *)
Definition wle (n : nat) : R := 2 * (INR n ^ 2 + 3) / 10 ^ 13.
Lemma n_rng n : (1 <= n <= 50)%nat -> 1 <= INR n <= 50.
Proof. intros H. split; [apply (le_INR 1); lia|]. replace 50 with (INR 50) by (rewrite INR_IZR_INZ; reflexivity). apply le_INR; lia. Qed.
Lemma wle_rng n : (1 <= n <= 50)%nat -> 8 / 10 ^ 13 <= wle n <= 6 / 10 ^ 10.
Proof. intros H. pose proof (n_rng n H). assert (1 <= INR n ^ 2 <= 2500) by nra. unfold wle. lra. Qed.
Lemma rl_51 n x X : (1 <= n <= 50)%nat -> rl x X ((INR n + 1) * v0) -> rl x X (51 * v0).
Proof. intros H R. pose proof (n_rng n H). apply (rl_weak _ _ _ _ R); [apply Rmult_le_compat_r; unfold v0; lra|unfold v0; lra]. Qed.
Lemma rl_54 n x X : (1 <= n <= 50)%nat -> rl x X ((INR n + 4) * v0) -> rl x X (54 * v0).
Proof. intros H R. pose proof (n_rng n H). apply (rl_weak _ _ _ _ R); [apply Rmult_le_compat_r; unfold v0; lra|unfold v0; lra]. Qed.

(** one side against another *)
Lemma side_ap L n t t' b BT : exp_accurate L -> (1 <= n <= 50)%nat -> wl_usual n t -> wl_usual n t' -> ap b BT 0 -> 1 <= BT <= 100 -> wl_small BT (map wl_re t) (map wl_re t') ->
  let th := wl_theta (map wl_re t) in let th' := wl_theta (map wl_re t') in let V := wl_s2 (map wl_re t) in let V' := wl_s2 (map wl_re t') in let C := wlc BT V V' in
  let v := wl_team_uncertainty_sq (A := B64A L) t in let v' := wl_team_uncertainty_sq (A := B64A L) t' in
  let c := wl_c_teams (A := B64A L) b v v' in let p := fst (wl_p_value (A := B64A L) (wl_team_rating (A := B64A L) t) (wl_team_rating (A := B64A L) t') c) in
  rl v V (51 * v0) /\ rl v' V' (51 * v0) /\ / 10 ^ 6 <= V <= 5 * 10 ^ 5 /\ / 10 ^ 6 <= V' <= 5 * 10 ^ 5 /\ rl c C (54 * v0) /\ 1.41 <= C <= 1100 /\ sqrt V <= C /\ sqrt V' <= C /\
  ap p (wlp th th' C) (wle n) /\ 0 < wlp th th' C < 1.
Proof.
  intros HE Hn U U' Ab Bb [S1 S2] th th' V V' C v v' c p. pose proof (n_rng n Hn) as BN.
  destruct (team_ap L n t Hn U) as [A1 [_ [B1 R1]]]. destruct (team_ap L n t' Hn U') as [A2 [_ [B2 R2]]]. fold th V v in A1, B1, R1. fold th' V' v' in A2, B2, R2.
  destruct (wct_ap L b BT v v' V V' (INR n) Ab Bb BN R1 R2 B1 B2) as [RC [BC [W1 W2]]]. fold C in RC, BC, W1, W2. fold c in RC.
  destruct (wpt_ap L _ _ c th th' C (INR n) HE BN A1 A2 RC S1 S2 BC) as [AP BP].
  split; [exact (rl_51 n _ _ Hn R1)|]. split; [exact (rl_51 n _ _ Hn R2)|]. split; [exact B1|]. split; [exact B2|]. split; [exact (rl_54 n _ _ Hn RC)|].
  split; [exact BC|]. split; [exact W1|]. split; [exact W2|]. split; [exact AP|exact BP].
Qed.

(** every player of a side *)
Lemma F2_length {X Y} (P : X -> Y -> Prop) l l' : Forall2 P l l' -> length l = length l'.
Proof. induction 1; simpl; congruence. Qed.
Lemma close_of_forall n m t q t' : length q = length t -> Forall2 (fun pq p' => wl_err n m (fst pq) (snd pq) p') (combine t q) t' -> wl_close n m t q t'.
Proof.
  intros Hl HF. pose proof (F2_length _ _ _ HF) as L2. rewrite combine_length, Hl, Nat.min_id in L2. split; [exact Hl|]. split; [congruence|].
  clear L2. revert q t' Hl HF. induction t as [|p0 t IH]; intros [|q0 q] t' Hl HF i p r p' H1 H2 H3; destruct i; try discriminate; cbn [combine] in HF; inversion HF; subst; cbn in *; try discriminate.
  - injection H1 as <-. injection H2 as <-. injection H3 as <-. assumption.
  - eapply IH; eauto.
Qed.
Lemma update_ap L n m cfg t v om de Om De e1 : (1 <= n <= 50)%nat -> (m <= 50)%nat -> 8 / 10 ^ 13 <= e1 <= 1.01 * wle n -> wl_usual n t ->
  num_in (9 / 10 ^ 7) 1 (wl_uncertainty_tolerance cfg) -> rl v (wl_s2 (map wl_re t)) (51 * v0) -> / 10 ^ 6 <= wl_s2 (map wl_re t) <= 5 * 10 ^ 5 ->
  ap om Om (INR m * (1.2 * e1 * sqrt (wl_s2 (map wl_re t)))) -> ap de De (INR m * (2.5 * e1)) -> Rabs Om <= INR m * sqrt (wl_s2 (map wl_re t)) -> 0 <= De <= INR m / 4 ->
  let kappa := B2R (wl_uncertainty_tolerance cfg) in
  wl_close n m t (map (wl_player kappa (wl_s2 (map wl_re t)) Om De) (map wl_re t)) (wl_update_team (A := B64A L) cfg v om de t).
Proof.
  intros Hn Hm BE U NK Rv BV Ao Ad Bo Bd kappa. apply close_of_forall; [rewrite !map_length; reflexivity|]. destruct (num_ap _ _ _ NK) as [Ak Bk]. pose proof (wle_rng n Hn) as BW.
  assert (Bm : 0 <= INR m <= 50). { split; [apply pos_INR|]. replace 50 with (INR 50) by (rewrite INR_IZR_INZ; reflexivity). apply le_INR; lia. }
  destruct U as [NE [Hl HF]]. set (V := wl_s2 (map wl_re t)) in *.
  assert (HS : Forall (fun p => B2R (wl_uncertainty p) * B2R (wl_uncertainty p) <= V) t).
  { unfold V. rewrite wl_s2_re. clear -HF. induction HF as [|p l [_ [_ B]] HF IH]; [constructor|]. pose proof (sq_both _ B) as SB.
    assert (T : 0 <= Rsum (map (fun p => B2R (wl_uncertainty p) * B2R (wl_uncertainty p)) l)).
    { apply (Rsum_nonneg (WengLinRating B64) (fun p => B2R (wl_uncertainty p) * B2R (wl_uncertainty p))). eapply Forall_impl; [|exact HF]. intros q [_ [_ Bq]]. exact (proj2 (sq_both _ Bq)). }
    cbn [map]. rewrite Rsum_cons. apply Forall_cons.
    - apply Rle_trans with (B2R (wl_uncertainty p) * B2R (wl_uncertainty p) + 0); [right; symmetry; apply Rplus_0_r|]. apply Rplus_le_compat_l, T.
    - eapply Forall_impl; [|exact IH]. cbv beta. intros q Hq. eapply Rle_trans; [exact Hq|]. rewrite <- (Rplus_0_l (Rsum _)) at 1. apply Rplus_le_compat_r. left. exact (proj2 SB). }
  clearbody V. clear NE Hl. unfold wl_update_team. induction t as [|p t IH]; [constructor|]. inversion HF as [|? ? [N1 N2] HF']; subst. inversion HS as [|? ? S1 HS']; subst.
  cbn [map combine]. constructor; [|apply IH; auto]. clear IH. cbn [fst snd]. unfold wl_err. cbn [wl_rating wl_uncertainty].
  destruct (num_ap _ _ _ N1) as [A1 B1]. destruct (num_ap _ _ _ N2) as [A2 B2].
  destruct (player_ap L (wl_rating p) (wl_uncertainty p) v om de (wl_uncertainty_tolerance cfg) _ _ V Om De _ (INR m) e1 ltac:(lra) Bm A1 A2 Rv Ao Ad Ak ltac:(apply Rabs_le; lra) B2 S1 BV Bo Bd Bk) as [X1 X2].
  assert (S0 : 0 < B2R (wl_uncertainty p)) by lra.
  assert (E0 : 0 <= e1) by lra. assert (P2 : 0 <= INR n ^ 2) by apply pow2_ge_0. unfold wle in BE.
  change (fst (wl_player kappa V Om De (wl_re p))) with (B2R (wl_rating p) + B2R (wl_uncertainty p) ^ 2 / V * Om).
  change (snd (wl_player kappa V Om De (wl_re p))) with (B2R (wl_uncertainty p) * sqrt (Rmax (1 - B2R (wl_uncertainty p) ^ 2 / V * De) kappa)).
  change (B2R (wl_uncertainty_tolerance cfg)) with kappa in X2.
  split; apply ap_near.
  - apply (ap_weak _ _ _ _ X1). apply Rmult_le_compat_r; [|lra]. assert (0 <= INR m * B2R (wl_uncertainty p)) by (apply Rmult_le_pos; lra). lra.
  - apply (ap_weak _ _ _ _ X2). set (S' := _ * sqrt _). apply Rmult_le_compat_r; [lra|].
    assert (S0' : 0 < S') by (unfold S'; apply Rmult_lt_0_compat; [exact S0|]; apply sqrt_lt_R0, Rlt_le_trans with (2 := Rmax_r _ _); unfold kappa; lra).
    assert (0 <= INR m * B2R (wl_uncertainty p) / S') by (apply Rmult_le_pos; [apply Rmult_le_pos; lra|left; apply Rinv_0_lt_compat; exact S0']).
    apply Rmult_le_compat_r; lra.
Qed.

Lemma wlc_sym BT V V' : wlc BT V V' = wlc BT V' V. Proof. unfold wlc. f_equal. ring. Qed.
Lemma C118_two_proof : forall (L : Libm) (n : nat) (t1 t2 : list (WengLinRating B64)) (o : Outcomes) (cfg : WengLinConfig B64),
  exp_accurate L -> (n <= 50)%nat -> wl_usual n t1 -> wl_usual n t2 -> num_in 1 100 (wl_beta cfg) -> num_in (9 / 10 ^ 7) 1 (wl_uncertainty_tolerance cfg) ->
  let T1 := map wl_re t1 in let T2 := map wl_re t2 in let beta := B2R (wl_beta cfg) in let kappa := B2R (wl_uncertainty_tolerance cfg) in
  wl_small beta T1 T2 ->
  let new := weng_lin_two_teams (A := B64A L) t1 t2 o cfg in
  wl_close n 1 t1 (map (wl_player kappa (wl_s2 T1) (wls_delta beta (wl_theta T1) (wl_s2 T1) (wl_theta T2) (wl_s2 T2) (points o))
    (wls_eta beta (wl_theta T1) (wl_s2 T1) (wl_theta T2) (wl_s2 T2))) T1) (fst new) /\
  wl_close n 1 t2 (map (wl_player kappa (wl_s2 T2) (wls_delta beta (wl_theta T2) (wl_s2 T2) (wl_theta T1) (wl_s2 T1) (points (invert o)))
    (wls_eta beta (wl_theta T2) (wl_s2 T2) (wl_theta T1) (wl_s2 T1))) T2) (snd new).
Proof.
  intros L n t1 t2 o cfg HE Hn' U1 U2 NB NK T1 T2 beta kappa SM new. assert (Hn : (1 <= n <= 50)%nat). { destruct U1 as [NE [Hl _]]. destruct t1; [congruence|]. simpl in Hl. lia. }
  destruct (num_ap _ _ _ NB) as [Ab Bb]. fold beta in Ab, Bb.
  pose proof (side_ap L n t1 t2 (wl_beta cfg) beta HE Hn U1 U2 Ab Bb SM) as [R1 [R2 [B1 [B2 [RC [BC [W1 [W2 [AP BP]]]]]]]]]. fold T1 T2 in R1, R2, B1, B2, RC, BC, W1, W2, AP, BP.
  set (th1 := wl_theta T1) in *. set (th2 := wl_theta T2) in *. set (V1 := wl_s2 T1) in *. set (V2 := wl_s2 T2) in *. set (C := wlc beta V1 V2) in *. pose proof (wle_rng n Hn) as BW.
  destruct (ext_points L o) as [Fp Ep]. destruct (ext_points2 L o) as [Fq Eq]. cbv zeta in Fq, Eq. pose proof (points_range o) as PR. pose proof (points_range (invert o)) as PR'.
  assert (PI' : points (invert o) = 1 - points o) by (destruct o; simpl; lra). rewrite <- PI' in Eq. pose proof (wlp_compl th1 th2 C ltac:(lra)) as EW.
  set (v1 := wl_team_uncertainty_sq (A := B64A L) t1) in *. set (v2 := wl_team_uncertainty_sq (A := B64A L) t2) in *. set (c := wl_c_teams (A := B64A L) (wl_beta cfg) v1 v2) in *.
  set (p := fst (wl_p_value (A := B64A L) (wl_team_rating (A := B64A L) t1) (wl_team_rating (A := B64A L) t2) c)) in *. set (P := wlp th1 th2 C) in *.
  pose proof (one_minus_ap _ _ _ AP ltac:(lra) ltac:(lra)) as AQ. apply (ap_weak _ _ _ (1.01 * wle n)) in AQ; [|lra].
  destruct (delta_ap L v1 c p _ V1 C P (points o) (wle n) ltac:(lra) R1 RC AP (ap_exact _ _ Fp Ep) B1 BC W1 ltac:(lra) PR) as [D1 D1'].
  destruct (eta_ap L v1 c p V1 C P (wle n) ltac:(lra) R1 RC AP B1 BC W1 ltac:(lra)) as [E1 E1'].
  destruct (delta_ap L v2 c _ _ V2 C (1 - P) (points (invert o)) (1.01 * wle n) ltac:(lra) R2 RC AQ (ap_exact _ _ Fq Eq) B2 BC W2 ltac:(lra) PR') as [D2 D2'].
  destruct (eta_ap L v2 c _ V2 C (1 - P) (1.01 * wle n) ltac:(lra) R2 RC AQ B2 BC W2 ltac:(lra)) as [E2 E2'].
  assert (NEW : new = (wl_update_team (A := B64A L) cfg v1 (wl_small_delta (A := B64A L) v1 c p (to_chess_points (A := B64A L) o)) (wl_eta (A := B64A L) v1 c p (wl_gamma (A := B64A L) v1 c)) t1,
    wl_update_team (A := B64A L) cfg v2 (wl_small_delta (A := B64A L) v2 c (Bminus mode_NE one64 p) (Bminus mode_NE one64 (to_chess_points (A := B64A L) o))) (wl_eta (A := B64A L) v2 c (Bminus mode_NE one64 p) (wl_gamma (A := B64A L) v2 c)) t2)).
  { unfold new, weng_lin_two_teams. assert (I1 : is_empty t1 = false) by (destruct U1 as [NE _]; destruct t1; [congruence|reflexivity]). assert (I2 : is_empty t2 = false) by (destruct U2 as [NE _]; destruct t2; [congruence|reflexivity]). rewrite I1, I2. reflexivity. }
  rewrite NEW. cbn [fst snd]. clear NEW. pose proof (sqrt_pos V1) as SP1. pose proof (sqrt_pos V2) as SP2. assert (wS1 : 0 <= wle n * sqrt V1) by (apply Rmult_le_pos; lra). assert (wS2 : 0 <= wle n * sqrt V2) by (apply Rmult_le_pos; lra). split.
  - apply (update_ap L n 1 cfg t1 v1 _ _ _ _ (wle n) Hn ltac:(lia) ltac:(lra) U1 NK R1 B1).
    + unfold wls_delta. fold C P. apply (ap_weak _ _ _ _ D1). simpl INR. fold T1 V1. lra.
    + unfold wls_eta. fold C P. rewrite EW. apply (ap_weak _ _ _ _ E1). simpl INR. lra.
    + unfold wls_delta. fold C P. simpl INR. fold T1 V1. lra.
    + unfold wls_eta. fold C P. rewrite EW. simpl INR. lra.
  - apply (update_ap L n 1 cfg t2 v2 _ _ _ _ (1.01 * wle n) Hn ltac:(lia) ltac:(lra) U2 NK R2 B2).
    + unfold wls_delta. rewrite wlc_sym. fold C. rewrite EW. apply (ap_weak _ _ _ _ D2). simpl INR. fold T2 V2. lra.
    + unfold wls_eta. rewrite wlc_sym. fold C P. rewrite EW. replace P with (1 - (1 - P)) at 2 by ring. apply (ap_weak _ _ _ _ E2). simpl INR. lra.
    + unfold wls_delta. rewrite wlc_sym. fold C. rewrite EW. simpl INR. fold T2 V2. lra.
    + unfold wls_eta. rewrite wlc_sym. fold C P. rewrite EW. replace P with (1 - (1 - P)) at 2 4 by ring. simpl INR. lra.
Qed.

(** ** Many teams *)
Definition wl_rx (x : list (WengLinRating B64) * MultiTeamOutcome) : list (R * R) * N := (map wl_re (fst x), mto_rank_field (snd x)).
Lemma score_ap L r r' : ap (wl_rank_score (A := B64A L) (mkMTO r') (mkMTO r)) (rank_score r r') 0 /\ 0 <= rank_score r r' <= 1.
Proof.
  unfold wl_rank_score, rank_score, mto_cmp. cbn [mto_rank_field]. rewrite N.compare_antisym. destruct (N.compare r r'); cbn [CompOpp].
  - split; [|lra]. destruct (ext_points L DRAW) as [F E]. apply (ap_exact _ _ F). rewrite E. reflexivity.
  - split; [exact (ap_Z 1 ltac:(vm_compute; discriminate))|lra].
  - split; [exact (ap_Z 0 ltac:(vm_compute; discriminate))|lra].
Qed.
Lemma inner_ap L n cfg i t r : exp_accurate L -> (1 <= n <= 50)%nat -> wl_usual n t -> num_in 1 100 (wl_beta cfg) ->
  let beta := B2R (wl_beta cfg) in let W := sqrt (wl_s2 (map wl_re t)) in let e1 := wle n in let x := (map wl_re t, r) : wlx in
  forall xs, (forall y, In y (skip i 0 xs) -> wl_usual n (fst y) /\ wl_small beta (map wl_re t) (map wl_re (fst y))) -> (length (skip i 0 xs) <= 50)%nat ->
  let res := wl_inner (A := B64A L) cfg i (wl_team_rating (A := B64A L) t) (wl_team_uncertainty_sq (A := B64A L) t) (mkMTO r) (enumerate (map (wl_info (A := B64A L)) xs)) in
  let m := INR (length (skip i 0 xs)) in let Om := Rsum (map (fun y => xdelta beta x (wl_rx y)) (skip i 0 xs)) in let De := Rsum (map (fun y => xeta beta x (wl_rx y)) (skip i 0 xs)) in
  ap (fst res) Om (m * (1.2 * e1 * W)) /\ ap (snd res) De (m * (2.5 * e1)) /\ Rabs Om <= m * W /\ 0 <= De <= m / 4.
Proof.
  intros HE Hn U NB beta W e1 x xs HX HL. destruct (num_ap _ _ _ NB) as [Ab Bb]. fold beta in Ab, Bb. pose proof (wle_rng n Hn) as BW. fold e1 in BW.
  unfold wl_inner, enumerate. rewrite map_length. match goal with |- context [fold_left ?G _ _] => set (g := G) end.
  assert (W0 : 0 <= W) by apply sqrt_pos. assert (WB : / 1000 <= W). { destruct (team_ap L n t Hn U) as [_ [_ [B _]]]. apply Rsqr_incr_0_var; [|exact W0]. unfold Rsqr, W. rewrite sqrt_sqrt; lra. }
  assert (WB2 : W <= 708). { destruct (team_ap L n t Hn U) as [_ [_ [B _]]]. apply Rsqr_incr_0_var; [|lra]. unfold Rsqr, W. rewrite sqrt_sqrt; lra. }
  assert (K : forall xs k j acc Om De, (forall y, In y (skip i k xs) -> wl_usual n (fst y) /\ wl_small beta (map wl_re t) (map wl_re (fst y))) -> (j + length (skip i k xs) <= 50)%nat ->
    ap (fst acc) Om (INR j * (1.2 * e1 * W)) -> ap (snd acc) De (INR j * (2.5 * e1)) -> Rabs Om <= INR j * W -> 0 <= De <= INR j / 4 ->
    let res := fold_left g (combine (seq k (length xs)) (map (wl_info (A := B64A L)) xs)) acc in let m := INR (j + length (skip i k xs)) in
    let Om' := Om + Rsum (map (fun y => xdelta beta x (wl_rx y)) (skip i k xs)) in let De' := De + Rsum (map (fun y => xeta beta x (wl_rx y)) (skip i k xs)) in
    ap (fst res) Om' (m * (1.2 * e1 * W)) /\ ap (snd res) De' (m * (2.5 * e1)) /\ Rabs Om' <= m * W /\ 0 <= De' <= m / 4).
  { clear xs HX HL. induction xs as [|y xs IH]; intros k j acc Om De HX HL AO AD BO BD; cbn [length seq map combine fold_left skip] in *.
    - rewrite !Rplus_0_r, Nat.add_0_r. auto.
    - destruct (Nat.eqb_spec i k) as [e|e].
      + assert (G : g acc (k, wl_info (A := B64A L) y) = acc). { unfold g. destruct acc. unfold wl_info. rewrite (proj2 (Nat.eqb_eq i k) e). reflexivity. }
        rewrite G. apply IH; auto.
      + destruct (HX y (or_introl eq_refl)) as [Uy Sy]. cbn [length] in HL.
        pose proof (side_ap L n t (fst y) (wl_beta cfg) beta HE Hn U Uy Ab Bb Sy) as [R1 [_ [B1 [_ [RC [BC [W1 [_ [AP BP]]]]]]]]].
        destruct y as [ty [ry]]. cbn [fst snd] in *. destruct (score_ap L r ry) as [As Bs].
        set (th1 := wl_theta (map wl_re t)) in *. set (th2 := wl_theta (map wl_re ty)) in *. set (V1 := wl_s2 (map wl_re t)) in *. set (V2 := wl_s2 (map wl_re ty)) in *. set (C := wlc beta V1 V2) in *.
        set (v1 := wl_team_uncertainty_sq (A := B64A L) t) in *. set (v2 := wl_team_uncertainty_sq (A := B64A L) ty) in *. set (c := wl_c_teams (A := B64A L) (wl_beta cfg) v1 v2) in *.
        set (p := fst (wl_p_value (A := B64A L) (wl_team_rating (A := B64A L) t) (wl_team_rating (A := B64A L) ty) c)) in *. set (P := wlp th1 th2 C) in *.
        destruct (delta_ap L v1 c p _ V1 C P _ e1 ltac:(lra) R1 RC AP As B1 BC W1 ltac:(lra) Bs) as [D1 D1'].
        destruct (eta_ap L v1 c p V1 C P e1 ltac:(lra) R1 RC AP B1 BC W1 ltac:(lra)) as [E1 E1']. cbv zeta in E1, E1'.
        assert (XD : xdelta beta x (wl_rx (ty, mkMTO ry)) = V1 / C * (rank_score r ry - P)) by reflexivity.
        assert (XE : xeta beta x (wl_rx (ty, mkMTO ry)) = sqrt V1 / C * (sqrt V1 / C) ^ 2 * P * (1 - P)).
        { unfold xeta, wls_eta. change (wl_s2 (fst x)) with V1. change (wl_theta (fst x)) with th1. change (wl_s2 (fst (wl_rx (ty, mkMTO ry)))) with V2. change (wl_theta (fst (wl_rx (ty, mkMTO ry)))) with th2. fold C. rewrite (wlp_compl th1 th2 C) by lra. reflexivity. }
        assert (G : g acc (k, wl_info (A := B64A L) (ty, mkMTO ry)) = (Bplus mode_NE (fst acc) (wl_small_delta (A := B64A L) v1 c p (wl_rank_score (A := B64A L) (mkMTO ry) (mkMTO r))),
           Bplus mode_NE (snd acc) (wl_eta (A := B64A L) v1 c p (wl_gamma (A := B64A L) v1 c)))).
        { unfold g. destruct acc. unfold wl_info. rewrite (proj2 (Nat.eqb_neq i k) e). reflexivity. }
        rewrite G. clear G. change (sqrt V1) with W in D1, D1', E1, E1', XE.
        set (DL := V1 / C * (rank_score r ry - P)) in *. set (ET := W / C * (W / C) ^ 2 * P * (1 - P)) in *.
        cbn [map length]. rewrite !Rsum_cons. rewrite XD, XE. rewrite <- !Rplus_assoc. replace (j + S (length (skip i (S k) xs)))%nat with (S j + length (skip i (S k) xs))%nat by lia.
        assert (J : 0 <= INR j <= 49). { split; [apply pos_INR|]. replace 49 with (INR 49) by (rewrite INR_IZR_INZ; reflexivity). apply le_INR. lia. }
        assert (U0 : 0 < u0 <= 12 / 10 ^ 17) by ulra. assert (eW : 8 / 10 ^ 13 * W <= e1 * W <= / 10 ^ 8 * W) by (split; apply Rmult_le_compat_r; lra). assert (uW : 0 <= u0 * W <= 12 / 10 ^ 17 * W) by (split; [apply Rmult_le_pos; lra|apply Rmult_le_compat_r; lra]).
        assert (jW : 0 <= INR j * W <= 49 * W) by (split; [apply Rmult_le_pos; lra|apply Rmult_le_compat_r; lra]). assert (jeW : INR j * (1.2 * e1 * W) <= 49 * (1.2 * / 10 ^ 8 * W)) by (apply Rmult_le_compat; try lra; apply Rmult_le_pos; lra).
        assert (je : INR j * (2.5 * e1) <= 49 * (2.5 * / 10 ^ 8)) by (apply Rmult_le_compat; lra).
        assert (BO' : Rabs (Om + DL) <= (INR j + 1) * W) by (eapply Rle_trans; [apply Rabs_triang|]; lra).
        pose proof (ap_add _ _ _ _ _ _ (52 * W) AO D1 ltac:(lra) ltac:(okb)) as T1. pose proof (ap_add _ _ _ _ _ _ 52 AD E1 ltac:(rewrite Rabs_pos_eq; lra) ltac:(okb)) as T2.
        apply IH.
        * intros z Hz. apply HX. right. exact Hz.
        * lia.
        * cbn [fst]. apply (ap_weak _ _ _ _ T1). rewrite S_INR. lra.
        * cbn [snd]. apply (ap_weak _ _ _ _ T2). rewrite S_INR. lra.
        * rewrite S_INR. exact BO'.
        * rewrite S_INR. lra. }
  specialize (K xs 0%nat 0%nat (fofZ (Arith := B64A L) 0, fofZ (Arith := B64A L) 0) 0 0 HX ltac:(exact HL)). cbv zeta in K |- *. rewrite !Rplus_0_l in K. apply K.
  - cbn [fst INR]. rewrite Rmult_0_l. exact (ap_Z 0 ltac:(vm_compute; discriminate)).
  - cbn [snd INR]. rewrite Rmult_0_l. exact (ap_Z 0 ltac:(vm_compute; discriminate)).
  - rewrite Rabs_R0. cbn [INR]. lra.
  - cbn [INR]. lra.
Qed.

Lemma nth_enum {X} (l : list X) i k : nth_error (combine (seq k (length l)) l) i = option_map (pair (k + i)%nat) (nth_error l i).
Proof.
  revert i k. induction l as [|x l IH]; intros i k; [destruct i; reflexivity|]. cbn [length seq combine]. destruct i; cbn [nth_error option_map]; [rewrite Nat.add_0_r; reflexivity|].
  rewrite IH. replace (S k + i)%nat with (k + S i)%nat by lia. reflexivity.
Qed.
Lemma nth_enumerate {X} (l : list X) i : nth_error (enumerate l) i = option_map (pair i) (nth_error l i). Proof. apply nth_enum. Qed.
Lemma C118_multi_proof : forall (L : Libm) (n : nat) (pre : list (list (WengLinRating B64) * MultiTeamOutcome)) t (r : N) post (cfg : WengLinConfig B64),
  let teams := pre ++ (t, mto_new r) :: post in let others := pre ++ post in
  let T := map wl_re t in let beta := B2R (wl_beta cfg) in let kappa := B2R (wl_uncertainty_tolerance cfg) in
  exp_accurate L -> (n <= 50)%nat -> (length teams <= 51)%nat -> Forall (fun x => wl_usual n (fst x)) teams ->
  num_in 1 100 (wl_beta cfg) -> num_in (9 / 10 ^ 7) 1 (wl_uncertainty_tolerance cfg) ->
  Forall (fun x => wl_small beta T (map wl_re (fst x))) others ->
  exists t', nth_error (weng_lin_multi_team (A := B64A L) teams cfg) (length pre) = Some t' /\
    wl_close n (length others) t (wl_team' beta kappa T r (map (fun x => (map wl_re (fst x), mto_rank_field (snd x))) others)) t'.
Proof.
  intros L n pre t r post cfg teams others T beta kappa HE Hn' HL HU NB NK HS. assert (U : wl_usual n t). { apply Forall_forall with (2 := in_elt (t, mto_new r) pre post) in HU. exact HU. }
  assert (Hn : (1 <= n <= 50)%nat). { destruct U as [NE [Hl _]]. destruct t; [congruence|]. simpl in Hl. lia. }
  assert (SK : skip (length pre) 0 teams = others) by (apply skip_split; reflexivity).
  assert (LO : (length others <= 50)%nat). { unfold teams, others in *. rewrite app_length in *. simpl in HL. lia. }
  pose proof (inner_ap L n cfg (length pre) t r HE Hn U NB teams) as I. cbv zeta in I. rewrite SK in I. fold beta in I.
  destruct I as [AO [AD [BO BD]]].
  { intros y Hy. split; [|exact (proj1 (Forall_forall _ _) HS y Hy)]. apply (proj1 (Forall_forall _ _) HU y). unfold teams, others in *. apply in_app_or in Hy. apply in_or_app. destruct Hy; [left|right; right]; auto. }
  { exact LO. }
  set (res := wl_inner _ _ _ _ _ _) in *. destruct (team_ap L n t Hn U) as [_ [_ [BV RV]]]. pose proof (wle_rng n Hn) as BW.
  pose proof (update_ap L n (length others) cfg t _ _ _ _ _ (wle n) Hn LO ltac:(lra) U NK (rl_51 n _ _ Hn RV) BV AO AD BO BD) as UC. cbv zeta in UC. fold kappa in UC.
  eexists. split.
  - unfold weng_lin_multi_team. assert (I1 : is_empty teams = false) by (unfold teams; destruct pre; reflexivity).
    assert (I2 : existsb (fun t => is_empty (fst t)) teams = false).
    { clear -HU. induction HU as [|x l [NE _] _ IH]; [reflexivity|]. cbn [existsb]. rewrite IH. destruct (fst x); [congruence|reflexivity]. }
    rewrite I1, I2. cbv zeta. rewrite nth_error_map. rewrite nth_enumerate. unfold teams at 2. rewrite nth_error_app2, Nat.sub_diag by lia. cbn [nth_error option_map Nat.add].
    reflexivity.
  - unfold mto_new. unfold wl_info at 1. cbn [fst snd]. fold res. rewrite (surjective_pairing res).
    assert (EQ : wl_team' beta kappa T r (map (fun x => (map wl_re (fst x), mto_rank_field (snd x))) others) =
      map (wl_player kappa (wl_s2 T) (Rsum (map (fun y => xdelta beta (T, r) (wl_rx y)) others)) (Rsum (map (fun y => xeta beta (T, r) (wl_rx y)) others))) T).
    { unfold wl_team'. rewrite !map_map. reflexivity. }
    rewrite EQ. exact UC.
Qed.
