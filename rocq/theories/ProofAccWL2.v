(** Expected scores of Weng-Lin in double precision. *)
From Coq Require Import ZArith NArith List Bool Reals Lra Lia Psatz.
From Flocq Require Import Core.Core IEEE754.BinarySingleNaN.
From Verif Require Import Arith XR B64 ModelLib ModelWengLin Spec SpecB64 SpecAcc SpecAcc5 Tac MathB64 ProofB64 ProofB64b ProofB64c MathB64b ProofB64d MathAcc MathAcc2 ProofWengLin ProofAcc ProofAcc2 MathRel MathAccWL ProofAccWL.
Import Spec ListNotations.
Local Open Scope R_scope.
#[local] Opaque Bplus Bminus Bmult Bdiv Bfma Bsqrt Bopp Babs b64_max b64_min b64_of_Z b64_lit.

Lemma C118_expected_proof : forall (L : Libm) (p1 p2 : WengLinRating B64) (cfg : WengLinConfig B64), exp_accurate L ->
  num_in (- 500) 500 (wl_rating p1) -> num_in (/ 1000) 100 (wl_uncertainty p1) -> num_in (- 500) 500 (wl_rating p2) -> num_in (/ 1000) 100 (wl_uncertainty p2) ->
  num_in 1 100 (wl_beta cfg) ->
  let m1 := B2R (wl_rating p1) in let s1 := B2R (wl_uncertainty p1) in let m2 := B2R (wl_rating p2) in let s2 := B2R (wl_uncertainty p2) in
  let c := wlc (B2R (wl_beta cfg)) (s1 ^ 2) (s2 ^ 2) in let e := wl_expected_score (A := B64A L) p1 p2 cfg in
  near (fst e) (wlp m1 m2 c) (/ 10 ^ 12) /\ near (snd e) (wlp m2 m1 c) (/ 10 ^ 12).
Proof.
  intros L [r1 u1] [r2 u2] [b kap] HE N1 M1 N2 M2 NB. cbn [wl_rating wl_uncertainty wl_beta wl_uncertainty_tolerance] in *. cbv zeta.
  destruct (num_ap _ _ _ N1) as [A1 B1]. destruct (num_ap _ _ _ N2) as [A2 B2]. destruct (num_ap _ _ _ M1) as [D1 E1]. destruct (num_ap _ _ _ M2) as [D2 E2]. destruct (num_ap _ _ _ NB) as [Ab Bb].
  destruct (wc_ap b u1 u2 _ _ _ Ab D1 D2 Bb E1 E2) as [AC [BC [C1 C2]]]. set (C := wlc _ _ _) in *. set (c := wcB b u1 u2) in *.
  destruct (wp_ap L r1 r2 c _ _ C HE A1 A2 AC ltac:(apply Rabs_le; lra) ltac:(apply Rabs_le; lra) BC) as [AP BP]. pose proof (one_minus_ap _ _ _ AP ltac:(lra) ltac:(lra)) as AQ.
  split.
  - apply ap_near, (ap_weak _ _ _ _ AP). lra.
  - rewrite (wlp_compl _ _ C) by lra. apply ap_near, (ap_weak _ _ _ _ AQ). lra.
Qed.
Lemma C118_expected_two_proof : forall (L : Libm) (n : nat) (t1 t2 : list (WengLinRating B64)) (cfg : WengLinConfig B64),
  exp_accurate L -> (n <= 50)%nat -> wl_usual n t1 -> wl_usual n t2 -> num_in 1 100 (wl_beta cfg) ->
  let T1 := map wl_re t1 in let T2 := map wl_re t2 in let beta := B2R (wl_beta cfg) in
  wl_small beta T1 T2 -> let e := wl_expected_score_two_teams (A := B64A L) t1 t2 cfg in let c := wlc beta (wl_s2 T1) (wl_s2 T2) in
  near (fst e) (wlp (wl_theta T1) (wl_theta T2) c) (3 * (INR n ^ 2 + 3) / 10 ^ 13) /\
  near (snd e) (wlp (wl_theta T2) (wl_theta T1) c) (3 * (INR n ^ 2 + 3) / 10 ^ 13).
Proof.
  intros L n t1 t2 cfg HE Hn' U1 U2 NB T1 T2 beta SM e c. assert (Hn : (1 <= n <= 50)%nat). { destruct U1 as [NE [Hl _]]. destruct t1; [congruence|]. simpl in Hl. lia. }
  destruct (num_ap _ _ _ NB) as [Ab Bb]. fold beta in Ab, Bb.
  pose proof (side_ap L n t1 t2 (wl_beta cfg) beta HE Hn U1 U2 Ab Bb SM) as [_ [_ [_ [_ [_ [BC [_ [_ [AP BP]]]]]]]]]. fold T1 T2 in BC, AP, BP. fold c in BC, AP, BP.
  pose proof (wle_rng n Hn) as BW. pose proof (one_minus_ap _ _ _ AP ltac:(lra) ltac:(lra)) as AQ. unfold wle in *. split.
  - apply ap_near. apply (ap_weak _ _ _ _ AP). lra.
  - rewrite (wlp_compl _ _ c) by lra. apply ap_near. apply (ap_weak _ _ _ _ AQ). lra.
Qed.

(** many teams *)
Lemma Rsum_cons' x l : Rsum (x :: l) = x + Rsum l. Proof. reflexivity. Qed.
Lemma terms_le (X : Type) (F : X -> R) l : Forall (fun t => 0 < F t) l -> Forall (fun t => F t <= Rsum (map F l)) l.
Proof.
  induction 1 as [|t l P PX IH]; [constructor|]. pose proof (Rsum_nonneg _ F l PX) as N0. cbn [map]. rewrite Rsum_cons'. constructor; [lra|].
  eapply Forall_impl; [|exact IH]. cbv beta. intros; lra.
Qed.
Lemma C118_expected_multi_proof : forall (L : Libm) (n : nat) (ts : list (list (WengLinRating B64))) (cfg : WengLinConfig B64),
  let Ts := map (map wl_re) ts in let c := sqrt (Rsum (map wl_s2 Ts) + 2 * B2R (wl_beta cfg) ^ 2) in
  exp_accurate L -> (n <= 50)%nat -> (length ts <= 50)%nat -> Forall (wl_usual n) ts -> num_in 1 100 (wl_beta cfg) -> Forall (fun t => Rabs (wl_theta t) <= 400 * c) Ts ->
  Forall2 (fun T x => near x (exp (wl_theta T / c) / Rsum (map (fun T' => exp (wl_theta T' / c)) Ts)) ((INR n ^ 2 + 120) / 10 ^ 13)) Ts (wl_expected_score_multi_team (A := B64A L) ts cfg).
Proof.
  intros L n ts cfg Ts C HE Hn' Hk HU NB HS. assert (D : ts = [] \/ ts <> []) by (destruct ts; [left; reflexivity|right; discriminate]). destruct D as [-> |NE]; [constructor|].
  assert (Hn : (1 <= n <= 50)%nat). { destruct HU as [|t0 l [N0 [Hl _]] _]; [congruence|]. destruct t0; [congruence|]. simpl in Hl. lia. }
  destruct (num_ap _ _ _ NB) as [Ab Bb]. set (BT := B2R (wl_beta cfg)) in *. pose proof (n_rng n Hn) as BN. assert (V0 : 0 < v0 < / 10 ^ 15) by (unfold v0; lra).
  assert (Bk : 0 <= INR (length ts) <= 50). { split; [apply pos_INR|]. replace 50 with (INR 50) by (rewrite INR_IZR_INZ; reflexivity). apply le_INR; lia. }
  (* c *)
  set (F := fun t : list (WengLinRating B64) => wl_s2 (map wl_re t)). assert (ES : Rsum (map wl_s2 Ts) = Rsum (map F ts)) by (unfold Ts; rewrite map_map; reflexivity).
  assert (BS : / 10 ^ 6 <= Rsum (map F ts) <= 25 * 10 ^ 6).
  { split.
    - apply Rsum_ge1; [exact NE|]. eapply Forall_impl; [|exact HU]. intros t Ut. destruct (team_ap L n t Hn Ut) as [_ [_ [B _]]]. fold (F t) in B. lra.
    - apply Rle_trans with (INR (length ts) * (5 * 10 ^ 5)); [|apply Rle_trans with (50 * (5 * 10 ^ 5)); [apply Rmult_le_compat_r; lra|lra]]. apply Rsum_le. eapply Forall_impl; [|exact HU]. intros t Ut. destruct (team_ap L n t Hn Ut) as [_ [_ [B _]]]. fold (F t) in B. lra. }
  assert (RS : rl (fsum (A := B64A L) (map (fun t => wl_team_uncertainty_sq (A := B64A L) t) ts)) (Rsum (map F ts)) (102 * v0)).
  { assert (kv : INR (length ts) * v0 <= 50 * v0) by (apply Rmult_le_compat_r; lra).
    apply (fsumP (list (WengLinRating B64)) L (fun t => wl_team_uncertainty_sq (A := B64A L) t) F (52 * v0) _ (B754_zero true)); [left; reflexivity|lra|exact NE|okb| |lra|lra|lra].
    eapply Forall_impl; [|exact HU]. intros t Ut. destruct (team_ap L n t Hn Ut) as [_ [R _]]. exact R. }
  assert (Q3 : 1 <= BT * BT <= 10000) by nra. pose proof (rl_exact _ _ Ab ltac:(lra)) as Eb. pose proof (rl_mul _ _ _ _ _ _ v0 Eb Eb ltac:(lra) ltac:(lra) ltac:(lra)) as EB.
  pose proof (rl_fma _ _ _ _ _ _ _ _ _ (103 * v0) (rl_exact _ _ (ap_Z 2 ltac:(vm_compute; discriminate)) ltac:(lra)) EB RS ltac:(lra) ltac:(lra) ltac:(lra) ltac:(lra)) as EX.
  apply (rl_eq _ _ (Rsum (map wl_s2 Ts) + 2 * BT ^ 2)) in EX; [|rewrite ES; ring]. set (X := Rsum (map wl_s2 Ts) + 2 * BT ^ 2) in *. assert (BX : 2 <= X <= 25.1 * 10 ^ 6) by (unfold X; rewrite ES; lra).
  assert (CC : C * C = X) by (apply sqrt_sqrt; lra). assert (C0 : 0 < C) by (apply sqrt_lt_R0; lra). assert (BC : 1.41 <= C <= 6000) by (split; apply Rsqr_incr_0_var; unfold Rsqr; lra).
  assert (BC' : / 10 ^ 29 <= C <= 10 ^ 29) by lra. pose proof (rl_sqrt _ _ _ (104 * v0) EX BC' ltac:(lra) ltac:(lra)) as [_ [_ AC]]. fold C in AC.
  set (c := Bsqrt mode_NE _) in AC. assert (RCC : 104 * v0 * C <= 13 / 10 ^ 15 * C) by (apply Rmult_le_compat_r; unfold v0; lra). apply (ap_weak _ _ _ (13 / 10 ^ 15 * C)) in AC; [|exact RCC].
  (* exponentials *)
  assert (NS : 1 <= INR n ^ 2 <= 2500) by nra. set (q := INR n ^ 2) in *. set (a := 45 / 10 ^ 15 * q + 54 / 10 ^ 13).
  set (fx := fun t : list (WengLinRating B64) => l_exp L (Bdiv mode_NE (wl_team_rating (A := B64A L) t) c)). set (FX := fun t : list (WengLinRating B64) => exp (wl_theta (map wl_re t) / C)).
  assert (BA : 54 / 10 ^ 13 <= a <= 2 / 10 ^ 10) by (unfold a; lra).
  assert (HX : Forall (fun t => rl (fx t) (FX t) a /\ / 10 ^ 180 <= FX t <= 10 ^ 180) ts).
  { apply Forall_forall. intros t Ht. assert (Ut := proj1 (Forall_forall _ _) HU t Ht). assert (St : Rabs (wl_theta (map wl_re t)) <= 400 * C) by (apply (proj1 (Forall_forall _ _) HS); unfold Ts; apply in_map; exact Ht).
    destruct (team_ap L n t Hn Ut) as [A _]. fold q in A. unfold FX, fx. set (th := wl_theta (map wl_re t)) in *.
    assert (BY : Rabs (th / C) <= 400). { unfold Rdiv. rewrite Rabs_mult, (Rabs_pos_eq (/ C)) by (left; apply Rinv_0_lt_compat; lra). apply Rmult_le_reg_r with C; [lra|]. rewrite Rmult_assoc, Rinv_l by lra. lra. }
    assert (Ev : (61 / 10 ^ 15 * q + 400 * (13 / 10 ^ 15 * C)) / (99 / 100 * C) <= 44 / 10 ^ 15 * q + 400 * (13 / 10 ^ 15) * (100 / 99)).
    { apply Rmult_le_reg_r with (99 / 100 * C); [lra|]. unfold Rdiv at 1. rewrite Rmult_assoc, Rinv_l by lra. assert (q * 1.41 <= q * C) by (apply Rmult_le_compat_l; lra). lra. }
    pose proof (ap_div _ _ _ _ _ _ (99 / 100 * C) 400 401 A AC ltac:(lra) ltac:(rewrite Rabs_pos_eq; lra) BY ltac:(lra) ltac:(okb)) as D. apply (ap_weak _ _ _ (44 / 10 ^ 15 * q + 531 / 10 ^ 14)) in D; [|ulra].
    destruct (exp_ap L _ _ _ HE D BY ltac:(lra)) as [E1 G1]. split; [|exact G1]. split; [apply exp_pos|]. split; [lra|]. apply (ap_weak _ _ _ _ E1). apply Rmult_le_compat_r; [left; apply exp_pos|]. unfold a. lra. }
  set (x := Rsum (map FX ts)). assert (Ok : / 10 ^ 200 <= 1.01 * x <= 10 ^ 200).
  { assert (10 ^ 180 * 100 <= 10 ^ 200) by (replace (10 ^ 200) with (10 ^ 180 * 10 ^ 20) by (rewrite <- pow_add; reflexivity); apply Rmult_le_compat_l; [apply pow_le|]; lra).
    assert (/ 10 ^ 200 <= / 10 ^ 180) by (apply Rinv_le_contravar; [apply pow_lt; lra|apply Rle_pow; [lra|lia]]). assert (P180 : 0 < / 10 ^ 180) by (apply Rinv_0_lt_compat, pow_lt; lra).
    assert (/ 10 ^ 180 <= x) by (apply Rsum_ge1; [exact NE|]; eapply Forall_impl; [|exact HX]; intros t [_ B]; lra).
    assert (x <= INR (length ts) * 10 ^ 180) by (apply Rsum_le; eapply Forall_impl; [|exact HX]; intros t [_ B]; apply B).
    assert (INR (length ts) * 10 ^ 180 <= 50 * 10 ^ 180) by (apply Rmult_le_compat_r; [apply pow_le|]; lra). assert (0 < 10 ^ 180) by (apply pow_lt; lra). lra. }
  assert (RX : rl (fold_left (Bplus mode_NE) (map fx ts) (b64_of_Z 0)) x (1.01 * a)).
  { assert (kv : INR (length ts) * v0 <= 50 * v0) by (apply Rmult_le_compat_r; lra). unfold v0 in kv.
    apply (fsumP (list (WengLinRating B64)) L fx FX a _ (b64_of_Z 0)); [right; reflexivity|lra|exact NE|exact Ok| |lra|unfold v0; lra|lra]. eapply Forall_impl; [|exact HX]. intros t [R _]. exact R. }
  destruct RX as [X0 [_ AX]].
  assert (EE : wl_expected_score_multi_team (A := B64A L) ts cfg = map (fun t => Bdiv mode_NE (fx t) (fold_left (Bplus mode_NE) (map fx ts) (b64_of_Z 0))) ts).
  { unfold wl_expected_score_multi_team. cbv zeta. rewrite !map_map. reflexivity. }
  rewrite EE. set (sx := fold_left _ _ _) in *. assert (EXS : Rsum (map (fun T' => exp (wl_theta T' / C)) Ts) = x) by (unfold Ts, x, FX; rewrite map_map; reflexivity).
  fold C. rewrite EXS. unfold Ts.
  assert (LE : Forall (fun t => FX t <= x) ts).
  { apply (terms_le _ FX). apply Forall_forall; intros; apply exp_pos. }
  assert (G : forall t, In t ts -> near (Bdiv mode_NE (fx t) sx) (exp (wl_theta (map wl_re t) / C) / x) ((q + 120) / 10 ^ 13)).
  { intros t Ht. destruct (proj1 (Forall_forall _ _) HX t Ht) as [[P [_ A]] _]. assert (Lx := proj1 (Forall_forall _ _) LE t Ht). cbv beta in Lx. change (exp (wl_theta (map wl_re t) / C)) with (FX t).
    assert (BP : 0 < FX t / x <= 1). { split; [apply Rdiv_lt_0_compat; lra|]. apply Rmult_le_reg_r with x; [lra|]. unfold Rdiv. rewrite Rmult_assoc, Rinv_l by lra. lra. }
    assert (ax : a * FX t <= a * x) by (apply Rmult_le_compat_l; lra). assert (ax2 : 0 <= a * x <= / 10 ^ 4 * x) by (split; [apply Rmult_le_pos; lra|apply Rmult_le_compat_r; lra]).
    assert (Ev : (a * FX t + 1 * (1.01 * a * x)) / (99 / 100 * x) <= 2.04 * a). { apply Rmult_le_reg_r with (99 / 100 * x); [lra|]. unfold Rdiv at 1. rewrite Rmult_assoc, Rinv_l by lra. lra. }
    pose proof (ap_div _ _ _ _ _ _ (99 / 100 * x) 1 1.01 A AX ltac:(lra) ltac:(rewrite Rabs_pos_eq; lra) ltac:(rewrite Rabs_pos_eq; lra) ltac:(lra) ltac:(okb)) as D.
    apply ap_near, (ap_weak _ _ _ _ D). unfold a in *. ulra. }
  clear -G. assert (H : forall l, (forall t, In t l -> In t ts) -> Forall2 (fun T y => near y (exp (wl_theta T / C) / x) ((q + 120) / 10 ^ 13)) (map (map wl_re) l) (map (fun t => Bdiv mode_NE (fx t) sx) l)).
  { induction l as [|t l IH]; intros Hl; [constructor|]. constructor; [apply G, Hl; left; reflexivity|apply IH; intros; apply Hl; right; auto]. }
  apply H. auto.
Qed.
