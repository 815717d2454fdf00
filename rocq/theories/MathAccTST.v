(** Sums over TrueSkill teams in double precision. *)
From Coq Require Import ZArith NArith List Bool Reals Lra Lia Psatz.
From Flocq Require Import Core.Core IEEE754.BinarySingleNaN.
From Verif Require Import Arith XR B64 ModelLib ModelTS Spec SpecNormal SpecTSN SpecB64 SpecAcc SpecAcc6 Tac MathB64 ProofB64 ProofB64b ProofB64c MathB64b MathAcc MathAcc2 ProofAcc ProofAcc2 MathRel MathAccWL.
Import Spec ListNotations.
Local Open Scope R_scope.
#[local] Opaque Bplus Bminus Bmult Bdiv Bfma Bsqrt Bopp Babs b64_max b64_min b64_of_Z b64_lit.

Lemma nn_rng n : (1 <= n <= 50)%nat -> 1 <= INR n <= 50.
Proof. intros Hn. split; [apply (le_INR 1); lia|]. replace 50 with (INR 50) by (rewrite INR_IZR_INZ; reflexivity). apply le_INR; lia. Qed.
Lemma usual_n n M t : tst_size n M -> tst_usual n M t -> (1 <= n <= 50)%nat /\ (1 <= length t <= n)%nat.
Proof. intros [H _] [NE [Hl _]]. destruct t; [congruence|]. simpl in *. lia. Qed.
Lemma Rsum_abs (X : Type) (F : X -> R) M l : Forall (fun x => Rabs (F x) <= M) l -> Rabs (Rsum (map F l)) <= INR (length l) * M.
Proof.
  induction 1 as [|x l H HF IH]; [simpl; rewrite Rabs_R0; lra|]. cbn [map length]. change (Rsum (F x :: map F l)) with (F x + Rsum (map F l)). rewrite S_INR.
  eapply Rle_trans; [apply Rabs_triang|]. lra.
Qed.
Lemma var_sq t : tst_var t = Rsum (map (fun p => B2R (ts_uncertainty p) * B2R (ts_uncertainty p)) t).
Proof. unfold tst_var. f_equal. apply map_ext. intros; ring. Qed.
Lemma tst_ap L n M t : tst_size n M -> tst_usual n M t ->
  ap (ts_team_rating (A := B64A L) t) (tst_sum t) (122 / 10 ^ 18 * (INR n ^ 2 * M)) /\ Rabs (tst_sum t) <= INR n * M /\
  rl (ts_team_uncertainty_sq (A := B64A L) t) (tst_var t) (51 * v0) /\ / 10 ^ 6 <= tst_var t <= 5 * 10 ^ 5.
Proof.
  intros HZ HU. destruct (usual_n n M t HZ HU) as [Hn Hl]. destruct HZ as [_ [BM HZ]]. destruct HU as [NE [_ HF]]. pose proof (nn_rng n Hn) as BN.
  assert (Hl' : INR (length t) <= INR n) by (apply le_INR; lia). rewrite var_sq. pose proof (pos_INR (length t)) as L0.
  assert (BS : / 10 ^ 6 <= Rsum (map (fun p => B2R (ts_uncertainty p) * B2R (ts_uncertainty p)) t) <= 5 * 10 ^ 5).
  { split.
    - apply Rsum_ge1; [exact NE|]. eapply Forall_impl; [|exact HF]. intros p [_ [_ B]]. exact (sq_both _ B).
    - apply Rle_trans with (INR (length t) * 10 ^ 4); [|apply Rle_trans with (50 * 10 ^ 4); [apply Rmult_le_compat_r; lra|lra]]. apply Rsum_le. eapply Forall_impl; [|exact HF]. intros p [_ [_ B]]. exact (proj2 (sq_rng _ B)). }
  split; [|split; [|split; [|exact BS]]].
  - pose proof (fsumN (TrueSkillRating B64) L (fun p => ts_rating p) (fun p => B2R (ts_rating p)) M (INR n) t ltac:(lra) ltac:(lra)) as H.
    assert (G : ap (ts_team_rating (A := B64A L) t) (tst_sum t) (INR n * (u0 * (1.01 * INR n * M)))).
    { apply H; [|exact Hl']. eapply Forall_impl; [|exact HF]. intros p [B _]. destruct (num_ap _ _ _ B) as [A B']. split; [exact A|apply Rabs_le; lra]. }
    apply (ap_weak _ _ _ _ G). replace (INR n * (u0 * (1.01 * INR n * M))) with (u0 * 1.01 * (INR n ^ 2 * M)) by ring.
    apply Rmult_le_compat_r; [apply Rmult_le_pos; [apply pow2_ge_0|lra]|]. ulra.
  - apply Rle_trans with (INR (length t) * M); [|apply Rmult_le_compat_r; lra]. apply Rsum_abs. eapply Forall_impl; [|exact HF]. intros p [B _]. destruct (num_ap _ _ _ B) as [_ B']. apply Rabs_le; exact B'.
  - apply (fsumP (TrueSkillRating B64) L (fun p => Bmult mode_NE (ts_uncertainty p) (ts_uncertainty p)) _ v0 _ (B754_zero true)); [left; reflexivity|unfold v0; lra|exact NE|match type of BS with / 10 ^ 6 <= ?x <= _ => apply (BS200 x BS) end| |lra| |unfold v0; lra].
    + eapply Forall_impl; [|exact HF]. intros p [_ B]. destruct (num_ap _ _ _ B) as [A B']. apply sq_rl; auto.
    + assert (INR (length t) * v0 <= 50 * v0) by (apply Rmult_le_compat_r; [unfold v0|]; lra). lra.
Qed.
(** every player's squared uncertainty is part of the sum *)
Lemma Rsum_in (X : Type) (F : X -> R) l x : In x l -> Forall (fun y => 0 <= F y) l -> F x <= Rsum (map F l).
Proof.
  induction l as [|y l IH]; intros HI HF; [contradiction|]. inversion HF as [|? ? H1 H2]; subst. cbn [map]. change (Rsum (F y :: map F l)) with (F y + Rsum (map F l)).
  assert (P : 0 <= Rsum (map F l)). { clear - H2. induction H2; [simpl; lra|]. cbn [map]. change (0 <= F x + Rsum (map F l)). lra. }
  destruct HI as [-> |HI]; [lra|]. specialize (IH HI H2). lra.
Qed.
Lemma var_in t p : In p t -> B2R (ts_uncertainty p) ^ 2 <= tst_var t.
Proof. intros H. apply (Rsum_in _ (fun p => B2R (ts_uncertainty p) ^ 2) t p H). apply Forall_forall. intros; apply pow2_ge_0. Qed.

(** the two ways of computing c *)
Lemma tc_rng N BT V1 V2 : 2 <= N <= 2500 -> 1 <= BT <= 100 -> / 10 ^ 6 <= V1 <= 5 * 10 ^ 5 -> / 10 ^ 6 <= V2 <= 5 * 10 ^ 5 ->
  let C := sqrt (N * BT ^ 2 + V1 + V2) in 1.41 <= C <= 6000 /\ C ^ 2 = N * BT ^ 2 + V1 + V2 /\ sqrt N * BT <= C.
Proof.
  intros BN Bb B1 B2 C. assert (Q3 : 1 <= BT ^ 2 <= 10000) by nra. assert (Q : 2 <= N * BT ^ 2 <= 2500 * 10000) by nra. set (X := N * BT ^ 2 + V1 + V2) in *.
  assert (BX : 2 <= X <= 26100000) by (unfold X; lra). assert (CC : C * C = X) by (apply sqrt_sqrt; lra). assert (C0 : 0 < C) by (apply sqrt_lt_R0; lra).
  split; [split; apply Rsqr_incr_0_var; unfold Rsqr; lra|]. split; [simpl; lra|].
  replace (sqrt N * BT) with (sqrt (N * BT ^ 2)); [apply sqrt_le_1_alt; unfold X; lra|]. rewrite sqrt_mult by lra. rewrite sqrt_pow2 by lra. reflexivity.
Qed.
Lemma tcs_ap b BT nn v1 v2 N V1 V2 : ap b BT 0 -> 1 <= BT <= 100 -> ap nn N 0 -> 2 <= N <= 2500 -> rl v1 V1 (51 * v0) -> rl v2 V2 (51 * v0) ->
  / 10 ^ 6 <= V1 <= 5 * 10 ^ 5 -> / 10 ^ 6 <= V2 <= 5 * 10 ^ 5 ->
  let C := sqrt (N * BT ^ 2 + V1 + V2) in
  ap (Bsqrt mode_NE (Bfma mode_NE nn (Bmult mode_NE b b) (Bplus mode_NE v1 v2))) C (66 / 10 ^ 16 * C) /\
  ap (Bsqrt mode_NE (Bplus mode_NE v2 (Bfma mode_NE nn (Bmult mode_NE b b) v1))) C (66 / 10 ^ 16 * C) /\
  rl (Bplus mode_NE (Bfma mode_NE nn (Bmult mode_NE b b) v1) v2) (C ^ 2) (53 * v0).
Proof.
  intros Ab Bb An BN R1 R2 B1 B2 C. destruct (tc_rng N BT V1 V2 BN Bb B1 B2) as (BC & CC & _). fold C in BC, CC. assert (V0 : 0 < v0 < / 10 ^ 15) by (unfold v0; lra).
  assert (Q3 : 1 <= BT * BT <= 10000) by nra. assert (Q : 2 <= N * (BT * BT) <= 2500 * 10000) by nra.
  pose proof (rl_exact _ _ Ab ltac:(lra)) as Eb. pose proof (rl_exact _ _ An ltac:(lra)) as En. pose proof (rl_mul _ _ _ _ _ _ v0 Eb Eb ltac:(lra) ltac:(lra) ltac:(lra)) as EB.
  pose proof (rl_add _ _ _ _ _ _ (52 * v0) R1 R2 ltac:(lra) ltac:(rewrite Rmax_left by lra; lra) ltac:(lra)) as ES.
  pose proof (rl_fma _ _ _ _ _ _ _ _ _ (53 * v0) En EB ES ltac:(lra) ltac:(lra) ltac:(lra) ltac:(lra)) as EX. apply (rl_eq _ _ (N * BT ^ 2 + V1 + V2)) in EX; [|ring].
  pose proof (rl_fma _ _ _ _ _ _ _ _ _ (52 * v0) En EB R1 ltac:(lra) ltac:(lra) ltac:(lra) ltac:(lra)) as EF.
  pose proof (rl_add _ _ _ _ _ _ (53 * v0) R2 EF ltac:(lra) ltac:(rewrite Rmax_right by lra; lra) ltac:(lra)) as EY. apply (rl_eq _ _ (N * BT ^ 2 + V1 + V2)) in EY; [|ring].
  pose proof (rl_add _ _ _ _ _ _ (53 * v0) EF R2 ltac:(lra) ltac:(rewrite Rmax_left by lra; lra) ltac:(lra)) as EZ. apply (rl_eq _ _ (C ^ 2)) in EZ; [|rewrite CC; ring].
  assert (BC' : / 10 ^ 29 <= C <= 10 ^ 29) by lra. assert (W : 54 * v0 * C <= 66 / 10 ^ 16 * C) by (apply Rmult_le_compat_r; unfold v0; lra).
  split; [|split; [|exact EZ]].
  - apply (rl_ap _ _ (54 * v0)); [|exact W]. exact (rl_sqrt _ _ _ (54 * v0) EX BC' ltac:(lra) ltac:(lra)).
  - apply (rl_ap _ _ (54 * v0)); [|exact W]. exact (rl_sqrt _ _ _ (54 * v0) EY BC' ltac:(lra) ltac:(lra)).
Qed.
(** the difference of two teams' ratings *)
Lemma tdiff_ap L n M t1 t2 : tst_size n M -> tst_usual n M t1 -> tst_usual n M t2 ->
  ap (Bminus mode_NE (ts_team_rating (A := B64A L) t1) (ts_team_rating (A := B64A L) t2)) (tst_sum t1 - tst_sum t2) (12 / 10 ^ 12).
Proof.
  intros HZ U1 U2. destruct (usual_n n M t1 HZ U1) as [Hn _]. pose proof (nn_rng n Hn) as BN. destruct (tst_ap L n M t1 HZ U1) as (A1 & B1 & _). destruct (tst_ap L n M t2 HZ U2) as (A2 & B2 & _). destruct HZ as [_ [BM HZ]].
  assert (P : INR n * M <= 6500). { destruct (Rle_dec (INR n) 6.5) as [H|H]; [apply Rle_trans with (6.5 * 1000); [apply Rmult_le_compat; lra|lra]|]. assert (6.5 * (INR n * M) <= INR n * (INR n * M)) by (apply Rmult_le_compat_r; [apply Rmult_le_pos|]; lra). simpl in HZ. lra. }
  assert (P0 : 1 <= INR n ^ 2 * M). { assert (1 <= INR n ^ 2) by nra. nra. } assert (U0 : 0 < u0 <= 12 / 10 ^ 17) by ulra.
  pose proof (ap_sub _ _ _ _ _ _ 13001 A1 A2) as H. apply Rabs_le_inv in B1, B2.
  apply (ap_weak _ _ (122 / 10 ^ 18 * (INR n ^ 2 * M) + 122 / 10 ^ 18 * (INR n ^ 2 * M) + u0 * 13001)); [|lra].
  apply H; [|okb]. apply Rle_trans with (13000 + (122 / 10 ^ 18 * (INR n ^ 2 * M) + 122 / 10 ^ 18 * (INR n ^ 2 * M))); [apply Rplus_le_compat_r; apply Rabs_le; lra|lra].
Qed.
Lemma total_ap L (t1 t2 : list (TrueSkillRating B64)) : (length t1 + length t2 <= 2500)%nat -> ap (ts_total_players (A := B64A L) t1 t2) (INR (length t1 + length t2)) 0.
Proof. intros H. rewrite INR_IZR_INZ. apply ap_Z. lia. Qed.
