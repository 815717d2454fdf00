(** Accuracy in double precision: TrueSkill expected scores of many TrueSkill teams, match quality of players. *)
From Coq Require Import ZArith NArith List Bool Reals Lra Lia Psatz.
From Flocq Require Import Core.Core IEEE754.BinarySingleNaN.
From Verif Require Import Arith XR B64 ModelLib ModelWengLin ModelTS Spec SpecTS SpecNormal SpecTSN SpecB64 SpecAcc SpecAcc6 Tac MathB64 ProofB64 ProofB64b ProofB64c MathB64b ProofB64f MathAcc MathAcc2 MathAccR MathTS MathTSW MathTSInv MathTSStart MathTSAcc MathTSDraw MathTSNorm MathTSNorm2 MathTSLip MathTSLip2 ProofBoost2 ProofTS ProofTSAcc ProofTSDraw ProofTSNorm ProofAcc ProofAcc2 ProofAcc3 ProofAccTS ProofAccTS2 ProofAccTS3 ProofAccTS4 MathRel MathAccWL MathAccTST ProofAccWL2 ProofAccTST ProofAccTST2.
Import Spec ListNotations.
Local Open Scope R_scope.
#[local] Opaque Bplus Bminus Bmult Bdiv Bfma Bsqrt Bopp Babs b64_max b64_min b64_of_Z b64_lit.

Lemma flat_filter {X Y} (p : X -> bool) (g : X -> Y) l : flat_map (fun x => if p x then [] else [g x]) l = map g (filter (fun x => negb (p x)) l).
Proof. induction l as [|x l IH]; [reflexivity|]. cbn [flat_map filter]. destruct (p x); cbn [negb map app]; rewrite IH; reflexivity. Qed.
Lemma concat_pairs {X Y Z} (g : X -> Y -> Z) (J : X -> list Y) l : concat (map (fun x => map (g x) (J x)) l) = map (fun p => g (fst p) (snd p)) (flat_map (fun x => map (pair x) (J x)) l).
Proof. induction l as [|x l IH]; [reflexivity|]. cbn [map concat flat_map]. rewrite IH, map_app, map_map. reflexivity. Qed.
Lemma sum_pairs {X Y} (F : X -> Y -> R) (J : X -> list Y) l : Rsum (map (fun p => F (fst p) (snd p)) (flat_map (fun x => map (pair x) (J x)) l)) = Rsum (map (fun x => Rsum (map (F x) (J x))) l).
Proof. induction l as [|x l IH]; [reflexivity|]. cbn [map flat_map]. rewrite map_app, Rsum_app, map_map, IH. reflexivity. Qed.
Lemma sum_filter (F : nat -> R) i l : Rsum (map F (filter (fun j => negb (Nat.eqb i j)) l)) = Rsum (map (fun j => if Nat.eqb i j then 0 else F j) l).
Proof.
  induction l as [|j l IH]; [reflexivity|]. cbn [map filter]. destruct (Nat.eqb i j); cbn [negb map]; rewrite Rsum_cons', IH; [ring|]. rewrite Rsum_cons'. reflexivity.
Qed.
Lemma side_re t : side_mu (map ts_re t) = tst_sum t /\ side_var (map ts_re t) = tst_var t.
Proof. unfold side_mu, side_var, tst_sum, tst_var. rewrite !map_map. split; reflexivity. Qed.
Lemma Ncdf_low T : Rabs T <= 22 -> / 10 ^ 158 <= Ncdf T.
Proof.
  intros BT. pose proof (hz_range (- T) ltac:(rewrite Rabs_Ropp; lra)) as HZ. pose proof (Ntl_pos (- T)) as NP. assert (E : phi T = hz (- T) * Ntl (- T)) by (unfold hz; rewrite phi_even; field; lra).
  unfold Ntl in E, NP. rewrite Ncdf_neg in E, NP. replace (1 - (1 - Ncdf T)) with (Ncdf T) in E, NP by ring.
  assert (PN : phi T <= 27 * Ncdf T) by (rewrite E; apply Rmult_le_compat_r; lra).
  assert (T2 : T ^ 2 <= 680). { rewrite <- (pow2_abs T). pose proof (Rabs_pos T). assert (Rabs T ^ 2 <= 22 ^ 2) by (apply pow_incr; lra). lra. }
  pose proof (phi_far T T2) as PF. assert (X3 : / 10 ^ 156 = 100 * / 10 ^ 158). { replace (10 ^ 158) with (100 * 10 ^ 156) by (replace 100 with (10 ^ 2) by lra; rewrite <- pow_add; reflexivity). rewrite Rinv_mult by (try apply pow_nonzero; lra). field. }
  unfold Rdiv in PF. rewrite X3 in PF. assert (P : 0 < / 10 ^ 158) by (apply Rinv_0_lt_compat, pow_lt; lra). set (y := / 10 ^ 158) in *. lra.
Qed.
Lemma C119_expected_multi_proof : forall L (n : nat) M (ts : list (list (TrueSkillRating B64))) (dp beta tau : B64), exp_accurate L ->
  tst_size n M -> Forall (tst_usual n M) ts -> (2 <= length ts <= 30)%nat -> num_in 1 100 beta ->
  let b := B2R beta in let N := INR (list_sum (map (@length _) ts)) in let k := INR (length ts) in
  (forall t t', In t ts -> In t' ts -> Rabs (tst_sum t - tst_sum t') <= 22 * tst_c N b t t') ->
  Forall2 (fun i e => let q := rowN b (map (map ts_re) ts) i / (k * (k - 1) / 2) in near e q (0.000021 * q))
    (seq 0 (length ts)) (ts_expected_score_multi_team (A := B64A L) ts (mkTSConfig dp beta tau)).
Proof.
  intros L n M ts dp beta tau HE HZ HU Hk Hb b N k HD. destruct (num_ap _ _ _ Hb) as [Ab Bb]. fold b in Ab, Bb. assert (V0 : 0 < v0 < / 10 ^ 15) by (unfold v0; lra).
  set (K := length ts) in *. set (Ts := map (map ts_re) ts). assert (KT : length Ts = K) by (unfold Ts; apply map_length).
  assert (LS : (list_sum (map (@length _) ts) <= 50 * K)%nat /\ (K <= list_sum (map (@length _) ts))%nat).
  { unfold K. clear - HU HZ. induction HU as [|t l Ht HU IH]; [simpl; lia|]. destruct (usual_n n M t HZ Ht) as [H1 H2]. cbn [map length]. change (list_sum (length t :: map (@length _) l)) with (length t + list_sum (map (@length _) l))%nat. lia. }
  set (cnt := list_sum (map (@length _) ts)) in *.
  assert (BN : 2 <= N <= 2500). { unfold N. split; [apply (le_INR 2); lia|]. replace 2500 with (INR 2500) by (rewrite INR_IZR_INZ; reflexivity). apply le_INR; lia. }
  assert (An : ap (b64_of_Z (Z.of_nat cnt)) N 0) by (unfold N; rewrite INR_IZR_INZ; apply ap_Z; lia). set (nb := b64_of_Z (Z.of_nat cnt)) in *.
  set (J := fun i => filter (fun j => negb (Nat.eqb i j)) (seq 0 K)).
  set (f := fun i j => cdfB L (Bdiv mode_NE (Bminus mode_NE (ts_team_rating (A := B64A L) (nth i ts [])) (ts_team_rating (A := B64A L) (nth j ts [])))
    (Bsqrt mode_NE (Bplus mode_NE (ts_team_uncertainty_sq (A := B64A L) (nth j ts [])) (Bfma mode_NE nb (Bmult mode_NE beta beta) (ts_team_uncertainty_sq (A := B64A L) (nth i ts []))))))).
  set (F := fun i j => pairN b Ts i j). set (PS := flat_map (fun i => map (pair i) (J i)) (seq 0 K)).
  set (tot := fold_left (Bplus mode_NE) (map (fun p : nat * nat => f (fst p) (snd p)) PS) (b64_of_Z 0)).
  assert (ER : ts_expected_score_multi_team (A := B64A L) ts (mkTSConfig dp beta tau) = map (fun i => Bdiv mode_NE (fold_left (Bplus mode_NE) (map (f i) (J i)) (B754_zero true)) tot) (seq 0 K)).
  { unfold ts_expected_score_multi_team. cbv zeta. set (W := map _ (enumerate ts)).
    assert (EW : W = map (fun i => map (f i) (J i)) (seq 0 K)).
    { unfold W. rewrite (enumerate_nth []), map_map. apply map_ext. intros i. cbn [fst snd]. unfold ts_win_probabilities. rewrite (enumerate_nth []). unfold J. fold K.
      rewrite <- (flat_filter (fun j => Nat.eqb i j) (f i)). clear. induction (seq 0 K) as [|j l IH]; [reflexivity|]. cbn [map flat_map]. rewrite IH. f_equal. }
    rewrite EW, concat_pairs. fold PS. rewrite map_map. reflexivity. }
  (* every entry *)
  assert (HF : forall i j, In i (seq 0 K) -> In j (seq 0 K) -> rl (f i j) (F i j) 0.0000104 /\ / 10 ^ 158 <= F i j <= 1).
  { intros i j Hi Hj. apply in_seq in Hi, Hj. assert (Ii : In (nth i ts []) ts) by (apply nth_In; unfold K in *; lia). assert (Ij : In (nth j ts []) ts) by (apply nth_In; unfold K in *; lia).
    assert (Ui := proj1 (Forall_forall _ _) HU _ Ii). assert (Uj := proj1 (Forall_forall _ _) HU _ Ij). specialize (HD _ _ Ii Ij).
    unfold F, pairN. cbv zeta. unfold Ts. rewrite !(map_nth (map ts_re) ts []). destruct (side_re (nth i ts [])) as [-> ->]. destruct (side_re (nth j ts [])) as [-> ->].
    replace (list_sum (map (@length _) (map (map ts_re) ts))) with cnt by (unfold cnt; rewrite map_map; f_equal; apply map_ext; intros; symmetry; apply map_length). fold N.
    unfold f. set (ti := nth i ts []) in *. set (tj := nth j ts []) in *. fold (tst_c N b ti tj). destruct (tst_ap L n M ti HZ Ui) as (_ & _ & R1 & V1). destruct (tst_ap L n M tj HZ Uj) as (_ & _ & R2 & V2).
    destruct (tcs_ap _ b _ _ _ N _ _ Ab Bb An BN R1 R2 V1 V2) as (_ & C2 & _). destruct (tc_rng N b _ _ BN Bb V1 V2) as (BC & _ & _). fold (tst_c N b ti tj) in C2, BC.
    destruct (win_ap L _ _ _ _ HE (tdiff_ap L n M ti tj HZ Ui Uj) C2 (proj1 BC) HD) as (X1 & _ & BT). pose proof (Ncdf_low _ BT) as NL. pose proof (Ncdf_range ((tst_sum ti - tst_sum tj) / tst_c N b ti tj)) as NR.
    split; [|lra]. split; [lra|]. split; [lra|exact X1]. }
  assert (JS : forall i j, In j (J i) -> In j (seq 0 K)) by (intros i j H; apply filter_In in H; apply H).
  assert (JL : forall i, (length (J i) <= K)%nat). { intros i. unfold J. rewrite <- (seq_length K 0) at 2. generalize (seq 0 K). clear. induction l as [|j l IH]; [simpl; lia|]. cbn [filter]. destruct (negb _); simpl; lia. }
  assert (JN : forall i, J i <> []).
  { intros i E. assert (In (if Nat.eqb i 0 then 1%nat else 0%nat) (J i)); [|rewrite E in H; contradiction]. unfold J. apply filter_In. destruct (Nat.eqb_spec i 0) as [-> |H]; (split; [apply in_seq; lia|]); [reflexivity|]. apply negb_true_iff, Nat.eqb_neq. exact H. }
  assert (P158 : 0 < / 10 ^ 158) by (apply Rinv_0_lt_compat, pow_lt; lra). assert (T158 : / 10 ^ 200 <= / 10 ^ 158) by (apply Rinv_le_contravar; [apply pow_lt; lra|apply Rle_pow; [lra|lia]]). assert (T200 : 10 ^ 4 <= 10 ^ 200) by (apply Rle_pow; [lra|lia]).
  assert (Bk : 2 <= k <= 30). { unfold k. split; [apply (le_INR 2); lia|]. replace 30 with (INR 30) by (rewrite INR_IZR_INZ; reflexivity). apply le_INR; lia. }
  (* rows *)
  assert (ROW : forall i, In i (seq 0 K) -> rl (fold_left (Bplus mode_NE) (map (f i) (J i)) (B754_zero true)) (rowN b Ts i) 0.00001041 /\ / 10 ^ 158 <= rowN b Ts i).
  { intros i Hi. assert (EQ : rowN b Ts i = Rsum (map (F i) (J i))). { unfold rowN, F, J. rewrite sum_filter. rewrite KT. reflexivity. }
    rewrite EQ. assert (LO : / 10 ^ 158 <= Rsum (map (F i) (J i))). { apply Rsum_ge1; [apply JN|]. apply Forall_forall. intros j Hj. destruct (HF i j Hi (JS i j Hj)) as [_ B]. lra. }
    split; [|exact LO]. assert (JR : 0 <= INR (length (J i)) <= 30) by (split; [apply pos_INR|]; replace 30 with (INR 30) by (rewrite INR_IZR_INZ; reflexivity); apply le_INR; specialize (JL i); lia).
    assert (HI : Rsum (map (F i) (J i)) <= INR (length (J i)) * 1). { apply Rsum_le. apply Forall_forall. intros j Hj. destruct (HF i j Hi (JS i j Hj)) as [_ B]. lra. }
    assert (JV : INR (length (J i)) * v0 <= 30 * v0) by (apply Rmult_le_compat_r; lra).
    apply (fsumP nat L (f i) (F i) 0.0000104); [left; reflexivity|lra|apply JN|lra| |lra|lra|lra]. apply Forall_forall. intros j Hj. exact (proj1 (HF i j Hi (JS i j Hj))). }
  (* the total *)
  assert (PL : (length PS <= K * K)%nat).
  { assert (PG : forall l, (length (flat_map (fun i => map (pair i) (J i)) l) <= length l * K)%nat).
    { clearbody J K. clear - JL. induction l as [|i l IH]; [simpl; lia|]. cbn [flat_map length]. rewrite app_length, map_length. specialize (JL i). lia. }
    specialize (PG (seq 0 K)). rewrite seq_length in PG. exact PG. }
  assert (PI : forall p, In p PS -> In (fst p) (seq 0 K) /\ In (snd p) (seq 0 K)). { intros [i j] H. unfold PS in H. apply in_flat_map in H as (i' & Hi & H). apply in_map_iff in H as (j' & E & Hj). injection E as <- <-. split; [exact Hi|apply (JS i' j' Hj)]. }
  assert (TE : Rsum (map (fun p => F (fst p) (snd p)) PS) = k * (k - 1) / 2).
  { unfold PS. rewrite sum_pairs. rewrite (map_ext _ (rowN b Ts)). 2:{ intros i. unfold rowN, F, J. rewrite sum_filter. rewrite KT. reflexivity. }
    pose proof (totalN b Ts) as TN. rewrite KT in TN. rewrite TN. rewrite minus_INR by lia. unfold k. simpl. reflexivity. }
  assert (T1 : 1 <= k * (k - 1) / 2 <= 435) by nra.
  assert (TOT : rl tot (k * (k - 1) / 2) 0.00001041).
  { rewrite <- TE. assert (BL : 0 <= INR (length PS) <= 900) by (split; [apply pos_INR|]; replace 900 with (INR 900) by (rewrite INR_IZR_INZ; reflexivity); apply le_INR; nia). assert (JV : INR (length PS) * v0 <= 900 * v0) by (apply Rmult_le_compat_r; lra).
    unfold tot. apply (fsumP (nat * nat) L (fun p => f (fst p) (snd p)) (fun p => F (fst p) (snd p)) 0.0000104); [right; reflexivity|lra| |rewrite TE; lra| |lra|unfold v0 in *; lra|lra].
    - intros E. rewrite E in TE. simpl in TE. lra.
    - apply Forall_forall. intros p Hp. destruct (PI p Hp) as [H1 H2]. exact (proj1 (HF _ _ H1 H2)). }
  rewrite ER. set (T := k * (k - 1) / 2) in *. destruct TOT as [_ [_ AT]].
  assert (G : forall i, In i (seq 0 K) -> near (Bdiv mode_NE (fold_left (Bplus mode_NE) (map (f i) (J i)) (B754_zero true)) tot) (rowN b Ts i / T) (0.000021 * (rowN b Ts i / T))).
  { intros i Hi. destruct (ROW i Hi) as [[P [_ A]] LO]. set (r := rowN b Ts i) in *. set (q := r / T).
    assert (EQ : r = q * T) by (unfold q; field; lra). assert (Q0 : 0 < q) by (apply Rdiv_lt_0_compat; lra).
    assert (r <= q * 435) by (rewrite EQ; apply Rmult_le_compat_l; lra).
    assert (RT : r <= k). { assert (EQ' : r = Rsum (map (F i) (J i))). { unfold r, rowN, F, J. rewrite sum_filter. rewrite KT. reflexivity. } rewrite EQ'.
      apply Rle_trans with (INR (length (J i)) * 1); [apply Rsum_le; apply Forall_forall; intros j Hj; destruct (HF i j Hi (JS i j Hj)) as [_ B]; lra|]. rewrite Rmult_1_r. apply le_INR. apply JL. }
    assert (QU : q <= r). { unfold q. apply Rmult_le_reg_r with T; [lra|]. unfold Rdiv. rewrite Rmult_assoc, Rinv_l by lra. apply Rmult_le_compat_l; lra. }
    assert (Ev : (0.00001041 * r + q * (0.00001041 * T)) / (0.9999 * T) = 0.00001041 * 2 / 0.9999 * q) by (rewrite EQ; field; lra).
    assert (U0 : 0 < u0 <= 12 / 10 ^ 17) by ulra. assert (uq : u0 * (1.01 * q) <= 13 / 10 ^ 17 * q) by (rewrite <- Rmult_assoc; apply Rmult_le_compat_r; lra).
    pose proof (ap_div _ _ _ _ _ _ (0.9999 * T) q (1.01 * q) A AT ltac:(lra) ltac:(rewrite (Rabs_pos_eq T) by lra; lra) ltac:(fold q; rewrite Rabs_pos_eq; lra)) as D. rewrite Ev in D. fold q in D.
    assert (QL : / 10 ^ 200 <= 1.01 * q). { apply Rle_trans with (/ 1000 * / 10 ^ 158); [|lra]. replace (10 ^ 200) with (10 ^ 42 * 10 ^ 158) by (rewrite <- pow_add; reflexivity). rewrite Rinv_mult by (apply pow_nonzero; lra). apply Rmult_le_compat_r; lra. }
    apply ap_near. apply (ap_weak _ _ (0.00001041 * 2 / 0.9999 * q + u0 * (1.01 * q))); [|lra]. apply D; [lra|]. lra. }
  clear - G. fold K k T Ts. revert G. generalize (seq 0 K) at 1 2 3. induction l as [|i l IH]; intros G; cbn [map]; constructor; [cbv zeta; apply G; now left|apply IH; intros; apply G; now right].
Qed.

Lemma C119_quality_proof : forall L (r1 u1 r2 u2 dp beta tau : B64), exp_accurate L ->
  num_in (- 10 ^ 4) (10 ^ 4) r1 -> num_in (- 10 ^ 4) (10 ^ 4) r2 -> num_in (/ 1000) 100 u1 -> num_in (/ 1000) 100 u2 -> num_in 1 100 beta ->
  let d := B2R r1 - B2R r2 in let b := B2R beta in let c2 := 2 * b ^ 2 + B2R u1 ^ 2 + B2R u2 ^ 2 in
  d ^ 2 <= 484 * c2 -> let q := sqrt (2 * b ^ 2 / c2) * exp (- d ^ 2 / (2 * c2)) in
  near (match_quality (A := B64A L) (mkTS r1 u1) (mkTS r2 u2) (mkTSConfig dp beta tau)) q (1 / 10 ^ 9 * q).
Proof.
  intros L r1 u1 r2 u2 dp beta tau HE H1 H2 Hu1 Hu2 Hb d b c2 HD q.
  destruct (num_ap _ _ _ H1) as [A1 B1]. destruct (num_ap _ _ _ H2) as [A2 B2]. destruct (num_ap _ _ _ Hu1) as [D1 E1]. destruct (num_ap _ _ _ Hu2) as [D2 E2]. destruct (num_ap _ _ _ Hb) as [Ab Bb]. fold b in Ab, Bb.
  assert (V0 : 0 < v0 < / 10 ^ 15) by (unfold v0; lra). assert (U0 : 0 < u0 <= 12 / 10 ^ 17) by ulra. set (s1 := B2R u1) in *. set (s2 := B2R u2) in *.
  assert (AD : ap (Bminus mode_NE r1 r2) d (12 / 10 ^ 12)). { apply (ap_weak _ _ (0 + 0 + u0 * 20001)); [|lra]. apply (ap_sub _ _ _ _ _ _ 20001 A1 A2); [|okb]. apply Rle_trans with (20000 + (0 + 0)); [apply Rplus_le_compat_r; apply Rabs_le; lra|lra]. }
  pose proof (sq_rng s1 E1) as Q1. pose proof (sq_rng s2 E2) as Q2. assert (Q3 : 1 <= b * b <= 10000) by nra. pose proof (sq_rl u1 s1 D1 E1) as R1.
  pose proof (rl_exact _ _ Ab ltac:(lra)) as Eb. pose proof (rl_mul _ _ _ _ _ _ v0 Eb Eb ltac:(lra) ltac:(lra) ltac:(lra)) as EB.
  pose proof (rl_fma _ _ _ _ _ _ _ _ _ (2 * v0) (rl_exact _ _ (ap_Z 2 ltac:(vm_compute; discriminate)) ltac:(lra)) EB R1 ltac:(lra) ltac:(lra) ltac:(lra) ltac:(lra)) as R2.
  pose proof (rl_exact _ _ D2 ltac:(lra)) as E2'. pose proof (rl_fma _ _ _ _ _ _ _ _ _ (3 * v0) E2' E2' R2 ltac:(lra) ltac:(lra) ltac:(lra) ltac:(lra)) as R3.
  apply (rl_eq _ _ c2) in R3; [|unfold c2; ring]. apply (rl_weak _ _ _ (53 * v0)) in R3; [|lra|lra].
  apply ap_near. exact (quality_ap L _ _ _ _ 2 b d c2 HE AD R3 (ap_Z 2 ltac:(vm_compute; discriminate)) Ab ltac:(lra) Bb ltac:(unfold c2; lra) HD).
Qed.
