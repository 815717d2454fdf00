(** Accuracy in double precision: USCF games and rating periods. *)
From Coq Require Import ZArith NArith List Bool Reals Lra Lia Psatz.
From Flocq Require Import Core.Core IEEE754.BinarySingleNaN.
From Verif Require Import Arith XR B64 ModelLib ModelDwz ModelUscf Spec SpecB64 SpecAcc Tac MathB64 ProofB64 ProofB64b ProofB64c MathB64b ProofB64f MathAcc MathAcc2 ProofDwz ProofUscf ProofAcc ProofAcc2 ProofAcc3 ProofAccDwz ProofAccDwz2.
Import Spec ListNotations.
Local Open Scope R_scope.

Lemma Bplus_comm (x y : B64) : Bplus mode_NE x y = Bplus mode_NE y x.
Proof.
  destruct x as [sx|sx| |sx mx ex Hx], y as [sy|sy| |sy my ey Hy]; try reflexivity; try (destruct sx, sy; reflexivity).
  unfold Bplus, Fplus_naive. rewrite Z.add_comm, (Z.min_comm ey ex). reflexivity.
Qed.
#[local] Opaque Bplus Bminus Bmult Bdiv Bfma Bsqrt Bopp Babs b64_of_Z b64_lit.

(** ** The expected score *)
Definition uxB (L : Libm) (r1 r2 : B64) : B64 :=
  Bdiv mode_NE one64 (Bplus mode_NE (l_pow L (b64_of_Z 10) (Bdiv mode_NE (Bopp (Bminus mode_NE r1 r2)) (b64_of_Z 400))) one64).
Lemma fold_ux L r1 r2 : uscf_e_value (A := B64A L) r1 r2 = uxB L r1 r2. Proof. reflexivity. Qed.
Lemma ux_ap L r1 r2 R1 R2 : pow10_accurate L -> ap r1 R1 0 -> ap r2 R2 0 -> 0 <= R1 <= 4000 -> 0 <= R2 <= 4000 ->
  in01 (uxB L r1 r2) /\ ap (uxB L r1 r2) (elo_E R1 R2) (4 / 10 ^ 15) /\ 0 <= elo_E R1 R2 <= 1.
Proof.
  intros HP A1 A2 B1 B2. assert (U0 : 0 < u0 <= 12 / 10 ^ 17) by ulra.
  step (ap_sub _ _ _ _ _ _ 4001 A1 A2 ltac:(apply Rle_trans with (4000 + (0 + 0)); [apply Rplus_le_compat_r; apply Rabs_le; lra|lra]) ltac:(okb)) (49 / 10 ^ 14).
  pose proof (ap_opp _ _ _ S) as S'.
  pose proof (ap_div _ _ _ _ _ _ 400 10 11 S' (ap_Z 400 ltac:(vm_compute; discriminate)) ltac:(lra) ltac:(rewrite Rabs_pos_eq; lra) ltac:(apply Rabs_le; lra) ltac:(lra) ltac:(okb)) as M. apply (ap_weak _ _ _ (5 / 10 ^ 15)) in M; [|lra].
  assert (EY : - (R1 - R2) / 400 = (R2 - R1) / 400) by lra. rewrite EY in M.
  destruct (log_ap L _ _ _ HP M ltac:(lra) ltac:(apply Rabs_le; lra)) as [I A]. cbv zeta in I, A. unfold uxB. rewrite Bplus_comm. split; [exact I|].
  assert (EE : elo_E R1 R2 = / (1 + Rpower 10 ((R2 - R1) / 400))) by (unfold elo_E; apply Rmult_1_l). rewrite EE. split; [apply (ap_weak _ _ _ _ A); lra|].
  pose proof (Rpower10_pos ((R2 - R1) / 400)) as P. split; [left; apply Rinv_0_lt_compat; lra|]. apply Rle_trans with (/ 1); [apply Rinv_le_contravar; lra|lra].
Qed.

(** ** The effective number of games *)
Lemma min_ap x y X Y d : ap x X d -> ap y Y 0 -> ap (b64_min x y) (Rmin X Y) d.
Proof.
  intros Ax Ay. pose proof (ap_nonneg _ _ _ Ax) as D0. destruct Ax as [Fx Ax], Ay as [Fy Ay]. apply Rabs_le_inv in Ax, Ay.
  unfold b64_min. rewrite (fin_nn _ Fx), (fin_nn _ Fy), Bleb_ext by (apply fin_nn; assumption).
  case Rle_bool_spec; intros Q; (split; [assumption|]); unfold Rmin; destruct (Rle_dec X Y); apply Rabs_le; lra.
Qed.
Lemma games_ap L n : ap (b64_min (fofN (A := B64A L) n) (b64_of_Z 50)) (Rmin (IZR (Z.of_N n)) 50) 0.
Proof.
  destruct (N.le_gt_cases n 50) as [C|C].
  - apply min_ap; [apply ap_Z; lia|apply (ap_Z 50); vm_compute; discriminate].
  - destruct (ext_ofZ 50 ltac:(vm_compute; discriminate)) as [F50 E50]. destruct (ofN_ge0 L n) as [N _]. set (z := fofN (A := B64A L) n) in *.
    assert (Z : 50 < ext z). { unfold z, fofN in *. change (fofZ (Arith := B64A L) (Z.of_N n)) with (b64 (Z.of_N n) 0) in *. destruct (ext_b64 (Z.of_N n) 0) as [_ E]. rewrite E. apply Rlt_le_trans with 51; [lra|]. rewrite <- (rnd_Z 51) by lia. apply rnd_le. unfold F2R. simpl Fnum. simpl Fexp. simpl bpow. rewrite Rmult_1_r. apply IZR_le. lia. }
    unfold b64_min. unfold nn in N. rewrite N. replace (is_nan (b64_of_Z 50)) with false by (symmetry; reflexivity). rewrite Bleb_ext by (try exact N; apply fin_nn, F50). rewrite E50, Rle_bool_false by lra.
    assert (51 <= IZR (Z.of_N n)) by (apply IZR_le; lia). rewrite Rmin_right by lra. apply ap_exact; auto.
Qed.
Definition neqB (r : B64) : B64 :=
  let d := Bminus mode_NE (b64_of_Z 2569) r in
  Bdiv mode_NE (b64_of_Z 50) (Bsqrt mode_NE (Bfma mode_NE (b64_lit 739 100000000) (Bmult mode_NE d d) (b64_lit 662 1000))).
Lemma fold_ne L r n : uscf_effective_game_number (A := B64A L) r n = b64_min (if Bltb r (b64_of_Z 2355) then neqB r else b64_of_Z 50) (b64_min (fofN (A := B64A L) n) (b64_of_Z 50)).
Proof. reflexivity. Qed.
Lemma neq_ap r R0 : ap r R0 0 -> 0 <= R0 < 2355 -> let X := 50 / sqrt (0.662 + 0.00000739 * (2569 - R0) ^ 2) in ap (neqB r) X (3 / 10 ^ 12) /\ 7 <= X <= 50.
Proof.
  intros Ar BR X. assert (U0 : 0 < u0 <= 12 / 10 ^ 17) by ulra. unfold neqB. cbv zeta.
  pose proof (ap_sub _ _ _ _ _ _ 2569 (ap_Z 2569 ltac:(vm_compute; discriminate)) Ar ltac:(rewrite Rabs_pos_eq; lra) ltac:(okb)) as S. apply (ap_weak _ _ _ (31 / 10 ^ 14)) in S; [|lra].
  set (D := 2569 - R0) in *. assert (BD : 214 <= D <= 2569) by (unfold D; lra). assert (D2 : 45796 <= D * D <= 6599761) by nra.
  pose proof (ap_mul _ _ _ _ _ _ 2569 2569 6600000 S S ltac:(bd) ltac:(bd) ltac:(lra) ltac:(okb)) as M. apply (ap_weak _ _ _ (25 / 10 ^ 10)) in M; [|lra].
  pose proof (lit_ap 739 100000000 (8 / 10 ^ 6) ltac:(discriminate) ltac:(reflexivity) ltac:(rewrite Rabs_pos_eq; lra) ltac:(okb)) as L1.
  pose proof (lit_ap 662 1000 1 ltac:(discriminate) ltac:(reflexivity) ltac:(rewrite Rabs_pos_eq; lra) ltac:(okb)) as L2.
  apply (ap_weak _ _ _ (/ 10 ^ 21)) in L1; [|lra]. apply (ap_weak _ _ _ (13 / 10 ^ 17)) in L2; [|lra].
  pose proof (ap_fma _ _ _ _ _ _ _ _ _ (8 / 10 ^ 6) 6599761 51 L1 M L2 ltac:(rewrite Rabs_pos_eq; lra) ltac:(rewrite Rabs_pos_eq; lra) ltac:(rewrite Rabs_pos_eq; lra) ltac:(okb)) as F. apply (ap_weak _ _ _ (4 / 10 ^ 14)) in F; [|lra].
  set (V := 739 / 100000000 * (D * D) + 662 / 1000) in *. assert (EV : V = 0.662 + 0.00000739 * D ^ 2) by (unfold V; lra).
  assert (BV : 1.0004 <= V <= 49.44) by (unfold V; lra). assert (BS : 1 <= sqrt V <= 7.1). { split; [rewrite <- sqrt_1; apply sqrt_le_1; lra|]. rewrite <- (sqrt_square 7.1) by lra. apply sqrt_le_1; lra. }
  pose proof (ap_sqrt _ _ _ 1 7.1 8 F ltac:(lra) ltac:(lra) ltac:(lra) ltac:(lra) ltac:(lra) ltac:(okb)) as Q. apply (ap_weak _ _ _ (42 / 10 ^ 15)) in Q; [|lra].
  pose proof (ap_div _ _ _ _ _ _ 0.9 50 51 (ap_Z 50 ltac:(vm_compute; discriminate)) Q ltac:(lra) ltac:(rewrite Rabs_pos_eq; lra)) as Dv.
  assert (EX : 50 / sqrt V = X) by (unfold X; rewrite EV; reflexivity). assert (BX : 7 <= 50 / sqrt V <= 50).
  { unfold Rdiv. assert (/ 7.1 <= / sqrt V) by (apply Rinv_le_contravar; lra). assert (/ sqrt V <= / 1) by (apply Rinv_le_contravar; lra). lra. }
  specialize (Dv ltac:(rewrite Rabs_pos_eq; lra) ltac:(lra) ltac:(okb)). rewrite <- EX. split; [apply (ap_weak _ _ _ _ Dv); lra|exact BX].
Qed.
Lemma ne_ap L r R0 n : ap r R0 0 -> 0 <= R0 <= 4000 -> (9 <= n)%N -> ap (uscf_effective_game_number (A := B64A L) r n) (uscf_Ne R0 (IZR (Z.of_N n))) (3 / 10 ^ 12) /\ 7 <= uscf_Ne R0 (IZR (Z.of_N n)) <= 50.
Proof.
  intros Ar BR Hn. rewrite fold_ne. pose proof (games_ap L n) as G. assert (9 <= IZR (Z.of_N n)) by (apply IZR_le; lia).
  assert (BG : 9 <= Rmin (IZR (Z.of_N n)) 50 <= 50) by (split; [apply Rmin_glb; lra|apply Rmin_r]). set (g := b64_min _ _) in *. set (GG := Rmin _ 50) in *.
  destruct (ext_ofZ 2355 ltac:(vm_compute; discriminate)) as [F13 E13]. rewrite (Bltb_ext _ _ (fin_nn _ (ap_fin _ _ _ Ar)) (fin_nn _ F13)), E13. assert (ER : ext r = R0) by (destruct Ar as [_ A]; apply Rabs_le_inv in A; lra). rewrite ER. unfold uscf_Ne. fold GG.
  destruct (Rlt_dec R0 2355) as [C|C]; [rewrite Rlt_bool_true by exact C|rewrite Rlt_bool_false by lra].
  - destruct (neq_ap r R0 Ar ltac:(lra)) as [A B]. cbv zeta in A, B. rewrite (Rmin_comm GG). split; [apply (min_ap _ _ _ _ _ A G)|]. split; [apply Rmin_glb; lra|apply Rle_trans with (1 := Rmin_r _ _); lra].
  - split; [|lra]. apply (ap_weak _ _ 0); [|lra]. assert (E : GG = Rmin 50 GG) by (symmetry; apply Rmin_right; lra). rewrite E. apply min_ap; [apply (ap_Z 50); vm_compute; discriminate|exact G].
Qed.

(** ** The new rating of an established player *)
Lemma kd_ap e E nB n s S x W d : ap e E (3 / 10 ^ 12) -> 5 <= E <= 1000 -> ap nB n 0 -> 1 <= n <= 1000 -> ap s S 0 -> ap x W d -> d <= n * (13 / 10 ^ 14) ->
  0 <= S <= n -> 0 <= W <= n -> let q := 800 / (E + n) in
  exists dk ds, ap (Bdiv mode_NE (b64_of_Z 800) (Bplus mode_NE e nB)) q dk /\ ap (Bminus mode_NE s x) (S - W) ds /\ 0 <= dk /\ 0 <= ds /\
    q * ds + n * dk + dk * ds <= 3 / 10 ^ 10 /\ 0.4 <= q <= 134 /\ Rabs (S - W) <= n /\ - 800 <= q * (S - W) <= 800 /\ 0 <= q * n <= 800.
Proof.
  intros Ae BE An Bn As Ax Hd BS BW q. assert (U0 : 0 < u0 <= 12 / 10 ^ 17) by ulra. pose proof (ap_nonneg _ _ _ Ax) as D1.
  pose proof (ap_add _ _ _ _ _ _ 2001 Ae An ltac:(rewrite Rabs_pos_eq; lra) ltac:(okb)) as A1. apply (ap_weak _ _ _ (33 / 10 ^ 13)) in A1; [|lra].
  unfold q. set (N := E + n) in *. assert (BN : 5 + n <= N <= 2000) by (unfold N; lra). set (q' := 800 / N). assert (IN : 0 < / N) by (apply Rinv_0_lt_compat; lra). clear q. rename q' into q.
  assert (QN : q * N = 800) by (unfold q; field; lra). assert (Bq : 0.4 <= q <= 134). { unfold q, Rdiv. assert (/ 2000 <= / N <= / 6) by (split; apply Rinv_le_contravar; lra). lra. }
  assert (qn : 0 <= q * n <= 800) by (split; [apply Rmult_le_pos; lra|rewrite <- QN; apply Rmult_le_compat_l; lra]).
  assert (qn2 : q * n <= 800 / 17 * (N - 1)). { apply Rmult_le_reg_r with N; [lra|]. replace (q * n * N) with (800 * n) by (rewrite <- QN; ring). clear - Bn BN. assert ((n + 4) * (n + 5) <= (N - 1) * N) by (apply Rmult_le_compat; lra). pose proof (Rle_0_sqr (n - 4)) as Q. unfold Rsqr in Q. lra. }
  assert (I1 : 0 < / (N - 1)) by (apply Rinv_0_lt_compat; lra).
  assert (DQ : q * (33 / 10 ^ 13) / (N - 1) <= / 10 ^ 8). { unfold Rdiv at 1. assert (/ (N - 1) <= / 5) by (apply Rinv_le_contravar; lra). apply Rle_trans with (134 * (33 / 10 ^ 13) * / 5); [apply Rmult_le_compat; lra|lra]. }
  assert (uq : 0 <= u0 * (1.01 * q) <= 13 / 10 ^ 17 * q) by (split; [apply Rmult_le_pos; lra|clear - U0 Bq; nra]).
  pose proof (ap_div _ _ _ _ _ _ (N - 1) q (1.01 * q) (ap_Z 800 ltac:(vm_compute; discriminate)) A1 ltac:(lra) ltac:(rewrite Rabs_pos_eq; lra) ltac:(fold q; rewrite Rabs_pos_eq; lra) ltac:(rewrite Rplus_0_l; lra) ltac:(okb)) as A2. fold q in A2. rewrite Rplus_0_l in A2.
  set (t := q * (33 / 10 ^ 13) / (N - 1)) in *. assert (T0 : 0 <= t) by (unfold t, Rdiv; apply Rmult_le_pos; [lra|lra]).
  assert (TN : t * n <= 800 / 17 * (33 / 10 ^ 13)). { replace (t * n) with (q * n * / (N - 1) * (33 / 10 ^ 13)) by (unfold t; field; lra). apply Rmult_le_compat_r; [lra|]. apply Rmult_le_reg_r with (N - 1); [lra|]. rewrite Rmult_assoc, Rinv_l by lra. lra. }
  apply (ap_weak _ _ _ (t + 13 / 10 ^ 17 * q)) in A2; [|lra].
  assert (BSW : Rabs (S - W) <= n) by (apply Rabs_le; lra).
  pose proof (ap_sub _ _ _ _ _ _ (1.01 * n) As Ax ltac:(lra) ltac:(okb)) as A3.
  assert (un : 0 <= u0 * (1.01 * n) <= 13 / 10 ^ 17 * n) by (split; [apply Rmult_le_pos; lra|clear - U0 Bn; nra]).
  apply (ap_weak _ _ _ (132 / 10 ^ 15 * n)) in A3; [|lra]. set (del := 13 / 10 ^ 17 * q) in *.
  exists (t + del), (132 / 10 ^ 15 * n). assert (P2 : n * (t + del) <= 800 / 17 * (33 / 10 ^ 13) + 800 * (13 / 10 ^ 17)) by (unfold del; lra).
  assert (P3 : (t + del) * (132 / 10 ^ 15 * n) <= / 10 ^ 12). { replace ((t + del) * (132 / 10 ^ 15 * n)) with (n * (t + del) * (132 / 10 ^ 15)) by ring. lra. }
  assert (P4 : - 800 <= q * (S - W) <= 800). { assert (- n <= S - W <= n) by lra. clear - H qn Bq. nra. }
  split; [exact A2|]. split; [exact A3|]. split; [unfold del; lra|]. split; [lra|]. split; [lra|]. auto.
Qed.
Definition boostB (m : nat) (k s x tB : B64) (L : Libm) : B64 :=
  if (N.of_nat m <? 3)%N then b64_of_Z 0
  else let kse := Bmult mode_NE k (Bminus mode_NE s x) in let tm := Bmult mode_NE tB (Bsqrt mode_NE (fofN (A := B64A L) (N.min (N.of_nat m) 4))) in
    if Bleb kse tm then b64_of_Z 0 else Bminus mode_NE kse tm.
Lemma fold_new L r n m s x tB : uscf_new_rating (A := B64A L) r n (N.of_nat m) s x (mkUscfConfig tB) =
  let k := Bdiv mode_NE (b64_of_Z 800) (Bplus mode_NE (uscf_effective_game_number (A := B64A L) r n) (fofN (A := B64A L) (N.of_nat m))) in
  Bplus mode_NE (Bfma mode_NE k (Bminus mode_NE s x) r) (boostB m k s x tB L).
Proof. reflexivity. Qed.
Lemma upd_uscf_ap L r R0 n m s S x W d tB T : ap r R0 0 -> 0 <= R0 <= 4000 -> (9 <= n)%N -> (1 <= m <= 1000)%nat -> ap s S 0 -> ap x W d -> d <= INR m * (13 / 10 ^ 14) ->
  0 <= S <= INR m -> 0 <= W <= INR m -> ap tB T 0 -> 0 <= T <= 1000 ->
  ap (uscf_new_rating (A := B64A L) r n (N.of_nat m) s x (mkUscfConfig tB)) (uscf_upd R0 (IZR (Z.of_N n)) m S W T) (2 / 10 ^ 9) /\ Rabs (uscf_upd R0 (IZR (Z.of_N n)) m S W T) <= 6000.
Proof.
  intros Ar BR Hn Hm As Ax Hd BS BW At BT. rewrite fold_new. cbv zeta. assert (U0 : 0 < u0 <= 12 / 10 ^ 17) by ulra.
  assert (Bm : 1 <= INR m <= 1000) by (rewrite INR_IZR_INZ; split; apply IZR_le; lia).
  assert (Am : ap (fofN (A := B64A L) (N.of_nat m)) (INR m) 0). { rewrite INR_IZR_INZ, <- (nat_N_Z m). apply ap_Z. lia. }
  destruct (ne_ap L r R0 n Ar BR Hn) as [Ae BE]. unfold uscf_upd, uscf_K. set (NE := uscf_Ne R0 (IZR (Z.of_N n))) in *. set (ne := uscf_effective_game_number (A := B64A L) r n) in *.
  destruct (kd_ap ne NE _ (INR m) s S x W d Ae ltac:(lra) Am Bm As Ax Hd BS BW) as (dk & ds & Ak & Asx & D1 & D2 & DD & Bq & BSW & P4 & qn). set (q := 800 / (NE + INR m)) in *.
  set (k := Bdiv mode_NE _ _) in *. pose proof (ap_fma _ _ _ _ _ _ _ _ _ q (INR m) 4900 Ak Asx Ar ltac:(rewrite Rabs_pos_eq; lra) BSW ltac:(apply Rle_trans with (4800 + / 10 ^ 3); [apply Rplus_le_compat; [apply Rabs_le; lra|lra]|lra]) ltac:(okb)) as A4.
  apply (ap_weak _ _ _ (31 / 10 ^ 11)) in A4; [|lra].
  assert (AB : ap (boostB m k s x tB L) (uscf_bonus m q S W T) (7 / 10 ^ 10) /\ 0 <= uscf_bonus m q S W T <= 800).
  { unfold boostB, uscf_bonus. assert (EQ : (N.of_nat m <? 3)%N = (m <? 3)%nat) by (destruct (Nat.ltb_spec m 3); [apply N.ltb_lt|apply N.ltb_ge]; lia). rewrite EQ. assert (A0 : ap (b64_of_Z 0) 0 0) by (apply (ap_Z 0); vm_compute; discriminate).
    destruct (m <? 3)%nat eqn:M3; [split; [apply (ap_weak _ _ _ _ A0); lra|lra]|]. apply Nat.ltb_ge in M3. cbv zeta.
    pose proof (ap_mul _ _ _ _ _ _ q (INR m) 801 Ak Asx ltac:(rewrite Rabs_pos_eq; lra) BSW ltac:(lra) ltac:(okb)) as AK. apply (ap_weak _ _ _ (301 / 10 ^ 12)) in AK; [|lra].
    assert (AM : ap (fofN (A := B64A L) (N.min (N.of_nat m) 4)) (INR (Nat.min m 4)) 0). { rewrite INR_IZR_INZ, <- (nat_N_Z (Nat.min m 4)). replace (N.min (N.of_nat m) 4) with (N.of_nat (Nat.min m 4)) by lia. apply ap_Z. lia. }
    assert (BM : 3 <= INR (Nat.min m 4) <= 4) by (rewrite INR_IZR_INZ; split; apply IZR_le; lia). set (M := INR (Nat.min m 4)) in *.
    assert (BSq : 1 <= sqrt M <= 2). { split; [rewrite <- sqrt_1; apply sqrt_le_1; lra|]. rewrite <- (sqrt_square 2) by lra. apply sqrt_le_1; lra. }
    pose proof (ap_sqrt _ _ _ 1 2 3 AM ltac:(lra) ltac:(lra) ltac:(lra) ltac:(lra) ltac:(lra) ltac:(okb)) as ASq. apply (ap_weak _ _ _ (4 / 10 ^ 16)) in ASq; [|lra].
    pose proof (ap_mul _ _ _ _ _ _ 1000 2 2001 At ASq ltac:(rewrite Rabs_pos_eq; lra) ltac:(rewrite Rabs_pos_eq; lra) ltac:(lra) ltac:(okb)) as ATm. apply (ap_weak _ _ _ (7 / 10 ^ 13)) in ATm; [|lra].
    assert (BTm : 0 <= T * sqrt M <= 2000) by (split; [apply Rmult_le_pos; lra|apply Rle_trans with (1000 * 2); [apply Rmult_le_compat; lra|lra]]).
    pose proof (ap_sub _ _ _ _ _ _ 2900 AK ATm ltac:(apply Rle_trans with (2800 + (301 / 10 ^ 12 + 7 / 10 ^ 13)); [apply Rplus_le_compat_r, Rabs_le; lra|lra]) ltac:(okb)) as AD. apply (ap_weak _ _ _ (303 / 10 ^ 12)) in AD; [|lra].
    set (ks := q * (S - W)) in *. set (tm := T * sqrt M) in *. split; [|split; [apply Rmax_l|apply Rmax_lub; lra]].
    rewrite Bleb_ext by (apply fin_nn; [exact (ap_fin _ _ _ AK)||exact (ap_fin _ _ _ ATm)]). pose proof (ap_int _ _ _ AK) as I1. pose proof (ap_int _ _ _ ATm) as I2.
    case Rle_bool_spec; intros Q.
    - apply (ap_weak _ _ (7 / 10 ^ 10)); [|lra]. split; [exact (ap_fin _ _ _ A0)|]. destruct A0 as [_ A0]. apply Rabs_le_inv in A0. unfold Rmax. destruct Rle_dec; apply Rabs_le; lra.
    - destruct AD as [FD AD]. split; [exact FD|]. apply Rabs_le_inv in AD. unfold Rmax. destruct Rle_dec; apply Rabs_le; lra. }
  destruct AB as [AB BB]. set (bo := uscf_bonus m q S W T) in *.
  assert (E : R0 + q * (S - W) + bo = q * (S - W) + R0 + bo) by ring. rewrite E. assert (BF : Rabs (q * (S - W) + R0 + bo) <= 6000) by (apply Rabs_le; lra). split; [|exact BF].
  pose proof (ap_add _ _ _ _ _ _ 6001 A4 AB ltac:(lra) ltac:(okb)) as A5. apply (ap_weak _ _ _ _ A5). lra.
Qed.

(** ** The new rating of a provisional player *)
Lemma prov_ap L r R0 n m oB O w l : ap r R0 0 -> 0 <= R0 <= 4000 -> (n <= 8)%N -> (1 <= m <= 1000)%nat -> ap oB O (6 / 10 ^ 10) -> 0 <= O <= 4000 -> (Z.abs (w - l) <= Z.of_nat m)%Z ->
  ap (uscf_new_rating_provisional (A := B64A L) r n (N.of_nat m) oB w l) (uscf_prov (IZR (Z.of_N n)) R0 (INR m) O (IZR w) (IZR l)) (/ 10 ^ 9) /\
  Rabs (uscf_prov (IZR (Z.of_N n)) R0 (INR m) O (IZR w) (IZR l)) <= 4400.
Proof.
  intros Ar BR Hn Hm Ao BO Hwl. assert (U0 : 0 < u0 <= 12 / 10 ^ 17) by ulra.
  assert (E : uscf_new_rating_provisional (A := B64A L) r n (N.of_nat m) oB w l =
    Bdiv mode_NE (Bfma mode_NE (b64_of_Z (w - l)) (b64_of_Z 400) (Bfma mode_NE (b64_of_Z (Z.of_N n)) r (Bmult mode_NE (b64_of_Z (Z.of_N (N.of_nat m))) oB))) (b64_of_Z (Z.of_N (usize_add n (N.of_nat m))))) by reflexivity.
  rewrite E. rewrite usize_add_small by lia. rewrite N2Z.inj_add, !nat_N_Z. unfold uscf_prov. rewrite INR_IZR_INZ.
  assert (Bm : 1 <= IZR (Z.of_nat m) <= 1000) by (split; apply IZR_le; lia). assert (Bn : 0 <= IZR (Z.of_N n) <= 8) by (split; apply IZR_le; lia).
  pose proof (ap_Z (Z.of_nat m) ltac:(lia)) as Am. pose proof (ap_Z (Z.of_N n) ltac:(lia)) as An. pose proof (ap_Z (w - l) ltac:(lia)) as Aw. pose proof (ap_Z (Z.of_N n + Z.of_nat m) ltac:(lia)) as AN.
  rewrite minus_IZR in Aw. rewrite plus_IZR in AN. assert (Bw : Rabs (IZR w - IZR l) <= IZR (Z.of_nat m)) by (rewrite <- minus_IZR, <- abs_IZR; apply IZR_le; exact Hwl).
  set (M := IZR (Z.of_nat m)) in *. set (N0 := IZR (Z.of_N n)) in *. set (D := IZR w - IZR l) in *. pose proof (Rabs_le_inv _ _ Bw) as Bw'.
  assert (MO : 0 <= M * O <= M * 4000) by (split; [apply Rmult_le_pos; lra|apply Rmult_le_compat_l; lra]). assert (NR : 0 <= N0 * R0 <= N0 * 4000) by (split; [apply Rmult_le_pos; lra|apply Rmult_le_compat_l; lra]).
  set (N1 := N0 + M) in *. assert (BN : M <= N1 <= 1008) by (unfold N1; lra). assert (uN : 0 <= u0 * N1 <= 12 / 10 ^ 17 * N1) by (split; [apply Rmult_le_pos; lra|apply Rmult_le_compat_r; lra]).
  pose proof (ap_mul _ _ _ _ _ _ M 4000 (4001 * N1) Am Ao ltac:(rewrite Rabs_pos_eq; lra) ltac:(rewrite Rabs_pos_eq; lra) ltac:(unfold N1 in *; lra) ltac:(okb)) as A1. apply (ap_weak _ _ _ (61 / 10 ^ 11 * N1)) in A1; [|lra].
  pose proof (ap_fma _ _ _ _ _ _ _ _ _ N0 4000 (4001 * N1) An Ar A1 ltac:(rewrite Rabs_pos_eq; lra) ltac:(rewrite Rabs_pos_eq; lra) ltac:(rewrite Rabs_pos_eq; unfold N1 in *; lra) ltac:(okb)) as A2. apply (ap_weak _ _ _ (62 / 10 ^ 11 * N1)) in A2; [|lra].
  pose proof (ap_fma _ _ _ _ _ _ _ _ _ M 400 (4401 * N1) Aw (ap_Z 400 ltac:(vm_compute; discriminate)) A2 Bw ltac:(rewrite Rabs_pos_eq; lra)) as A3.
  assert (BX : Rabs (D * 400 + (N0 * R0 + M * O)) <= 4400 * N1) by (apply Rabs_le; unfold N1 in *; lra).
  specialize (A3 ltac:(lra) ltac:(okb)). apply (ap_weak _ _ _ (63 / 10 ^ 11 * N1)) in A3; [|lra].
  replace (N0 * R0 + M * O + 400 * D) with (D * 400 + (N0 * R0 + M * O)) by ring. set (X := D * 400 + (N0 * R0 + M * O)) in *.
  assert (I0 : 0 < / N1) by (apply Rinv_0_lt_compat; lra).
  assert (BQ : Rabs (X / N1) <= 4400). { unfold Rdiv. rewrite Rabs_mult, (Rabs_pos_eq (/ N1)) by lra. apply Rmult_le_reg_r with N1; [lra|]. rewrite Rmult_assoc, Rinv_l by lra. lra. }
  split; [|exact BQ].
  assert (EV : (63 / 10 ^ 11 * N1 + 4400 * 0) / N1 = 63 / 10 ^ 11) by (field; lra).
  pose proof (ap_div _ _ _ _ _ _ N1 4400 4401 A3 AN ltac:(lra) ltac:(rewrite Rabs_pos_eq; lra) BQ ltac:(rewrite EV; lra) ltac:(okb)) as A4. rewrite EV in A4. apply (ap_weak _ _ _ _ A4). lra.
Qed.

(** ** One game and one rating period *)
Lemma pts_sum_u L (rs : list (USCFRating B64 * Outcomes)) : (Z.of_nat (length rs) <= 10 ^ 6)%Z ->
  ap (fsum (A := B64A L) (map (fun r => to_chess_points (A := B64A L) (snd r)) rs)) (Rsum (map (fun g => points (snd g)) rs)) 0.
Proof.
  intros H. set (f := fun g : USCFRating B64 * Outcomes => (mkDwz (b64_of_Z 0) 1 1, snd g)).
  pose proof (pts_sum L (map f rs) ltac:(rewrite map_length; exact H)) as A. rewrite !map_map in A. cbn [snd f] in A.
  replace (Rsum (map (fun g => points (snd g)) rs)) with (IZR (hsum (map snd rs)) / 2); [exact A|]. rewrite <- hsum_psum. unfold psum. rewrite map_map. reflexivity.
Qed.
Lemma rsum01 (X : Type) (F : X -> R) rs : (forall g, In g rs -> 0 <= F g <= 1) -> 0 <= Rsum (map F rs) <= INR (length rs).
Proof.
  induction rs as [|g rs IH]; intros H; [simpl; unfold Rsum; simpl; lra|]. cbn [map]. rewrite Rsum_cons. change (length (g :: rs)) with (Datatypes.S (length rs)). rewrite S_INR. pose proof (H g (or_introl eq_refl)). specialize (IH (fun g0 Hg => H g0 (or_intror Hg))). lra.
Qed.
Lemma rsum_max (X : Type) (F : X -> R) M rs : (forall g, In g rs -> 0 <= F g <= M) -> 0 <= Rsum (map F rs) <= INR (length rs) * M.
Proof.
  induction rs as [|g rs IH]; intros H; [simpl; unfold Rsum; simpl; lra|]. cbn [map]. rewrite Rsum_cons. change (length (g :: rs)) with (Datatypes.S (length rs)). rewrite S_INR. pose proof (H g (or_introl eq_refl)). specialize (IH (fun g0 Hg => H g0 (or_intror Hg))). lra.
Qed.
Lemma max100_ap x X d : ap x X d -> ap (b64_max x (b64_of_Z 100)) (Rmax 100 X) d.
Proof. intros A. rewrite Rmax_comm. apply max_ap; [exact A|apply (ap_Z 100); vm_compute; discriminate]. Qed.
Lemma C106_game_proof : forall L r1 n1 r2 n2 o t, pow10_accurate L -> num_in 0 4000 r1 -> num_in 0 4000 r2 -> num_in 0 1000 t ->
  let '(q1, q2) := uscf (A := B64A L) (mkUscf r1 n1) (mkUscf r2 n2) o (mkUscfConfig t) in
  let R1 := B2R r1 in let R2 := B2R r2 in
  near (uscf_rating q1) (Rmax 100 (if (n1 <=? 8)%N
      then uscf_prov (IZR (Z.of_N n1)) R1 1 R2 (match o with WIN => 1 | _ => 0 end) (match o with LOSS => 1 | _ => 0 end)
      else uscf_upd R1 (IZR (Z.of_N n1)) 1 (points o) (elo_E R1 R2) (B2R t))) (2 / 10 ^ 9) /\
  near (uscf_rating q2) (Rmax 100 (if (n2 <=? 8)%N
      then uscf_prov (IZR (Z.of_N n2)) R2 1 R1 (match o with LOSS => 1 | _ => 0 end) (match o with WIN => 1 | _ => 0 end)
      else uscf_upd R2 (IZR (Z.of_N n2)) 1 (1 - points o) (elo_E R2 R1) (B2R t))) (2 / 10 ^ 9).
Proof.
  intros L r1 n1 r2 n2 o t HP N1 N2 NT. destruct (num_ap _ _ _ N1) as [A1 B1]. destruct (num_ap _ _ _ N2) as [A2 B2]. destruct (num_ap _ _ _ NT) as [At Bt].
  unfold uscf. cbn [uscf_rating uscf_games uscf_t]. cbv zeta. rewrite !fold_ux. set (R1 := B2R r1) in *. set (R2 := B2R r2) in *. cbn [uscf_rating].
  destruct (ux_ap L r1 r2 R1 R2 HP A1 A2 B1 B2) as [_ [AE1 BE1]]. destruct (ux_ap L r2 r1 R2 R1 HP A2 A1 B2 B1) as [_ [AE2 BE2]].
  set (s := to_chess_points (A := B64A L) o). assert (As : ap s (points o) 0) by (destruct (ext_points L o) as [F E]; apply ap_exact; auto).
  assert (As2 : ap (Bminus mode_NE one64 s) (1 - points o) 0) by (destruct (ext_points2 L o) as [F E]; cbv zeta in F, E; apply ap_exact; [exact F|exact E]).
  assert (BS : 0 <= points o <= 1) by (destruct o; simpl; lra). assert (I1 : INR 1 = 1) by reflexivity.
  assert (W2 : forall x X d, ap x X d -> d <= 2 / 10 ^ 9 -> near (b64_max x (b64_of_Z 100)) (Rmax 100 X) (2 / 10 ^ 9)). { intros x X d A D. apply ap_near. apply max100_ap. apply (ap_weak _ _ _ _ A D). }
  split.
  - destruct (N.leb_spec n1 8) as [C|C].
    + destruct (prov_ap L r1 R1 n1 1 r2 R2 (Z_of_bool (outcome_eqb o WIN)) (Z_of_bool (outcome_eqb o LOSS)) A1 B1 C ltac:(lia) ltac:(apply (ap_weak _ _ _ _ A2); lra) B2 ltac:(destruct o; simpl; lia)) as [A _].
      replace (match o with WIN => 1 | _ => 0 end) with (IZR (Z_of_bool (outcome_eqb o WIN))) by (destruct o; reflexivity). replace (match o with LOSS => 1 | _ => 0 end) with (IZR (Z_of_bool (outcome_eqb o LOSS))) by (destruct o; reflexivity). apply W2 with (1 := A). lra.
    + destruct (upd_uscf_ap L r1 R1 n1 1 s (points o) (uxB L r1 r2) (elo_E R1 R2) (4 / 10 ^ 15) t (B2R t) A1 B1 ltac:(lia) ltac:(lia) As AE1 ltac:(lra) ltac:(lra) ltac:(lra) At Bt) as [A _]. apply W2 with (1 := A). lra.
  - destruct (N.leb_spec n2 8) as [C|C].
    + destruct (prov_ap L r2 R2 n2 1 r1 R1 (Z_of_bool (outcome_eqb o LOSS)) (Z_of_bool (outcome_eqb o WIN)) A2 B2 C ltac:(lia) ltac:(apply (ap_weak _ _ _ _ A1); lra) B1 ltac:(destruct o; simpl; lia)) as [A _].
      replace (match o with WIN => 1 | _ => 0 end) with (IZR (Z_of_bool (outcome_eqb o WIN))) by (destruct o; reflexivity). replace (match o with LOSS => 1 | _ => 0 end) with (IZR (Z_of_bool (outcome_eqb o LOSS))) by (destruct o; reflexivity). apply W2 with (1 := A). lra.
    + destruct (upd_uscf_ap L r2 R2 n2 1 (Bminus mode_NE one64 s) (1 - points o) (uxB L r2 r1) (elo_E R2 R1) (4 / 10 ^ 15) t (B2R t) A2 B2 ltac:(lia) ltac:(lia) As2 AE2 ltac:(lra) ltac:(lra) ltac:(lra) At Bt) as [A _]. apply W2 with (1 := A). lra.
Qed.
Lemma uscf_count_B o (rs : list (USCFRating B64 * Outcomes)) : uscf_count o rs = Z.of_nat (length (filter (fun x => outcome_eqb x o) (map snd rs))).
Proof. unfold uscf_count. rewrite <- (Z.add_0_l (Z.of_nat _)), <- (fold_add_count (fun x => outcome_eqb x o)), map_map. reflexivity. Qed.
Lemma filter_len (X : Type) (f : X -> bool) l : (length (filter f l) <= length l)%nat.
Proof. induction l as [|x l IH]; simpl; [lia|]. destruct (f x); simpl; lia. Qed.
Lemma C106_period_proof : forall L r n t (rs : list (USCFRating B64 * Outcomes)), pow10_accurate L -> num_in 0 4000 r -> num_in 0 1000 t ->
  Forall (fun g => num_in 0 4000 (uscf_rating (fst g))) rs -> (1 <= length rs <= 1000)%nat ->
  let R0 := B2R r in
  near (uscf_rating (uscf_rating_period (A := B64A L) (mkUscf r n) rs (mkUscfConfig t)))
    (if (n <=? 8)%N
     then uscf_prov (IZR (Z.of_N n)) R0 (INR (length rs)) (Rsum (map (fun g => B2R (uscf_rating (fst g))) rs) / INR (length rs))
            (INR (count_wins (map snd rs))) (INR (count_losses (map snd rs)))
     else uscf_upd R0 (IZR (Z.of_N n)) (length rs) (Rsum (map (fun g => points (snd g)) rs))
            (Rsum (map (fun g => elo_E R0 (B2R (uscf_rating (fst g)))) rs)) (B2R t)) (2 / 10 ^ 9).
Proof.
  intros L r n t rs HP N1 NT HF Hn R0. destruct (num_ap _ _ _ N1) as [A1 B1]. destruct (num_ap _ _ _ NT) as [At Bt]. fold R0 in A1, B1. assert (U0 : 0 < u0 <= 12 / 10 ^ 17) by ulra.
  assert (Bn : 1 <= INR (length rs) <= 1000). { rewrite INR_IZR_INZ. split; apply IZR_le; lia. }
  assert (RE : uscf_rating_period (A := B64A L) (mkUscf r n) rs (mkUscfConfig t) =
    if (n <=? 8)%N then mkUscf (uscf_new_rating_provisional (A := B64A L) r n (N.of_nat (length rs)) (Bdiv mode_NE (fsum (A := B64A L) (map (fun r => uscf_rating (fst r)) rs)) (b64_of_Z (Z.of_nat (length rs)))) (uscf_count WIN rs) (uscf_count LOSS rs)) (usize_add n (N.of_nat (length rs)))
    else mkUscf (uscf_new_rating (A := B64A L) r n (N.of_nat (length rs)) (fsum (A := B64A L) (map (fun r => to_chess_points (A := B64A L) (snd r)) rs)) (fsum (A := B64A L) (map (fun g => uxB L r (uscf_rating (fst g))) rs)) (mkUscfConfig t)) (usize_add n (N.of_nat (length rs)))).
  { destruct rs as [|g rs']; [simpl in Hn; lia|]. unfold uscf_rating_period. cbn [uscf_games uscf_rating]. destruct (n <=? 8)%N; reflexivity. }
  rewrite RE. clear RE. apply ap_near. destruct (N.leb_spec n 8) as [C|C]; cbn [uscf_rating].
  - destruct (fsum_apM _ L (fun g : USCFRating B64 * Outcomes => uscf_rating (fst g)) (fun g => B2R (uscf_rating (fst g))) 4000 0 rs ltac:(lra) ltac:(lra)) as [Ax _]; [|lia|].
    { apply Forall_impl with (2 := HF). intros g N2. destruct (num_ap _ _ _ N2) as [A2 B2]. split; [exact A2|]. rewrite Rabs_pos_eq; lra. }
    set (SS := Rsum (map (fun g => B2R (uscf_rating (fst g))) rs)) in *. match type of Ax with ap ?a ?S ?d => change (ap a SS d) in Ax end. assert (BSS : 0 <= SS <= INR (length rs) * 4000). { apply rsum_max. intros g Hg. rewrite Forall_forall in HF. apply (HF g Hg). }
    set (m := INR (length rs)) in *. assert (I0 : 0 < / m) by (apply Rinv_0_lt_compat; lra).
    assert (BO : 0 <= SS / m <= 4000). { unfold Rdiv. split; [apply Rmult_le_pos; lra|]. apply Rmult_le_reg_r with m; [lra|]. rewrite Rmult_assoc, Rinv_l by lra. lra. }
    assert (AO : ap (Bdiv mode_NE (fsum (A := B64A L) (map (fun r => uscf_rating (fst r)) rs)) (b64_of_Z (Z.of_nat (length rs)))) (SS / m) (6 / 10 ^ 10)).
    { apply (ap_weak _ _ _ (5 / 10 ^ 10 * m)) in Ax. 2:{ rewrite Rmult_comm. apply Rmult_le_compat_r; lra. } assert (AN : ap (b64_of_Z (Z.of_nat (length rs))) m 0) by (unfold m; rewrite INR_IZR_INZ; apply ap_Z; lia).
      assert (EV : (5 / 10 ^ 10 * m + 4000 * 0) / m = 5 / 10 ^ 10) by (field; lra).
      pose proof (ap_div _ _ _ _ _ _ m 4000 4001 Ax AN ltac:(lra) ltac:(rewrite Rabs_pos_eq; lra) ltac:(rewrite Rabs_pos_eq; lra) ltac:(rewrite EV; lra) ltac:(okb)) as A4. rewrite EV in A4. apply (ap_weak _ _ _ _ A4). lra. }
    assert (CW : uscf_count WIN rs = Z.of_nat (count_wins (map snd rs))) by (rewrite uscf_count_B; unfold count_wins; do 2 f_equal; apply filter_ext; intros x; destruct x; reflexivity).
    assert (CL : uscf_count LOSS rs = Z.of_nat (count_losses (map snd rs))) by (rewrite uscf_count_B; unfold count_losses; do 2 f_equal; apply filter_ext; intros x; destruct x; reflexivity).
    assert (LW : (count_wins (map snd rs) <= length rs)%nat /\ (count_losses (map snd rs) <= length rs)%nat). { unfold count_wins, count_losses. rewrite <- (map_length snd rs). split; apply filter_len. }
    destruct (prov_ap L r R0 n (length rs) _ (SS / m) (uscf_count WIN rs) (uscf_count LOSS rs) A1 B1 C Hn AO BO) as [A _]; [rewrite CW, CL; lia|].
    rewrite CW, CL in A |- *. rewrite <- !INR_IZR_INZ in A. fold m in A. apply (ap_weak _ _ _ _ A). lra.
  - destruct (fsum_apM _ L (fun g : USCFRating B64 * Outcomes => uxB L r (uscf_rating (fst g))) (fun g => elo_E R0 (B2R (uscf_rating (fst g)))) 1 (4 / 10 ^ 15) rs ltac:(lra) ltac:(lra)) as [Ax _]; [|lia|].
    { apply Forall_impl with (2 := HF). intros g N2. destruct (num_ap _ _ _ N2) as [A2 B2]. destruct (ux_ap L r _ R0 _ HP A1 A2 B1 B2) as [_ [AE BE]]. split; [exact AE|]. rewrite Rabs_pos_eq; lra. }
    apply (upd_uscf_ap L r R0 n (length rs) _ _ _ _ (INR (length rs) * (4 / 10 ^ 15 + u0 * (1001 * 1))) t (B2R t)); auto; try lia; try lra.
    + apply pts_sum_u. lia.
    + apply Rmult_le_compat_l; lra.
    + apply rsum01. intros [q o] _. destruct o; simpl; lra.
    + apply rsum01. intros g Hg. rewrite Forall_forall in HF. destruct (num_ap _ _ _ (HF g Hg)) as [A2 B2]. apply (ux_ap L r _ R0 _ HP A1 A2 B1 B2).
Qed.
