(** Accuracy of the Sticko formulas in double precision. *)
From Coq Require Import ZArith NArith List Bool Reals Lra Lia Psatz.
From Flocq Require Import Core.Core IEEE754.BinarySingleNaN.
From Verif Require Import Arith XR B64 ModelLib ModelGlicko ModelSticko Spec SpecB64 SpecAcc Tac MathB64 ProofB64 ProofB64b ProofB64c MathB64b ProofB64d ProofB64e MathAcc ProofBoost2 ProofAcc ProofAccDwz ProofAccUscf.
Import Spec ListNotations.
Local Open Scope R_scope.
#[local] Opaque Bplus Bminus Bmult Bdiv Bsqrt Bfma Bopp b64 b64_of_Z.

Lemma ulim : 0 < u0 <= 12 / 10 ^ 17. Proof. ulra. Qed.
Lemma pos_c c x : 0 <= c -> 0 <= x -> 0 <= c * x. Proof. intros. apply Rmult_le_pos; lra. Qed.

(** ** The expected score from a rating difference *)
Lemma lg_ap L d2 RD d w W : pow10_nonneg L -> pow10_accurate L -> ln10_accurate L -> ap d2 RD d -> d <= 15 / 10 ^ 13 -> 0 <= RD <= 500 ->
  ap w W (49 / 10 ^ 13) -> Rabs W <= 20000 ->
  let e := lgB L (argB (gB (qB L) d2) w) in
  sp e /\ in01 e /\ ap e (/ (1 + Rpower 10 (- gg RD * W / 400))) (12 / 10 ^ 13).
Proof.
  intros HN HP HL AD Hd BD AW BW. pose proof (g_ap L d2 RD d HL AD BD Hd) as G. change (gl_g_value (A := B64A L) (gl_q (A := B64A L)) d2) with (gB (qB L) d2) in G.
  destruct (gg_rng RD BD) as [_ GR].
  destruct (q_ok L (ln10_acc_sane L HL)) as [Fq Bq']. destruct (g_ok (qB L) d2 Fq Bq' (fin_nn _ (proj1 AD))) as [_ Ig].
  destruct (lg_ok L _ HN (arg_ok _ w Ig (proj1 AW))) as [Se Ie]. split; [exact Se|]. split; [exact Ie|].
  pose proof (ap_opp _ _ _ G) as G'.
  step (ap_mul _ _ _ _ _ _ 1 20000 20001 G' AW ltac:(apply Rabs_le; lra) ltac:(lra) ltac:(lra) ltac:(okb)) (8074 / 10 ^ 13).
  assert (Bt : Rabs (- gg RD * W) <= 20000). { rewrite Rabs_mult. apply Rle_trans with (1 * 20000); [|lra]. apply Rmult_le_compat; try apply Rabs_pos; [apply Rabs_le; lra|lra]. }
  assert (By : Rabs (- gg RD * W / 400) <= 50). { unfold Rdiv. rewrite Rabs_mult, (Rabs_pos_eq (/ 400)) by lra. lra. }
  step (ap_div _ _ _ _ _ _ 400 50 51 S (ap_Z 400 ltac:(vm_compute; discriminate)) ltac:(lra) ltac:(rewrite Rabs_pos_eq; lra) ltac:(lra) ltac:(lra) ltac:(okb)) (2030 / 10 ^ 15).
  destruct (log_ap L _ _ _ HP S0 ltac:(lra) ltac:(lra)) as [I E]. apply (ap_weak _ _ _ (12 / 10 ^ 13)) in E; [exact E|lra].
Qed.
(** the colour and the advantage *)
Lemma col_ap (w : bool) : ap (if w then b64_of_Z 1 else b64_of_Z (-1)) (if w then 1 else - 1) 0.
Proof. destruct w; [apply (ap_Z 1)|apply (ap_Z (-1))]; vm_compute; discriminate. Qed.
Definition adv (w : bool) (G : R) : R := if w then G else - G.
Lemma es_ap L d2 RD r1 R1 r2 R2 gamma Gm (w : bool) : pow10_nonneg L -> pow10_accurate L -> ln10_accurate L -> ap d2 RD 0 -> 0 <= RD <= 500 ->
  ap r1 R1 0 -> ap r2 R2 0 -> ap gamma Gm 0 -> Rabs R1 <= 9000 -> Rabs R2 <= 9000 -> Rabs Gm <= 1000 ->
  let e := esB L gamma (if w then b64_of_Z 1 else b64_of_Z (-1)) d2 r1 r2 in
  sp e /\ in01 e /\ ap e (gE R1 (R2 - adv w Gm) RD) (12 / 10 ^ 13).
Proof.
  intros HN HP HL AD BD A1 A2 AG B1 B2 BG e0. apply Rabs_le_inv in B1, B2. pose proof (Rabs_le_inv _ _ BG) as BG'.
  step (ap_sub _ _ _ _ _ _ 18001 A1 A2 ltac:(rewrite !Rplus_0_r; apply Rabs_le; lra) ltac:(okb)) (22 / 10 ^ 13).
  assert (BT : Rabs (Gm * (if w then 1 else - 1) + (R1 - R2)) <= 19000) by (apply Rabs_le; destruct w; lra).
  step (ap_fma _ _ _ _ _ _ _ _ _ 1000 1 19001 AG (col_ap w) S BG ltac:(apply Rabs_le; destruct w; lra) ltac:(lra) ltac:(okb)) (49 / 10 ^ 13).
  destruct (lg_ap L d2 RD 0 _ _ HN HP HL AD ltac:(lra) BD S0 ltac:(lra)) as [Se [Ie Ae]]. split; [exact Se|]. split; [exact Ie|].
  apply (ap_eq _ _ _ _ Ae). unfold gE. do 3 f_equal. unfold adv. destruct w; ring_simplify (R1 - (R2 - Gm)); unfold Rdiv; ring.
Qed.

(** ** The sum of two precisions *)
Lemma JX_ap x v X V n : ap x X (24 / 10 ^ 16 * X) -> 1 <= X <= 223000 -> ap v V (n * (92 / 10 ^ 18)) -> 0 <= V <= n -> 1 <= n <= 1000 ->
  ap (Bplus mode_NE (Bdiv mode_NE one64 x) v) (/ X + V) (n * (206 / 10 ^ 13) * (/ X + V)) /\ / 223000 <= / X + V <= 1001.
Proof.
  intros A2 Bp AV BV Bn. pose proof ulim as U0. assert (Ip : / 223000 <= / X <= 1) by (split; [apply Rinv_le_contravar; lra|apply Rle_trans with (/ 1); [apply Rinv_le_contravar; lra|lra]]).
  assert (Ev : (0 + / X * (24 / 10 ^ 16 * X)) / (99 / 100 * X) = 24 / 10 ^ 16 * (100 / 99) * / X) by (field; lra).
  assert (uq : 0 <= u0 * / X <= 12 / 10 ^ 17 * / X) by (split; [apply Rmult_le_pos; lra|apply Rmult_le_compat_r; lra]).
  pose proof (ap_div _ _ 1 X 0 (24 / 10 ^ 16 * X) (99 / 100 * X) (/ X) (1.01 * / X) (ap_exact one64 1 fin_one64 ext_one64) A2 ltac:(lra) ltac:(rewrite Rabs_pos_eq; lra)
    ltac:(unfold Rdiv; rewrite Rmult_1_l, Rabs_pos_eq; lra) ltac:(rewrite Ev; lra) ltac:(okb)) as A3. rewrite Ev in A3.
  apply (ap_weak _ _ _ (26 / 10 ^ 16 * / X)) in A3; [|lra]. apply (ap_eq _ _ (/ X)) in A3; [|unfold Rdiv; ring].
  set (J := / X + V) in *. assert (BJ : / 223000 <= J <= 1001) by (unfold J; lra). split; [|exact BJ].
  assert (uJ : 0 <= u0 * J <= 12 / 10 ^ 17 * J) by (split; [apply Rmult_le_pos; lra|apply Rmult_le_compat_r; lra]).
  assert (nJ : n * / 223000 <= n * J) by (apply Rmult_le_compat_l; lra). assert (nJ2 : J <= n * J) by (rewrite <- (Rmult_1_l J) at 1; apply Rmult_le_compat_r; lra).
  assert (IJ : / X <= J) by (unfold J; lra).
  pose proof (ap_add _ _ _ _ _ _ (1.01 * J) A3 AV ltac:(fold J; rewrite (Rabs_pos_eq J) by lra; lra) ltac:(okb)) as A4. fold J in A4.
  apply (ap_weak _ _ _ (n * (206 / 10 ^ 13) * J)) in A4; [exact A4|]. lra.
Qed.
Lemma DX_ap s J n : ap s J (n * (206 / 10 ^ 13) * J) -> / 223000 <= J <= 1001 -> 1 <= n <= 1000 ->
  ap (b64_min (Bsqrt mode_NE (Bdiv mode_NE one64 s)) (b64_of_Z 350)) (Rmin (sqrt (/ J)) 350) (n / 10 ^ 8).
Proof.
  intros AJ BJ Bn. pose proof ulim as U0.
  assert (IJ : / 1001 <= / J <= 223000). { split; [apply Rinv_le_contravar; lra|]. rewrite <- (Rinv_inv 223000). apply Rinv_le_contravar; lra. }
  assert (nJ : 0 <= n * J <= 1000 * J) by (split; [apply Rmult_le_pos; lra|apply Rmult_le_compat_r; lra]).
  set (i := / J) in *. assert (ni : 0 <= n * i <= 1000 * i) by (split; [apply Rmult_le_pos; lra|apply Rmult_le_compat_r; lra]).
  assert (ui : 0 <= u0 * i <= 12 / 10 ^ 17 * i) by (split; [apply Rmult_le_pos; lra|apply Rmult_le_compat_r; lra]).
  assert (Ew : (0 + i * (n * (206 / 10 ^ 13) * J)) / (99 / 100 * J) = n * i * (206 / 10 ^ 13 * (100 / 99))) by (unfold i; field; lra).
  pose proof (ap_div _ _ 1 J 0 _ (99 / 100 * J) i (1.01 * i) (ap_exact one64 1 fin_one64 ext_one64) AJ ltac:(lra) ltac:(rewrite Rabs_pos_eq; lra) ltac:(unfold Rdiv; rewrite Rmult_1_l; fold i; rewrite Rabs_pos_eq; lra) ltac:(rewrite Ew; lra) ltac:(okb)) as A2.
  rewrite Ew in A2. assert (ii : i <= n * i) by (rewrite <- (Rmult_1_l i) at 1; apply Rmult_le_compat_r; lra). apply (ap_weak _ _ _ (n * i * (209 / 10 ^ 13))) in A2; [|lra]. apply (ap_eq _ _ i) in A2; [|unfold Rdiv, i; ring].
  set (D := sqrt i). assert (DD : D * D = i) by (apply sqrt_sqrt; lra). assert (D0 : 0 < D) by (apply sqrt_lt_R0; lra). assert (BD : 0.03 <= D <= 473) by (split; [apply Rsqr_incr_0_var; unfold Rsqr; lra|apply Rsqr_incr_0_var; unfold Rsqr; lra]).
  assert (Ez : n * i * (209 / 10 ^ 13) / D = n * D * (209 / 10 ^ 13)) by (rewrite <- DD; field; lra).
  assert (nD : 0 <= n * D <= 1000 * D) by (split; [apply Rmult_le_pos; lra|apply Rmult_le_compat_r; lra]). assert (nD2 : n * D <= n * 473) by (apply Rmult_le_compat_l; lra). assert (nD3 : D <= n * D) by (rewrite <- (Rmult_1_l D) at 1; apply Rmult_le_compat_r; lra).
  assert (uD : 0 <= u0 * D <= 12 / 10 ^ 17 * D) by (split; [apply Rmult_le_pos; lra|apply Rmult_le_compat_r; lra]).
  pose proof (ap_sqrt _ _ _ D D (1.01 * D) A2 D0 ltac:(fold D; lra) ltac:(fold D; lra) ltac:(lra) ltac:(rewrite Ez; lra) ltac:(okb)) as A3. rewrite Ez in A3.
  apply (ap_weak _ _ _ (n / 10 ^ 8)) in A3; [|lra]. apply min_ap; [exact A3|]. apply (ap_Z 350). vm_compute; discriminate.
Qed.
(** pre^2 + h *)
Lemma preh_ap pre P ht T : ap pre P (/ 10 ^ 15 * P) -> 1 <= P <= 350 -> ap ht T (u0 * (T + 1)) -> 0 <= T <= 10 ^ 5 ->
  ap (Bfma mode_NE pre pre ht) (P ^ 2 + T) (24 / 10 ^ 16 * (P ^ 2 + T)) /\ 1 <= P ^ 2 + T <= 223000.
Proof.
  intros AP BP AT BT. pose proof ulim as U0. replace (P ^ 2) with (P * P) by ring. set (p := P * P). assert (Bp : 1 <= p <= 122500) by (unfold p; nra). split; [|lra].
  set (X := p + T) in *. assert (BX : 1 <= X <= 222500) by (unfold X; lra).
  assert (up : 0 <= u0 * X <= 12 / 10 ^ 17 * X) by (split; [apply Rmult_le_pos; lra|apply Rmult_le_compat_r; lra]). assert (ut : 0 <= u0 * (T + 1) <= 12 / 10 ^ 17 * (T + 1)) by (split; [apply Rmult_le_pos; lra|apply Rmult_le_compat_r; lra]).
  assert (E1 : P * (/ 10 ^ 15 * P) = / 10 ^ 15 * p) by (unfold p; ring). assert (E2 : / 10 ^ 15 * P * (/ 10 ^ 15 * P) = / 10 ^ 15 * / 10 ^ 15 * p) by (unfold p; ring).
  assert (px : p <= X) by (unfold X; lra). assert (tx : T + 1 <= X) by (unfold X; lra).
  pose proof (ap_fma _ _ _ _ _ _ _ _ _ P P (X * 1.01) AP AP AT ltac:(rewrite Rabs_pos_eq; lra) ltac:(rewrite Rabs_pos_eq; lra) ltac:(fold p; fold X; rewrite E1, E2, (Rabs_pos_eq X) by lra; lra) ltac:(okb)) as A2.
  rewrite E1, E2 in A2. fold p in A2. fold X in A2. apply (ap_weak _ _ _ _ A2). lra.
Qed.
Lemma score_ap o s e E b Bt : ap o s 0 -> 0 <= s <= 1 -> ap e E (12 / 10 ^ 13) -> 0 <= E <= 1 -> ap b Bt 0 -> - (1) <= Bt <= 1 ->
  ap (Bplus mode_NE (Bminus mode_NE o e) b) (s + Bt - E) (15 / 10 ^ 13) /\ Rabs (s + Bt - E) <= 2.
Proof.
  intros Ao Bs Ae BE Ab BB. pose proof (pts_minus_ap o s e E _ Ao Bs Ae BE ltac:(lra)) as As.
  assert (Q : Rabs (s - E + Bt) <= 2) by (apply Rabs_le; lra).
  step (ap_add _ _ _ _ _ _ 2.01 As Ab ltac:(lra) ltac:(okb)) (15 / 10 ^ 13). replace (s + Bt - E) with (s - E + Bt) by ring. split; assumption.
Qed.
Lemma lam_ap lambda Lm m Mn r R1 dm : ap lambda Lm 0 -> - (100) <= Lm <= 100 -> ap m Mn dm -> dm <= / 10 ^ 8 -> ap r R1 0 -> Rabs Mn <= 9000 -> Rabs R1 <= 9000 ->
  ap (Bmult mode_NE (Bdiv mode_NE lambda (b64_of_Z 100)) (Bminus mode_NE m r)) (Lm / 100 * (Mn - R1)) (dm + 72 / 10 ^ 13) /\ Rabs (Lm / 100 * (Mn - R1)) <= 18000.
Proof.
  intros Al Bl Am Dm Ar BM BR. apply Rabs_le_inv in BM, BR. pose proof (ap_nonneg _ _ _ Am) as D0.
  assert (Q1 : Rabs (Lm / 100) <= 1) by (apply Rabs_le; lra). assert (Q2 : Rabs (Mn - R1) <= 18000) by (apply Rabs_le; lra).
  step (ap_div _ _ _ _ _ _ 100 1 1.01 Al (ap_Z 100 ltac:(vm_compute; discriminate)) ltac:(lra) ltac:(rewrite Rabs_pos_eq; lra) Q1 ltac:(lra) ltac:(okb)) (13 / 10 ^ 17).
  pose proof (ap_sub _ _ _ _ _ _ 18001 Am Ar ltac:(lra) ltac:(okb)) as S0. apply (ap_weak _ _ _ (dm + 22 / 10 ^ 13)) in S0; [|ulra].
  pose proof (ap_mul _ _ _ _ _ _ 1 18000 18001 S S0 Q1 Q2 ltac:(lra) ltac:(okb)) as S1. apply (ap_weak _ _ _ (dm + 72 / 10 ^ 13)) in S1; [|ulra].
  split; [exact S1|]. rewrite Rabs_mult. apply Rle_trans with (1 * 18000); [|lra]. apply Rmult_le_compat; try apply Rabs_pos; lra.
Qed.
Lemma num_abs b x : num_in (- b) b x -> ap x (B2R x) 0 /\ Rabs (B2R x) <= b.
Proof. intro N. destruct (num_ap _ _ _ N) as [A B]. split; [exact A|apply Rabs_le; lra]. Qed.
Lemma sticko_half_ap L r1 d1 r2 d2 c o s (w : bool) h beta lambda gamma : ap o s 0 -> 0 <= s <= 1 -> pow10_nonneg L -> pow10_accurate L -> ln10_accurate L -> hypot_accurate L ->
  num_in (- (9000)) 9000 r1 -> num_in 1 350 d1 -> num_in (- (9000)) 9000 r2 -> num_in 1 350 d2 ->
  num_in 0 100 h -> num_in (- (1)) 1 beta -> num_in (- (100)) 100 lambda -> num_in (- (1000)) 1000 gamma -> num_in 0 1000 c ->
  let q := qB L in let g := gB q d2 in let e := esB L gamma (if w then b64_of_Z 1 else b64_of_Z (-1)) d2 r1 r2 in
  let v := Bdiv mode_NE one64 (Bdiv mode_NE one64 (xB q g e)) in let pre := b64_min (l_hypot L d1 c) (b64_of_Z 350) in
  let K := Bmult mode_NE (Bdiv mode_NE q (sB pre v)) g in
  let lam := Bmult mode_NE (Bdiv mode_NE lambda (b64_of_Z 100)) (Bminus mode_NE r2 r1) in
  let games := [(B2R r2 - adv w (B2R gamma), B2R d2, s + B2R beta)] in let P := gpre (B2R d1) (B2R c) in
  near (Bplus mode_NE (Bfma mode_NE K (Bplus mode_NE (Bminus mode_NE o e) beta) r1) lam)
       (glicko_r (B2R r1) P games + B2R lambda / 100 * (B2R r2 - B2R r1)) (2 / 10 ^ 8) /\
  near (b64_min (Bsqrt mode_NE (Bdiv mode_NE one64 (Bplus mode_NE (Bdiv mode_NE one64 (Bfma mode_NE pre pre h)) v))) (b64_of_Z 350))
       (Rmin (sqrt (/ (/ (P ^ 2 + B2R h) + gd2inv (B2R r1) games))) 350) (/ 10 ^ 8).
Proof.
  intros Ao PR HN HP HL HH N1 M1 N2 M2 Nh Nb Nl Ng NC q g e v pre K lam games P.
  destruct (num_abs _ _ N1) as [A1 B1]. destruct (num_abs _ _ N2) as [A2 B2]. destruct (num_ap _ _ _ M1) as [D1 E1]. destruct (num_ap _ _ _ M2) as [D2 E2]. destruct (num_ap _ _ _ NC) as [C1 C2].
  destruct (num_ap _ _ _ Nh) as [Ah Bh]. destruct (num_ap _ _ _ Nb) as [Ab Bb]. destruct (num_ap _ _ _ Nl) as [Al Bl]. destruct (num_abs _ _ Ng) as [AG BG].
  set (R1 := B2R r1) in *. set (R2 := B2R r2) in *. set (RD1 := B2R d1) in *. set (RD2 := B2R d2) in *. set (C := B2R c) in *. set (Hh := B2R h) in *. set (Be := B2R beta) in *. set (La := B2R lambda) in *. set (Ga := B2R gamma) in *.
  destruct (es_ap L d2 RD2 r1 R1 r2 R2 gamma Ga w HN HP HL D2 ltac:(lra) A1 A2 AG B1 B2 BG) as [Se [Ie Ae]]. fold e in Se, Ie, Ae.
  pose proof (gE_01 R1 (R2 - adv w Ga) RD2) as BE. set (E := gE R1 (R2 - adv w Ga) RD2) in *.
  destruct (gg_ap L d2 RD2 HL D2 ltac:(lra)) as [Ag [Ag2 [Bg Bg2]]]. fold q in Ag, Ag2. fold g in Ag, Ag2. set (G := gg RD2) in *.
  destruct (qq_ap L HL) as [Aq Bq]. fold q in Aq.
  assert (Sx : sp (xB q g e)).
  { destruct (q_ok L (ln10_acc_sane L HL)) as [Fq Bq']. destruct (g_ok (qB L) d2 Fq Bq' (fin_nn _ (proj1 M2))) as [Sg Ig]. apply x_ok; auto. }
  pose proof (one_minus_ap e E _ Ae ltac:(lra) ltac:(lra)) as Am. pose proof (pq _ _ _ _ Bq Bg2) as T1.
  step (ap_mul _ _ _ _ _ _ 0.0000332 1 0.00004 Aq Ag2 ltac:(bd) ltac:(bd) ltac:(lra) ltac:(okb)) (32 / 10 ^ 19).
  assert (T2 : 0 <= gq * gq * (G * G) <= 0.0000332) by (split; [apply Rmult_le_pos; lra|apply Rabs_le_inv in T1; lra]).
  step (ap_mul _ _ _ _ _ _ 0.0000332 1 0.00004 S Ae ltac:(bd) ltac:(bd) ltac:(lra) ltac:(okb)) (44 / 10 ^ 18).
  assert (T3 : 0 <= gq * gq * (G * G) * E <= 0.0000332) by (split; [apply Rmult_le_pos; lra|]; apply Rle_trans with (0.0000332 * 1); [apply Rmult_le_compat; lra|lra]).
  step (ap_mul _ _ _ _ _ _ 0.0000332 1 0.00004 S0 Am ltac:(bd) ltac:(bd) ltac:(lra) ltac:(okb)) (85 / 10 ^ 18).
  assert (T4 : 0 <= gq * gq * (G * G) * E * (1 - E) <= 0.0000332) by (split; [apply Rmult_le_pos; lra|]; apply Rle_trans with (0.0000332 * 1); [apply Rmult_le_compat; lra|lra]).
  fold (xB q g e) in S1. pose proof (rr_ap _ _ _ 0.00004 Sx S1 ltac:(lra) ltac:(lra)) as Av. fold v in Av.
  set (V := gq * gq * (G * G) * E * (1 - E)) in *. apply (ap_weak _ _ _ (1 * (92 / 10 ^ 18))) in Av; [|ulra].
  destruct (hyp_ap L d1 c RD1 C HH D1 C1 ltac:(lra) C2) as [Ap Bp]. fold pre in Ap. fold P in Ap, Bp.
  destruct (J_ap pre v _ V 1 Ap Bp Av ltac:(lra) ltac:(lra)) as [AJ BJ].
  destruct (K_ap L _ _ 1 HL AJ BJ ltac:(lra)) as [AK [BK _]]. fold q in AK.
  destruct (preh_ap pre P h Hh Ap Bp ltac:(apply (ap_weak _ _ _ _ Ah); pose proof ulim; apply pos_c; lra) ltac:(lra)) as [AX BX].
  destruct (JX_ap _ v _ V 1 AX BX Av ltac:(lra) ltac:(lra)) as [AJ2 BJ2]. pose proof (DX_ap _ _ 1 AJ2 BJ2 ltac:(lra)) as AD.
  assert (EV : gd2inv R1 games = V). { unfold gd2inv, games, V. cbn [map Rsum fold_right]. fold E. fold G. ring. }
  assert (EM : gM R1 games = G * (s + Be - E)). { unfold gM, games. cbn [map Rsum fold_right]. fold E. fold G. ring. }
  unfold glicko_r. rewrite EV, EM. split.
  2:{ apply ap_near. apply (ap_weak _ _ _ _ AD). lra. }
  set (J := / P ^ 2 + V) in *.
  apply ap_near. step (ap_mul _ _ _ _ _ _ 706 1 710 AK Ag ltac:(bd) ltac:(bd) ltac:(lra) ltac:(okb)) (83 / 10 ^ 10).
  fold K in S2. destruct (score_ap o s e E beta Be Ao PR Ae ltac:(lra) Ab Bb) as [As Bs].
  destruct (lam_ap lambda La r2 R2 r1 R1 0 Al Bl A2 ltac:(lra) A1 B2 B1) as [Alam Blam]. fold lam in Alam.
  assert (BKG : 0 <= gq / J * G <= 706) by (split; [apply Rmult_le_pos; lra|]; apply Rle_trans with (706 * 1); [apply Rmult_le_compat; lra|lra]).
  assert (BPR : Rabs (gq / J * G * (s + Be - E)) <= 1412). { rewrite Rabs_mult, (Rabs_pos_eq (gq / J * G)) by lra. apply Rle_trans with (706 * 2); [apply Rmult_le_compat; try lra; apply Rabs_pos|lra]. }
  assert (BT : Rabs (gq / J * G * (s + Be - E) + R1) <= 10412) by (eapply Rle_trans; [apply Rabs_triang|]; lra).
  step (ap_fma _ _ _ _ _ _ _ _ _ 706 2 10413 S2 As A1 ltac:(bd) Bs ltac:(lra) ltac:(okb)) (18 / 10 ^ 9).
  assert (BU : Rabs (gq / J * G * (s + Be - E) + R1 + La / 100 * (R2 - R1)) <= 28412) by (eapply Rle_trans; [apply Rabs_triang|]; lra).
  step (ap_add _ _ _ _ _ _ 28413 S3 Alam ltac:(lra) ltac:(okb)) (2 / 10 ^ 8).
  apply (ap_eq _ _ _ _ S4). ring.
Qed.

Lemma fold_st_g L q d : st_g_value (A := B64A L) q d = gB q d. Proof. reflexivity. Qed.
Lemma fold_st_e L d r1 r2 a (w : bool) : st_e_value (A := B64A L) (gB (qB L) d) r1 r2 a (if w then b64_of_Z 1 else b64_of_Z (-1)) = esB L a (if w then b64_of_Z 1 else b64_of_Z (-1)) d r1 r2. Proof. reflexivity. Qed.
Lemma fold_st_e1 L d r1 r2 a : st_e_value (A := B64A L) (gB (qB L) d) r1 r2 a (fofZ (Arith := B64A L) 1) = esB L a (b64_of_Z 1) d r1 r2. Proof. reflexivity. Qed.
Lemma fold_st_e2 L d r1 r2 a : st_e_value (A := B64A L) (gB (qB L) d) r1 r2 a (fofZ (Arith := B64A L) (-1)) = esB L a (b64_of_Z (-1)) d r1 r2. Proof. reflexivity. Qed.
Lemma fold_st_x L q g e : st_d_value (A := B64A L) q g e = Bdiv mode_NE one64 (xB q g e). Proof. reflexivity. Qed.
Lemma fold_st_pre L d c : st_pre_deviation (A := B64A L) d c = b64_min (l_hypot L d c) (b64_of_Z 350). Proof. reflexivity. Qed.
Lemma fold_st_r L r pre q d g s e b l : st_new_rating (A := B64A L) r pre q d g s e b l = Bplus mode_NE (Bfma mode_NE (Bmult mode_NE (Bdiv mode_NE q (sB pre (Bdiv mode_NE one64 d))) g) (Bplus mode_NE (Bminus mode_NE s e) b) r) l.
Proof. reflexivity. Qed.
Lemma fold_st_d L pre d h : st_new_deviation (A := B64A L) pre d h = b64_min (Bsqrt mode_NE (Bdiv mode_NE one64 (Bplus mode_NE (Bdiv mode_NE one64 (Bfma mode_NE pre pre h)) (Bdiv mode_NE one64 d)))) (b64_of_Z 350).
Proof. reflexivity. Qed.

Lemma C107_game_proof : forall (L : Libm) (p1 p2 : StickoRating B64) (o : Outcomes) (cfg : StickoConfig B64),
  pow10_nonneg L -> pow10_accurate L -> ln10_accurate L -> hypot_accurate L ->
  num_in (- (9000)) 9000 (st_rating p1) -> num_in 1 350 (st_deviation p1) -> num_in (- (9000)) 9000 (st_rating p2) -> num_in 1 350 (st_deviation p2) ->
  num_in 0 100 (st_h cfg) -> num_in (- (1)) 1 (st_beta cfg) -> num_in (- (100)) 100 (st_lambda cfg) -> num_in (- (1000)) 1000 (st_gamma cfg) -> num_in 0 1000 (st_c cfg) ->
  let h := B2R (st_h cfg) in let beta := B2R (st_beta cfg) in let lambda := B2R (st_lambda cfg) in let gamma := B2R (st_gamma cfg) in
  let r1 := B2R (st_rating p1) in let d1 := B2R (st_deviation p1) in let r2 := B2R (st_rating p2) in let d2 := B2R (st_deviation p2) in
  let P1 := gpre d1 (B2R (st_c cfg)) in let P2 := gpre d2 (B2R (st_c cfg)) in
  let games1 := [(r2, d2, o, true)] in let games2 := [(r1, d1, invert o, false)] in
  let new := sticko (A := B64A L) p1 p2 o cfg in
  (near (st_rating (fst new)) (sticko_r r1 P1 beta gamma lambda games1) (2 / 10 ^ 8) /\
   near (st_deviation (fst new)) (sticko_rd r1 P1 beta gamma h games1) (/ 10 ^ 8)) /\
  (near (st_rating (snd new)) (sticko_r r2 P2 beta gamma lambda games2) (2 / 10 ^ 8) /\
   near (st_deviation (snd new)) (sticko_rd r2 P2 beta gamma h games2) (/ 10 ^ 8)).
Proof.
  intros L [r1 d1] [r2 d2] o [h beta lambda gamma c] HN HP HL HH N1 M1 N2 M2 Nh Nb Nl Ng NC. cbn [st_rating st_deviation st_h st_beta st_lambda st_gamma st_c] in N1, M1, N2, M2, Nh, Nb, Nl, Ng, NC.
  intros Hh Be La Ga R1 RD1 R2 RD2 P1 P2 g1 g2 new.
  destruct (ext_points L o) as [Fp Ep]. destruct (ext_points2 L o) as [Fq Eq]. cbv zeta in Fq, Eq. pose proof (points_range o) as PR.
  assert (PI' : points (invert o) = 1 - points o) by (destruct o; simpl; lra).
  destruct (sticko_half_ap L r1 d1 r2 d2 c _ _ true h beta lambda gamma (ap_exact _ _ Fp Ep) PR HN HP HL HH N1 M1 N2 M2 Nh Nb Nl Ng NC) as [X1 X2].
  destruct (sticko_half_ap L r2 d2 r1 d1 c _ _ false h beta lambda gamma (ap_exact _ _ Fq Eq) ltac:(lra) HN HP HL HH N2 M2 N1 M1 Nh Nb Nl Ng NC) as [Y1 Y2]. rewrite <- PI' in Y1, Y2.
  assert (E1 : forall x y, mean [x] - y = x - y) by (intros; unfold mean; simpl; field).
  assert (E2 : forall x, x * INR 1 = x) by (intros; simpl; ring).
  unfold sticko_r, sticko_rd, g1, g2. cbn [map length st_game]. rewrite !E1, !E2.
  unfold new, sticko. cbn [fst snd st_rating st_deviation st_h st_beta st_lambda st_gamma st_c]. cbv zeta. change (st_q (A := B64A L)) with (qB L). rewrite !fold_st_g.
  rewrite (fold_st_e1 L d2 r1 r2 gamma), (fold_st_e2 L d1 r2 r1 gamma), !fold_st_x, !fold_st_pre, !fold_st_r, !fold_st_d.
  split; (split; [|]); [exact X1|exact X2|exact Y1|exact Y2].
Qed.

(** ** Rating periods *)
Notation gameB := (StickoRating B64 * Outcomes * bool)%type.
Definition sgB (L : Libm) (x : gameB) : B64 := gB (qB L) (st_deviation (fst (fst x))).
Definition seB (L : Libm) (r gamma : B64) (x : gameB) : B64 :=
  esB L gamma (if snd x then b64_of_Z 1 else b64_of_Z (-1)) (st_deviation (fst (fst x))) r (st_rating (fst (fst x))).
Definition stB (L : Libm) (r gamma : B64) (x : gameB) : B64 :=
  let g := sgB L x in let e := seB L r gamma x in Bmult mode_NE (Bmult mode_NE (Bmult mode_NE g g) e) (Bminus mode_NE one64 e).
Definition smB (L : Libm) (r gamma beta : B64) (x : gameB) : B64 :=
  Bmult mode_NE (sgB L x) (Bplus mode_NE (Bminus mode_NE (to_chess_points (A := B64A L) (snd (fst x))) (seB L r gamma x)) beta).
Definition sperB (L : Libm) (r d h lambda c S m sr n : B64) : StickoRating B64 :=
  let pre := b64_min (l_hypot L d c) (b64_of_Z 350) in
  let v := Bdiv mode_NE one64 (Bdiv mode_NE one64 (Bmult mode_NE (Bmult mode_NE (qB L) (qB L)) S)) in
  mkSticko (Bplus mode_NE (Bfma mode_NE (Bdiv mode_NE (qB L) (sB pre v)) m r)
             (Bmult mode_NE (Bdiv mode_NE lambda (b64_of_Z 100)) (Bminus mode_NE (Bdiv mode_NE sr n) r)))
    (b64_min (Bsqrt mode_NE (Bdiv mode_NE one64 (Bplus mode_NE (Bdiv mode_NE one64 (Bfma mode_NE pre pre (Bmult mode_NE h n))) v))) (b64_of_Z 350)).
Lemma sperB_ok L r d h beta lambda gamma c x l : sticko_rating_period (A := B64A L) (mkSticko r d) (x :: l) (mkStickoConfig h beta lambda gamma c) =
  sperB L r d h lambda c (fsum (A := B64A L) (map (stB L r gamma) (x :: l))) (fsum (A := B64A L) (map (smB L r gamma beta) (x :: l)))
    (fsum (A := B64A L) (map (fun x : gameB => st_rating (fst (fst x))) (x :: l))) (b64_of_Z (Z.of_nat (length (x :: l)))).
Proof.
  unfold sticko_rating_period. cbv zeta. cbn [st_h st_beta st_lambda st_gamma st_c st_rating st_deviation].
  match goal with |- context [fmul (fpowi _ 2) (fsum (map ?f (x :: l)))] => rewrite (map_ext f (stB L r gamma)) by (intros [[[? ?] ?] ?]; reflexivity) end.
  match goal with |- context [ffma _ (fsum (map ?f (x :: l))) _] => rewrite (map_ext f (smB L r gamma beta)) by (intros [[[? ?] ?] ?]; reflexivity) end.
  generalize (fsum (A := B64A L) (map (stB L r gamma) (x :: l))). intro S. generalize (fsum (A := B64A L) (map (smB L r gamma beta) (x :: l))). intro m.
  match goal with |- context [fsum (map ?f (x :: l))] => generalize (fsum (A := B64A L) (map f (x :: l))) end. intro sr. reflexivity.
Qed.
Lemma C107_period_proof : forall (L : Libm) (p : StickoRating B64) (rs : list (StickoRating B64 * Outcomes * bool)) (cfg : StickoConfig B64),
  pow10_nonneg L -> pow10_accurate L -> ln10_accurate L -> hypot_accurate L ->
  num_in (- (9000)) 9000 (st_rating p) -> num_in 1 350 (st_deviation p) ->
  num_in 0 100 (st_h cfg) -> num_in (- (1)) 1 (st_beta cfg) -> num_in (- (100)) 100 (st_lambda cfg) -> num_in (- (1000)) 1000 (st_gamma cfg) -> num_in 0 1000 (st_c cfg) ->
  Forall (fun g => num_in (- (9000)) 9000 (st_rating (fst (fst g))) /\ num_in 1 350 (st_deviation (fst (fst g)))) rs ->
  (1 <= length rs <= 1000)%nat ->
  let r := B2R (st_rating p) in let P := gpre (B2R (st_deviation p)) (B2R (st_c cfg)) in
  let games := map (fun g => (B2R (st_rating (fst (fst g))), B2R (st_deviation (fst (fst g))), snd (fst g), snd g)) rs in
  let n := INR (length rs) in
  let new := sticko_rating_period (A := B64A L) p rs cfg in
  near (st_rating new) (sticko_r r P (B2R (st_beta cfg)) (B2R (st_gamma cfg)) (B2R (st_lambda cfg)) games) (2 * n * n / 10 ^ 8) /\
  near (st_deviation new) (sticko_rd r P (B2R (st_beta cfg)) (B2R (st_gamma cfg)) (B2R (st_h cfg)) games) (n / 10 ^ 8).
Proof.
  intros L [r d] rs [h beta lambda gamma c] HN HP HL HH N1 M1 Nh Nb Nl Ng NC Hrs Hlen.
  destruct rs as [|r0 rs0]; [simpl in Hlen; lia|]. remember (r0 :: rs0) as rs eqn:Ers. intros R1 P games n new.
  cbn [st_rating st_deviation st_h st_beta st_lambda st_gamma st_c] in N1, M1, Nh, Nb, Nl, Ng, NC, R1, P, new |- *.
  assert (Bn : 1 <= n <= 1000). { unfold n. replace 1000 with (INR 1000) by (rewrite INR_IZR_INZ; reflexivity). change 1 with (INR 1). split; apply le_INR; lia. }
  destruct (num_abs _ _ N1) as [A1 B1]. destruct (num_ap _ _ _ M1) as [D1 E1]. destruct (num_ap _ _ _ NC) as [C1 C2].
  destruct (num_ap _ _ _ Nh) as [Ah Bh]. destruct (num_ap _ _ _ Nb) as [Ab Bb]. destruct (num_ap _ _ _ Nl) as [Al Bl]. destruct (num_abs _ _ Ng) as [AG BG].
  fold R1 in A1, B1. set (RD1 := B2R d) in *. set (C := B2R c) in *. set (Hh := B2R h) in *. set (Be := B2R beta) in *. set (La := B2R lambda) in *. set (Ga := B2R gamma) in *. set (q := qB L).
  set (GF := fun x : gameB => gg (B2R (st_deviation (fst (fst x))))).
  set (EF := fun x : gameB => gE R1 (B2R (st_rating (fst (fst x))) - adv (snd x) Ga) (B2R (st_deviation (fst (fst x))))).
  set (TF := fun x => GF x * GF x * EF x * (1 - EF x)). set (MF := fun x => GF x * (points (snd (fst x)) + Be - EF x)).
  set (tf := stB L r gamma). set (mf := smB L r gamma beta).
  assert (H : Forall (fun x => ((ap (tf x) (TF x) (25 / 10 ^ 13) /\ Rabs (TF x) <= 1) /\ (ap (mf x) (MF x) (16 / 10 ^ 13) /\ Rabs (MF x) <= 2)) /\ sp (tf x)) rs).
  { eapply Forall_impl; [|exact Hrs]. intros [[[r2 d2] o] w] [N2 M2]. cbn [fst snd st_rating st_deviation] in N2, M2.
    destruct (num_abs _ _ N2) as [A2 B2]. destruct (num_ap _ _ _ M2) as [D2 E2]. unfold tf, TF, mf, MF, stB, smB, sgB, seB, GF, EF. cbv zeta. cbn [fst snd st_rating st_deviation]. fold q.
    set (R2 := B2R r2) in *. set (RD2 := B2R d2) in *.
    destruct (es_ap L d2 RD2 r R1 r2 R2 gamma Ga w HN HP HL D2 ltac:(lra) A1 A2 AG B1 B2 BG) as [Se [Ie Ae]].
    destruct (q_ok L (ln10_acc_sane L HL)) as [Fq Bq']. destruct (g_ok (qB L) d2 Fq Bq' (fin_nn _ (proj1 M2))) as [Sg Ig]. fold q in Sg, Ig.
    split; [|apply prec_ok; assumption]. set (e := esB L gamma (if w then b64_of_Z 1 else b64_of_Z (-1)) d2 r r2) in *.
    pose proof (gE_01 R1 (R2 - adv w Ga) RD2) as BE. set (E := gE R1 (R2 - adv w Ga) RD2) in *.
    destruct (gg_ap L d2 RD2 HL D2 ltac:(lra)) as [Ag [Ag2 [Bg Bg2]]]. fold q in Ag, Ag2. set (g := gB q d2) in *. set (G := gg RD2) in *.
    pose proof (one_minus_ap e E _ Ae ltac:(lra) ltac:(lra)) as Am. destruct (ext_points L o) as [Fp Ep]. pose proof (points_range o) as PR.
    destruct (score_ap _ _ e E beta Be (ap_exact _ _ Fp Ep) PR Ae ltac:(lra) Ab Bb) as [As Bs].
    step (ap_mul _ _ _ _ _ _ 1 1 1.01 Ag2 Ae ltac:(bd) ltac:(bd) ltac:(lra) ltac:(okb)) (1291 / 10 ^ 15).
    assert (T3 : 0 <= G * G * E <= 1) by (split; [apply Rmult_le_pos; lra|]; apply Rle_trans with (1 * 1); [apply Rmult_le_compat; lra|lra]).
    step (ap_mul _ _ _ _ _ _ 1 1 1.01 S Am ltac:(bd) ltac:(bd) ltac:(lra) ltac:(okb)) (25 / 10 ^ 13).
    step (ap_mul _ _ _ _ _ _ 1 2 2.01 Ag As ltac:(bd) Bs ltac:(lra) ltac:(okb)) (16 / 10 ^ 13).
    split; (split; [assumption|]).
    - apply Rle_trans with (1 * 1); [|lra]. apply pq; lra.
    - rewrite Rabs_mult. apply Rle_trans with (1 * 2); [|lra]. apply Rmult_le_compat; try apply Rabs_pos; [apply Rabs_le; lra|exact Bs]. }
  assert (Hl : (length rs <= 1000)%nat) by lia.
  destruct (fsum_ap _ L tf TF (25 / 10 ^ 13) rs ltac:(lra)) as [AS BS]; [eapply Forall_impl; [|exact H]; intros x X; apply X|exact Hl|].
  destruct (fsum_apM _ L mf MF 2 (16 / 10 ^ 13) rs ltac:(lra) ltac:(lra)) as [AM BM]; [eapply Forall_impl; [|exact H]; intros x X; apply X|exact Hl|].
  destruct (fsum_apM _ L (fun x : gameB => st_rating (fst (fst x))) (fun x : gameB => B2R (st_rating (fst (fst x)))) 9000 0 rs ltac:(lra) ltac:(lra)) as [AR BR]; [|exact Hl|].
  { eapply Forall_impl; [|exact Hrs]. intros x [N2 _]. exact (num_abs _ _ N2). }
  fold n in AS, BS, AM, BM, AR, BR. set (S := fsum (A := B64A L) (map tf rs)) in *. set (m := fsum (A := B64A L) (map mf rs)) in *. set (sr := fsum (A := B64A L) (map (fun x : gameB => st_rating (fst (fst x))) rs)).
  set (SR := Rsum (map (fun x : gameB => B2R (st_rating (fst (fst x)))) rs)) in *. match type of AR with ap ?a ?b ?e => change (ap sr SR e) in AR end. change (Rabs SR <= n * 9000) in BR.
  set (nB := b64_of_Z (Z.of_nat (length rs))). assert (An : ap nB n 0) by (unfold n; rewrite INR_IZR_INZ; apply ap_Z; lia).
  set (pre := b64_min (l_hypot L d c) (b64_of_Z 350)) in *.
  set (v := Bdiv mode_NE one64 (Bdiv mode_NE one64 (Bmult mode_NE (Bmult mode_NE q q) S))).
  assert (HP' : new = sperB L r d h lambda c S m sr nB) by (unfold new, m, S, sr, nB; rewrite Ers; apply sperB_ok). rewrite HP'. clear HP'. unfold sperB. cbv zeta. cbn [st_rating st_deviation]. fold pre. fold q. fold v.
  destruct (qq_ap L HL) as [Aq Bq]. fold q in Aq.
  assert (SS : sp S). { apply fsum_sp; [rewrite Ers; discriminate|]. apply Forall_map. eapply Forall_impl; [|exact H]. intros x X; apply X. }
  assert (Sx : sp (Bmult mode_NE (Bmult mode_NE q q) S)). { destruct (q_ok L (ln10_acc_sane L HL)) as [Fq Bq']. destruct (qq_ok q Fq Bq') as [Sq2 [Fq2 Pq2]]. exact (sp_mult_c _ S Sq2 Fq2 Pq2 SS). }
  assert (S0 : 0 <= Rsum (map TF rs)).
  { clear. induction rs as [|x l IH]; [simpl; lra|]. cbn [map Rsum fold_right]. change (fold_right Rplus 0 (map TF l)) with (Rsum (map TF l)). assert (0 <= TF x); [|lra].
    unfold TF, EF. match goal with |- 0 <= _ * gE ?a ?b ?c * _ => pose proof (gE_01 a b c) end. apply Rmult_le_pos; [apply Rmult_le_pos; [apply Rle_0_sqr|]|]; lra. }
  rewrite Rabs_pos_eq in BS by exact S0. set (ST := Rsum (map TF rs)) in *. set (SM := Rsum (map MF rs)) in *. clear Hrs H.
  apply (ap_weak _ _ _ (n * (27 / 10 ^ 13))) in AS; [|apply Rmult_le_compat_l; ulra]. apply (ap_weak _ _ _ (n * (19 / 10 ^ 13))) in AM; [|apply Rmult_le_compat_l; ulra].
  apply (ap_weak _ _ _ (n * (10812 / 10 ^ 13))) in AR; [|apply Rmult_le_compat_l; ulra].
  pose proof ulim as U0. assert (un : 0 <= u0 * n <= 12 / 10 ^ 17 * n) by (split; [apply Rmult_le_pos; lra|apply Rmult_le_compat_r; lra]).
  pose proof (ap_mul _ _ _ _ _ _ 0.0000332 n (0.00004 * n) Aq AS ltac:(bd) ltac:(bd) ltac:(lra) ltac:(okb)) as A3.
  apply (ap_weak _ _ _ (n * (91 / 10 ^ 18))) in A3; [|lra].
  pose proof (rr_ap _ _ _ (n * 0.00004) Sx A3) as Av. fold v in Av. assert (T4 : 0 <= gq * gq * ST <= 0.0000332 * n) by (split; [apply Rmult_le_pos; lra|apply Rmult_le_compat; lra]).
  specialize (Av ltac:(lra) ltac:(lra)). set (V := gq * gq * ST) in *. apply (ap_weak _ _ _ (n * (92 / 10 ^ 18))) in Av; [|lra].
  destruct (hyp_ap L d c RD1 C HH D1 C1 ltac:(lra) C2) as [Ap Bp]. fold pre in Ap. fold P in Ap, Bp.
  destruct (J_ap pre v _ V n Ap Bp Av ltac:(lra) Bn) as [AJ BJ].
  destruct (K_ap L _ _ n HL AJ BJ Bn) as [AK [BK _]]. fold q in AK.
  assert (BHn : 0 <= Hh * n <= 10 ^ 5). { split; [apply Rmult_le_pos; lra|]. apply Rle_trans with (100 * 1000); [apply Rmult_le_compat; lra|lra]. }
  assert (AHn : ap (Bmult mode_NE h nB) (Hh * n) (u0 * (Hh * n + 1))).
  { pose proof (ap_mul _ _ _ _ _ _ Hh n (Hh * n + 1) Ah An ltac:(rewrite Rabs_pos_eq; lra) ltac:(rewrite Rabs_pos_eq; lra) ltac:(lra) ltac:(okb)) as Q. apply (ap_weak _ _ _ _ Q). lra. }
  destruct (preh_ap pre P _ (Hh * n) Ap Bp AHn BHn) as [AX BX].
  destruct (JX_ap _ v _ V n AX BX Av ltac:(lra) Bn) as [AJ2 BJ2]. pose proof (DX_ap _ _ n AJ2 BJ2 Bn) as AD.
  assert (EV : gd2inv R1 (map (st_game Ga Be) games) = V).
  { unfold gd2inv, games, V, ST. rewrite !map_map. replace (gq ^ 2) with (gq * gq) by ring. f_equal. f_equal. apply map_ext. intros [[[u1 u2] u3] u4]. unfold TF, GF, EF. cbn [fst snd st_rating st_deviation st_game]. unfold adv. ring. }
  assert (EM : gM R1 (map (st_game Ga Be) games) = SM).
  { unfold gM, games, SM. rewrite !map_map. f_equal. }
  assert (EL : length games = length rs) by (unfold games; apply map_length).
  assert (EA : mean (map (fun '(rj, _, _, _) => rj) games) = SR / n).
  { unfold mean. rewrite map_length, EL. fold n. f_equal. unfold games, SR. rewrite map_map. reflexivity. }
  unfold sticko_r, sticko_rd, glicko_r. rewrite EV, EM, EA, EL. fold n. split; [|apply ap_near; exact AD].
  set (J := / P ^ 2 + V) in *. assert (BA : Rabs (SR / n) <= 9000).
  { unfold Rdiv. assert (I : 0 < / n) by (apply Rinv_0_lt_compat; lra). rewrite Rabs_mult, (Rabs_pos_eq (/ n)) by lra. apply Rle_trans with (n * 9000 * / n); [apply Rmult_le_compat_r; lra|]. right. field. lra. }
  assert (Ed : (n * (10812 / 10 ^ 13) + 9000 * 0) / n = 10812 / 10 ^ 13) by (field; lra).
  pose proof (ap_div _ _ _ _ _ _ n 9000 9001 AR An ltac:(lra) ltac:(rewrite Rabs_pos_eq; lra) BA ltac:(rewrite Ed; lra) ltac:(okb)) as AA. rewrite Ed in AA. apply (ap_weak _ _ _ (1083 / 10 ^ 12)) in AA; [|ulra].
  destruct (lam_ap lambda La _ _ r R1 _ Al Bl AA ltac:(lra) A1 BA B1) as [Alam Blam].
  apply ap_near. assert (nn1 : n * 1 <= n * n) by (apply Rmult_le_compat_l; lra). assert (nn2 : n * n <= n * 1000) by (apply Rmult_le_compat_l; lra).
  assert (BPR : Rabs (gq / J * SM) <= 1412 * n). { rewrite Rabs_mult, (Rabs_pos_eq (gq / J)) by lra. apply Rle_trans with (706 * (n * 2)); [apply Rmult_le_compat; try lra; apply Rabs_pos|lra]. }
  assert (BT : Rabs (gq / J * SM + R1) <= 1412 * n + 9000) by (eapply Rle_trans; [apply Rabs_triang|]; lra).
  assert (E5 : n * (82 / 10 ^ 10) * (n * (19 / 10 ^ 13)) = n * n * (82 / 10 ^ 10 * (19 / 10 ^ 13))) by ring. assert (E6 : n * 2 * (n * (82 / 10 ^ 10)) = n * n * (164 / 10 ^ 10)) by field.
  pose proof (ap_fma _ _ _ _ _ _ _ _ _ 706 (n * 2) (10500 * n) AK AM A1 ltac:(rewrite Rabs_pos_eq; lra) BM ltac:(rewrite E5, E6; lra) ltac:(okb)) as A4. rewrite E5, E6 in A4.
  apply (ap_weak _ _ _ (n * n * (1775 / 10 ^ 11))) in A4; [|lra].
  assert (BU : Rabs (gq / J * SM + R1 + La / 100 * (SR / n - R1)) <= 1412 * n + 27000) by (eapply Rle_trans; [apply Rabs_triang|]; lra).
  pose proof (ap_add _ _ _ _ _ _ (30000 * n) A4 Alam ltac:(lra) ltac:(okb)) as A5.
  apply (ap_weak _ _ _ (2 * n * n / 10 ^ 8)) in A5; [|lra]. apply (ap_eq _ _ _ _ A5). ring.
Qed.

(** ** Expected scores *)
Lemma hyp2_ap L d1 d2 : hypot_accurate L -> num_in 1 350 d1 -> num_in 1 350 d2 ->
  ap (l_hypot L d1 d2) (sqrt (B2R d1 ^ 2 + B2R d2 ^ 2)) (15 / 10 ^ 13) /\ 0 <= sqrt (B2R d1 ^ 2 + B2R d2 ^ 2) <= 500.
Proof.
  intros HH [F1 M1] [F2 M2]. destruct (HH d1 d2 F1 F2) as [Fh Ah]; [rewrite Rabs_pos_eq; lra|rewrite Rabs_pos_eq; lra|]. set (h := sqrt _) in *.
  assert (Bh : 0 <= h <= 500). { split; [apply sqrt_pos|]. unfold h. replace 500 with (sqrt (500 ^ 2)) by (apply sqrt_pow2; lra). apply sqrt_le_1; nra. }
  split; [|exact Bh]. split; [exact Fh|]. rewrite (ext_fin _ Fh). eapply Rle_trans; [exact Ah|]. pose proof i50. apply Rle_trans with (/ 10 ^ 15 * 500); [apply Rmult_le_compat; lra|lra].
Qed.
Lemma exp_st_ap L r1 d1 r2 d2 g G : pow10_nonneg L -> pow10_accurate L -> ln10_accurate L -> hypot_accurate L ->
  num_in (- (9000)) 9000 r1 -> num_in 1 350 d1 -> num_in (- (9000)) 9000 r2 -> num_in 1 350 d2 -> ap g G 0 -> Rabs G <= 1000 ->
  ap (lgB L (argB (gB (qB L) (l_hypot L d1 d2)) (Bminus mode_NE (Bplus mode_NE r1 g) r2))) (gE (B2R r1) (B2R r2 - G) (sqrt (B2R d1 ^ 2 + B2R d2 ^ 2))) (12 / 10 ^ 13).
Proof.
  intros HN HP HL HH N1 M1 N2 M2 AG BG. destruct (hyp2_ap L d1 d2 HH M1 M2) as [AH BH]. destruct (num_abs _ _ N1) as [A1 B1]. destruct (num_abs _ _ N2) as [A2 B2]. apply Rabs_le_inv in B1, B2, BG.
  set (R1 := B2R r1) in *. set (R2 := B2R r2) in *. set (h := sqrt _) in *.
  step (ap_add _ _ _ _ _ _ 10001 A1 AG ltac:(rewrite !Rplus_0_r; apply Rabs_le; lra) ltac:(okb)) (13 / 10 ^ 13).
  assert (BT : Rabs (R1 + G - R2) <= 19000) by (apply Rabs_le; lra).
  step (ap_sub _ _ _ _ _ _ 19001 S A2 ltac:(lra) ltac:(okb)) (49 / 10 ^ 13).
  destruct (lg_ap L _ h _ _ _ HN HP HL AH ltac:(lra) BH S0 ltac:(lra)) as [_ [_ Ae]]. apply (ap_eq _ _ _ _ Ae). unfold gE. do 3 f_equal. unfold Rdiv. ring.
Qed.
Lemma C107_expected_proof : forall (L : Libm) (p1 p2 : StickoRating B64) (cfg : StickoConfig B64),
  pow10_nonneg L -> pow10_accurate L -> ln10_accurate L -> hypot_accurate L ->
  num_in (- (9000)) 9000 (st_rating p1) -> num_in 1 350 (st_deviation p1) -> num_in (- (9000)) 9000 (st_rating p2) -> num_in 1 350 (st_deviation p2) ->
  num_in (- (1000)) 1000 (st_gamma cfg) ->
  let E := gE (B2R (st_rating p1)) (B2R (st_rating p2) - B2R (st_gamma cfg)) (sqrt (B2R (st_deviation p1) ^ 2 + B2R (st_deviation p2) ^ 2)) in
  let e := sticko_expected_score (A := B64A L) p1 p2 cfg in
  near (fst e) E (2 / 10 ^ 12) /\ near (snd e) (1 - E) (2 / 10 ^ 12).
Proof.
  intros L [r1 d1] [r2 d2] cfg HN HP HL HH N1 M1 N2 M2 NG E e. cbn [st_rating st_deviation] in *. destruct (num_abs _ _ NG) as [AG BG].
  pose proof (exp_st_ap L r1 d1 r2 d2 _ _ HN HP HL HH N1 M1 N2 M2 AG BG) as Ae. pose proof (gE_01 (B2R r1) (B2R r2 - B2R (st_gamma cfg)) (sqrt (B2R d1 ^ 2 + B2R d2 ^ 2))) as BE. fold E in Ae, BE.
  set (x := lgB L _) in Ae. assert (H : e = (x, Bminus mode_NE one64 x)) by reflexivity. rewrite H. cbn [fst snd]. pose proof (one_minus_ap _ _ _ Ae ltac:(lra) ltac:(lra)) as Am.
  split; apply ap_near; [apply (ap_weak _ _ _ _ Ae)|apply (ap_weak _ _ _ _ Am)]; lra.
Qed.
Lemma C107_expected_period_proof : forall (L : Libm) (p : StickoRating B64) (os : list (StickoRating B64 * bool)) (cfg : StickoConfig B64),
  pow10_nonneg L -> pow10_accurate L -> ln10_accurate L -> hypot_accurate L ->
  num_in (- (9000)) 9000 (st_rating p) -> num_in 1 350 (st_deviation p) -> num_in (- (1000)) 1000 (st_gamma cfg) ->
  Forall (fun o => num_in (- (9000)) 9000 (st_rating (fst o)) /\ num_in 1 350 (st_deviation (fst o))) os ->
  Forall2 (fun (o : StickoRating B64 * bool) (e : B64) => near e (gE (B2R (st_rating p)) (B2R (st_rating (fst o)) - (if snd o then B2R (st_gamma cfg) else - B2R (st_gamma cfg)))
      (sqrt (B2R (st_deviation p) ^ 2 + B2R (st_deviation (fst o)) ^ 2))) (2 / 10 ^ 12))
    os (sticko_expected_score_rating_period (A := B64A L) p os cfg).
Proof.
  intros L [r d] os cfg HN HP HL HH N1 M1 NG HF. cbn [st_rating st_deviation] in *. destruct (num_abs _ _ NG) as [AG BG].
  unfold sticko_expected_score_rating_period. induction HF as [|[[r2 d2] w] l [N2 M2] HF IH]; [constructor|]. cbn [map]. constructor; [|exact IH]. clear IH HF.
  cbn [st_rating st_deviation fst snd] in *. apply ap_near.
  assert (AG' : ap (if w then st_gamma cfg else Bopp (st_gamma cfg)) (if w then B2R (st_gamma cfg) else - B2R (st_gamma cfg)) 0) by (destruct w; [exact AG|apply ap_opp, AG]).
  assert (BG' : Rabs (if w then B2R (st_gamma cfg) else - B2R (st_gamma cfg)) <= 1000) by (destruct w; [exact BG|rewrite Rabs_Ropp; exact BG]).
  pose proof (exp_st_ap L r d r2 d2 _ _ HN HP HL HH N1 M1 N2 M2 AG' BG') as Ae. apply (ap_weak _ _ _ _ Ae). lra.
Qed.
