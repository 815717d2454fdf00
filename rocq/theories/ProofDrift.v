(** Proofs of C108: when results follow the expected scores, the mean rating does
    not move; the systems where it does move, and in which direction. *)
From Coq Require Import ZArith NArith List Bool Reals Lra Lia.
From Verif Require Import Arith XR Tac ModelLib ModelElo ModelFifa ModelIngo ModelUscf ModelEgf ModelDwz ModelGlicko ModelWengLin ModelTS
  Spec SpecIn SpecTS SpecInTS MathTS ProofElo ProofFifa ProofIngo ProofUscf ProofEgf ProofDwz ProofGlicko ProofWengLin ProofTS ProofTSOrder.
Import Spec ListNotations.
Local Open Scope R_scope.

Lemma C108_elo_proof : forall r1 r2 k e1 e2 pw pd pl,
  elo_expected_score (mkElo (Fin r1)) (mkElo (Fin r2)) = (Fin e1, Fin e2) -> pw + pd + pl = 1 -> pw + pd / 2 = e1 ->
  exists f g : Outcomes -> R,
    (forall o, elo (mkElo (Fin r1)) (mkElo (Fin r2)) o (mkEloConfig (Fin k)) = (mkElo (Fin (f o)), mkElo (Fin (g o)))) /\
    pw * f WIN + pd * f DRAW + pl * f LOSS = r1 /\ pw * g WIN + pd * g DRAW + pl * g LOSS = r2.
Proof.
  intros * E Hp He. rewrite elo_expected_eval in E. injection E as E _. do 2 eexists. split; [intros; apply elo_eval|]. cbv beta. unfold elo_upd. cbn [points invert].
  rewrite (elo_E_swap r1 r2), E, <- He. replace pl with (1 - pw - pd) by lra. split; field.
Qed.
Lemma C108_fifa_proof : forall r1 r2 i e1 e2 pw pd pl,
  fifa_expected_score (mkFifa (Fin r1)) (mkFifa (Fin r2)) = (Fin e1, Fin e2) -> pw + pd + pl = 1 -> pw + pd / 2 = e1 ->
  exists f g : Outcomes -> R,
    (forall o, fifa (mkFifa (Fin r1)) (mkFifa (Fin r2)) o (mkFifaConfig (Fin i) false false) = (mkFifa (Fin (f o)), mkFifa (Fin (g o)))) /\
    pw * f WIN + pd * f DRAW + pl * f LOSS = r1 /\ pw * g WIN + pd * g DRAW + pl * g LOSS = r2.
Proof.
  intros * E Hp He. rewrite fifa_expected_eval in E. injection E as E _. do 2 eexists. split; [intros; apply fifa_eval|]. cbv beta. unfold fifa_upd. cbn [ko_max code_W1 code_W2 points invert].
  rewrite (fifa_We_swap r1 r2), E, <- He. replace pl with (1 - pw - pd) by lra. split; field.
Qed.
(** A knockout game can only add points. *)
Lemma C108_fifa_ko_proof : forall r1 r2 i e1 e2 pw pd pl, 0 < i ->
  fifa_expected_score (mkFifa (Fin r1)) (mkFifa (Fin r2)) = (Fin e1, Fin e2) -> pw + pd + pl = 1 -> pw + pd / 2 = e1 -> 0 < pw -> 0 <= pd -> 0 < pl ->
  exists f g : Outcomes -> R,
    (forall o, fifa (mkFifa (Fin r1)) (mkFifa (Fin r2)) o (mkFifaConfig (Fin i) true false) = (mkFifa (Fin (f o)), mkFifa (Fin (g o)))) /\
    r1 < pw * f WIN + pd * f DRAW + pl * f LOSS /\ r2 < pw * g WIN + pd * g DRAW + pl * g LOSS.
Proof.
  intros * Hi E Hp He Hw Hd Hl. rewrite fifa_expected_eval in E. injection E as E _. do 2 eexists. split; [intros; apply fifa_eval|]. cbv beta. unfold fifa_upd. cbn [ko_max code_W1 code_W2 points invert].
  pose proof (fifa_We_range r1 r2) as [R1 R2]. rewrite (fifa_We_swap r1 r2), E. rewrite E in R1, R2.
  assert (L1 : 0 < i * (1 - e1)) by nra. assert (L2 : 0 < i * e1) by nra.
  assert (Q : forall r x, r <= Rmax r x) by (intros; apply Rmax_l).
  rewrite (Rmax_right r1 (r1 + i * (1 - e1))), (Rmax_right r2 (r2 + i * (1 - (1 - e1)))) by lra.
  assert (forall p r x, 0 <= p -> p * r <= p * Rmax r x) by (intros; apply Rmult_le_compat_l; auto).
  pose proof (H pd r1 (r1 + i * (1 / 2 - e1)) Hd). pose proof (H pl r1 (r1 + i * (0 - e1)) ltac:(lra)).
  pose proof (H pd r2 (r2 + i * (1 / 2 - (1 - e1))) Hd). pose proof (H pw r2 (r2 + i * (0 - (1 - e1))) ltac:(lra)).
  assert (0 < pw * (i * (1 - e1))) by nra. assert (0 < pl * (i * e1)) by nra.
  replace pl with (1 - pw - pd) in * by lra. split; nra.
Qed.
Lemma C108_ingo_proof : forall r1 a1 r2 a2 e1 e2 pw pd pl,
  ingo_expected_score (mkIngo (Fin r1) a1) (mkIngo (Fin r2) a2) = (Fin e1, Fin e2) -> pw + pd + pl = 1 -> pw + pd / 2 = e1 ->
  exists f g : Outcomes -> R,
    (forall o, ingo (mkIngo (Fin r1) a1) (mkIngo (Fin r2) a2) o = (mkIngo (Fin (f o)) a1, mkIngo (Fin (g o)) a2)) /\
    pw * f WIN + pd * f DRAW + pl * f LOSS = r1 /\ pw * g WIN + pd * g DRAW + pl * g LOSS = r2.
Proof.
  intros * E Hp He. destruct (C25_partial_proof r1 a1 r2 a2) as (e1' & e2' & E' & _ & _ & E1 & _). rewrite E in E'. injection E' as <- <-.
  do 2 eexists. split; [intros o; apply (proj1 (C23_proof r1 a1 r2 a2 o))|]. cbv beta. unfold ingo_upd, ingo_perf. cbn [points invert].
  assert (forall a, 0 < ingo_D a) by (intros a; unfold ingo_D; destruct (a <=? 20)%N; [lra|destruct (a <=? 25)%N; lra]).
  pose proof (H a1). pose proof (H a2). replace pl with (1 - pw - pd) by lra. replace r2 with (r1 + 100 * (pw + pd / 2 - 1 / 2)) by lra. split; field; lra.
Qed.
Lemma uscf_expected_eval r1 n1 r2 n2 : uscf_expected_score (mkUscf (Fin r1) n1) (mkUscf (Fin r2) n2) = (Fin (elo_E r1 r2), Fin (elo_E r2 r1)).
Proof. unfold uscf_expected_score. cbn [uscf_rating]. rewrite uscf_e_eval. cbv zeta. xr. now rewrite (elo_E_swap r1 r2). Qed.
Lemma C108_uscf_proof : forall r1 n1 r2 n2 t e1 e2 pw pd pl, (8 < n1)%N ->
  uscf_expected_score (mkUscf (Fin r1) n1) (mkUscf (Fin r2) n2) = (Fin e1, Fin e2) -> pw + pd + pl = 1 -> pw + pd / 2 = e1 ->
  100 <= r1 - uscf_K r1 (IZR (Z.of_N n1)) 1 * e1 ->
  exists f : Outcomes -> R,
    (forall o, uscf_rating (fst (uscf (mkUscf (Fin r1) n1) (mkUscf (Fin r2) n2) o (mkUscfConfig (Fin t)))) = Fin (f o)) /\
    pw * f WIN + pd * f DRAW + pl * f LOSS = r1.
Proof.
  intros * Hn E Hp He Hf. rewrite uscf_expected_eval in E. injection E as E _. eexists. split; [intros o; rewrite C10_proof; reflexivity|]. cbv beta.
  replace (n1 <=? 8)%N with false by (symmetry; apply N.leb_gt; auto). rewrite E.
  assert (Q : forall s, 0 <= s -> Rmax 100 (uscf_upd r1 (IZR (Z.of_N n1)) 1 s e1 t) = r1 + uscf_K r1 (IZR (Z.of_N n1)) 1 * (s - e1)).
  { intros s Hs. unfold uscf_upd, uscf_bonus. change (1 <? 3)%nat with true. cbv iota. cbn [INR]. rewrite Rmax_right; [ring|].
    assert (0 <= uscf_K r1 (IZR (Z.of_N n1)) 1).
    { unfold uscf_K. apply Rmult_le_pos; [lra|]. apply Rlt_le, Rinv_0_lt_compat. assert (0 < uscf_Ne r1 (IZR (Z.of_N n1))); [|lra].
      assert (0 < IZR (Z.of_N n1)) by (apply IZR_lt; lia). unfold uscf_Ne. destruct (Rlt_dec r1 2355).
      - repeat apply Rmin_glb_lt; try lra. apply Rdiv_lt_0_compat; [lra|]. apply sqrt_lt_R0. pose proof (pow2_ge_0 (2569 - r1)). lra.
      - apply Rmin_glb_lt; lra. }
    nra. }
  cbn [points]. rewrite !Q by lra. replace pl with (1 - pw - pd) by lra. rewrite <- He. field.
Qed.
(** Provisional players move towards their opponents. *)
Lemma C108_uscf_refuted_proof : exists r1 n1 r2 n2 t e1 e2 pw pd pl (f : Outcomes -> R), (n1 <= 8)%N /\
  uscf_expected_score (mkUscf (Fin r1) n1) (mkUscf (Fin r2) n2) = (Fin e1, Fin e2) /\ pw + pd + pl = 1 /\ 0 <= pw /\ 0 <= pd /\ 0 <= pl /\ pw + pd / 2 = e1 /\
  (forall o, uscf_rating (fst (uscf (mkUscf (Fin r1) n1) (mkUscf (Fin r2) n2) o (mkUscfConfig (Fin t)))) = Fin (f o)) /\
  pw * f WIN + pd * f DRAW + pl * f LOSS < r1.
Proof.
  exists 1900, 4%N, 1500, 4%N, 14, (elo_E 1900 1500), (elo_E 1500 1900), (elo_E 1900 1500), 0, (1 - elo_E 1900 1500).
  eexists. pose proof (elo_E_range 1900 1500). split; [lia|]. split; [apply uscf_expected_eval|]. do 5 (split; [lra|]). split; [intros o; rewrite C10_proof; reflexivity|].
  cbv beta. change (4 <=? 8)%N with true. cbv iota. unfold uscf_prov.
  assert (E : elo_E 1900 1500 = 10 / 11). { unfold elo_E. replace ((1500 - 1900) / 400) with (- (1)) by field. rewrite Rpower_Ropp, Rpower_1 by lra. field. }
  rewrite E. change (IZR (Z.of_N 4)) with 4. rewrite !Rmax_right by lra. lra.
Qed.
Lemma dwz_E_old r a s we i : 1300 <= r -> (20 <= a)%N -> dwz_E r a s we i = dwz_E r a 1 0 i.
Proof.
  intros H1 H2. unfold dwz_E, dwz_raw_E, dwz_acc, dwz_brake. replace (a <? 20)%N with false by (symmetry; apply N.ltb_ge; auto).
  destruct (Rlt_dec r 1300); [lra|]. reflexivity.
Qed.
Lemma dwz_E_ge5 r a s we i : 5 <= dwz_E r a s we i.
Proof. unfold dwz_E. apply Rmax_l. Qed.
Lemma C108_dwz_proof : forall r1 i1 a1 r2 i2 a2 e1 e2 pw pd pl, (1 <= i1)%N -> (1 <= i2)%N -> 1300 <= r1 -> (20 <= a1)%N ->
  dwz_expected_score (mkDwz (Fin r1) i1 a1) (mkDwz (Fin r2) i2 a2) = (Fin e1, Fin e2) -> pw + pd + pl = 1 -> pw + pd / 2 = e1 ->
  exists f : Outcomes -> R,
    (forall o, dwz_rating (fst (dwz (mkDwz (Fin r1) i1 a1) (mkDwz (Fin r2) i2 a2) o)) = Fin (f o)) /\
    pw * f WIN + pd * f DRAW + pl * f LOSS = r1.
Proof.
  intros * Hi1 Hi2 Hr Ha E Hp He. rewrite dwz_expected_eval in E. injection E as E _. eexists. split; [intros o; rewrite dwz_eval by auto; reflexivity|]. cbv beta. rewrite E.
  rewrite !(dwz_E_old r1 a1 (points _)) by auto. pose proof (dwz_E_ge5 r1 a1 1 0 (NR i1)). unfold dwz_upd. cbn [points]. replace pl with (1 - pw - pd) by lra. rewrite <- He. field. lra.
Qed.
(** Weaker players lose less than they win: their mean never falls. *)
Lemma C108_dwz_weak_proof : forall r1 i1 a1 r2 i2 a2 e1 e2 pw pd pl, (1 <= i1)%N -> (1 <= i2)%N -> r1 < 1300 -> (20 <= a1)%N ->
  dwz_expected_score (mkDwz (Fin r1) i1 a1) (mkDwz (Fin r2) i2 a2) = (Fin e1, Fin e2) -> pw + pd + pl = 1 -> pw + pd / 2 = e1 -> 0 <= pw -> 0 <= pd -> 0 <= pl ->
  exists f : Outcomes -> R,
    (forall o, dwz_rating (fst (dwz (mkDwz (Fin r1) i1 a1) (mkDwz (Fin r2) i2 a2) o)) = Fin (f o)) /\
    r1 <= pw * f WIN + pd * f DRAW + pl * f LOSS.
Proof.
  intros * Hi1 Hi2 Hr Ha E Hp He Hw Hd Hl. rewrite dwz_expected_eval in E. injection E as E _. eexists. split; [intros o; rewrite dwz_eval by auto; reflexivity|]. cbv beta.
  pose proof (elo_E_range r1 r2) as R. rewrite E in *. set (i := NR i1).
  set (lo := dwz_E r1 a1 1 0 i). set (hi := dwz_E r1 a1 0 1 i).
  assert (EL : forall s, e1 < s -> dwz_E r1 a1 s e1 i = lo).
  { intros s Hs. unfold lo, dwz_E, dwz_raw_E, dwz_acc, dwz_brake. replace (a1 <? 20)%N with false by (symmetry; apply N.ltb_ge; auto).
    destruct (Rlt_dec r1 1300); [|lra]. destruct (Rle_dec s e1); [lra|]. destruct (Rle_dec 1 0); [lra|reflexivity]. }
  assert (EH : forall s, s <= e1 -> dwz_E r1 a1 s e1 i = hi).
  { intros s Hs. unfold hi, dwz_E, dwz_raw_E, dwz_acc, dwz_brake. replace (a1 <? 20)%N with false by (symmetry; apply N.ltb_ge; auto).
    destruct (Rlt_dec r1 1300); [|lra]. destruct (Rle_dec s e1); [|lra]. destruct (Rle_dec 0 1); [reflexivity|lra]. }
  assert (LH : lo <= hi).
  { unfold lo, hi, dwz_E, dwz_raw_E, dwz_acc, dwz_brake. replace (a1 <? 20)%N with false by (symmetry; apply N.ltb_ge; auto).
    destruct (Rlt_dec r1 1300); [|lra]. destruct (Rle_dec 1 0); [lra|]. destruct (Rle_dec 0 1); [|lra].
    assert (1 <= exp ((1300 - r1) / 150)). { pose proof (exp_ineq1_le ((1300 - r1) / 150)). lra. }
    apply Rle_max_compat_l. apply Rmin_glb.
    - eapply Rle_trans; [apply Rmin_l|]. lra.
    - eapply Rle_trans; [apply Rmin_r|]. eapply Rle_trans; [apply Rmin_l|]. lra. }
  assert (L5 : 5 <= lo) by apply dwz_E_ge5. unfold dwz_upd. cbn [points]. rewrite (EL 1), (EH 0) by lra.
  set (A := 800 / (lo + 1)). set (B := 800 / (hi + 1)).
  assert (AB : 0 < B <= A). { unfold A, B. split; [apply Rdiv_lt_0_compat; lra|]. apply Rmult_le_compat_l; [lra|]. apply Rinv_le_contravar; lra. }
  assert (C : exists C, 800 / (dwz_E r1 a1 (1 / 2) e1 i + 1) = C /\ (C - B) * (1 / 2 - e1) >= 0 /\ (e1 < 1 / 2 -> C = A) /\ (1 / 2 <= e1 -> C = B)).
  { eexists. split; [reflexivity|]. destruct (Rlt_le_dec e1 (1 / 2)) as [Z|Z].
    - rewrite EL by lra. fold A. repeat split; [nra|lra].
    - rewrite EH by lra. fold B. repeat split; [nra|lra]. }
  destruct C as (C & -> & C1 & C2 & C3). replace pl with (1 - pw - pd) in * by lra.
  assert (0 <= (A - B) * (pw * (1 - e1))) by (apply Rmult_le_pos; [lra|apply Rmult_le_pos; lra]).
  assert (0 <= pd * ((C - B) * (1 / 2 - e1))) by (apply Rmult_le_pos; lra).
  replace (pw * (r1 + A * (1 - e1)) + pd * (r1 + C * (1 / 2 - e1)) + (1 - pw - pd) * (r1 + B * (0 - e1)))
    with (r1 + (A - B) * (pw * (1 - e1)) + pd * ((C - B) * (1 / 2 - e1)) + B * (pw + pd / 2 - e1)) by field.
  rewrite He. lra.
Qed.
(** EGF: the bonus is always paid. *)
Lemma C108_egf_proof : forall r1 r2 H e1 e2 pw pd pl, -900 <= r1 < 3300 -> r2 < 3300 -> egf_adj (egf_h1 H) r1 < 3300 -> egf_adj (egf_h2 H) r2 < 3300 ->
  egf_expected_score (mkEgf (Fin r1)) (mkEgf (Fin r2)) (mkEgfConfig (Fin H)) = (Fin e1, Fin e2) -> pw + pd + pl = 1 -> pw + pd / 2 = e1 -> 0 <= pw -> 0 <= pd -> 0 <= pl ->
  exists f : Outcomes -> R,
    (forall o, egf_rating (fst (egf (mkEgf (Fin r1)) (mkEgf (Fin r2)) o (mkEgfConfig (Fin H)))) = Fin (f o)) /\
    r1 + egf_bon r1 <= pw * f WIN + pd * f DRAW + pl * f LOSS /\ 0 < egf_bon r1 /\
    (-900 <= r1 - egf_C r1 * e1 + egf_bon r1 -> pw * f WIN + pd * f DRAW + pl * f LOSS = r1 + egf_bon r1).
Proof.
  intros * H1 H2 H3 H4 E Hp He Hw Hd Hl.
  assert (Q : e1 = egf_E (egf_adj (egf_h1 H) r1) (egf_adj (egf_h2 H) r2)).
  { destruct (C13_proof r1 r2 WIN H ltac:(lra) H2 H3 H4) as (X & _). rewrite X in E. injection E as <- _. reflexivity. }
  exists (fun o => egf_upd r1 (points o) e1). split; [intros o; destruct (C13_proof r1 r2 o H ltac:(lra) H2 H3 H4) as (_ & _ & X); rewrite X, Q; reflexivity|].
  assert (HC : 0 < egf_C r1) by (apply exp_pos). unfold egf_upd. cbn [points]. set (b := egf_bon r1). set (C := egf_C r1) in *.
  assert (Hb : 0 < b). { unfold b, egf_bon. apply Rdiv_lt_0_compat; [|lra]. rewrite <- ln_1. apply ln_increasing; [lra|]. pose proof (exp_pos ((2300 - r1) / 80)). lra. }
  split; [|split; [auto|]].
  - pose proof (Rmax_r (-900) (r1 + C * (1 - e1) + b)) as A1. pose proof (Rmax_r (-900) (r1 + C * (1 / 2 - e1) + b)) as A2. pose proof (Rmax_r (-900) (r1 + C * (0 - e1) + b)) as A3.
    apply (Rmult_le_compat_l pw) in A1; [|lra]. apply (Rmult_le_compat_l pd) in A2; [|lra]. apply (Rmult_le_compat_l pl) in A3; [|lra].
    replace (r1 + b) with (pw * (r1 + C * (1 - e1) + b) + pd * (r1 + C * (1 / 2 - e1) + b) + pl * (r1 + C * (0 - e1) + b)); [lra|].
    rewrite <- He. replace pl with (1 - pw - pd) by lra. field.
  - intros HF. rewrite !Rmax_right by nra. rewrite <- He. replace pl with (1 - pw - pd) by lra. field.
Qed.
Lemma C108_glicko_proof : forall r1 RD1 r2 RD2 c e1 e2 pw pd pl, 0 < RD1 -> 0 < RD2 ->
  glicko_expected_score (mkGlicko (Fin r1) (Fin RD1)) (mkGlicko (Fin r2) (Fin RD2)) = (Fin e1, Fin e2) -> pw + pd + pl = 1 -> pw + pd / 2 = e1 ->
  exists f : Outcomes -> R,
    (forall o, gl_rating (fst (glicko (mkGlicko (Fin r1) (Fin RD1)) (mkGlicko (Fin r2) (Fin RD2)) o (mkGlickoConfig (Fin c)))) = Fin (f o)) /\
    (r2 < r1 -> pw * f WIN + pd * f DRAW + pl * f LOSS < r1) /\
    (r1 < r2 -> r1 < pw * f WIN + pd * f DRAW + pl * f LOSS) /\
    (r1 = r2 -> pw * f WIN + pd * f DRAW + pl * f LOSS = r1).
Proof.
  intros * H1 H2 E Hp He. rewrite glicko_expected_eval in E. injection E as E _. change (gE r1 r2 (sqrt (RD1 ^ 2 + RD2 ^ 2)) = e1) in E. eexists. split; [intros o; rewrite C26_proof by auto; reflexivity|]. cbv beta.
  set (RD := gpre RD1 c). unfold glicko_r, gM, gd2inv. cbn [map Rsum fold_right points].
  assert (HRD : 0 < RD). { unfold RD, gpre. apply Rmin_glb_lt; [|lra]. apply sqrt_lt_R0. pose proof (pow_lt RD1 2 H1). pose proof (pow2_ge_0 c). lra. }
  set (G := gE r1 r2 RD2) in *. set (K := gq / (_ + _)).
  assert (HK : 0 < K).
  { unfold K. assert (Hq : 0 < gq) by (unfold gq; apply Rdiv_lt_0_compat; [rewrite <- ln_1; apply ln_increasing; lra|lra]).
    apply Rdiv_lt_0_compat; auto. assert (0 < / RD ^ 2) by (apply Rinv_0_lt_compat, pow_lt; auto). pose proof (gE_range r1 r2 RD2) as RG. fold G in RG. pose proof (pow2_ge_0 gq). pose proof (pow2_ge_0 (gg RD2)).
    assert (0 <= gg RD2 ^ 2 * G * (1 - G)) by (apply Rmult_le_pos; [apply Rmult_le_pos|]; lra). nra. }
  pose proof (gg_pos RD2) as Hg.
  replace (_ + pd * _ + pl * _) with (r1 + K * (gg RD2 * (e1 - G))) by (rewrite <- He; replace pl with (1 - pw - pd) by lra; cbn; field).
  assert (S : 0 <= RD2 < sqrt (RD1 ^ 2 + RD2 ^ 2)).
  { split; [lra|]. rewrite <- (sqrt_pow2 RD2) at 1 by lra. apply sqrt_lt_1_alt. pose proof (pow_lt RD1 2 H1). pose proof (pow2_ge_0 RD2). lra. }
  assert (P : 0 < K * gg RD2) by (apply Rmult_lt_0_compat; auto).
  split; [|split]; intros H.
  - pose proof (gE_dev r1 r2 RD2 _ S H) as [_ D]. rewrite E in D. fold G in D. assert (0 < K * gg RD2 * (G - e1)) by (apply Rmult_lt_0_compat; lra). lra.
  - pose proof (gE_dev r2 r1 RD2 _ S H) as [_ D]. pose proof (gE_compl r1 r2 RD2). pose proof (gE_compl r1 r2 (sqrt (RD1 ^ 2 + RD2 ^ 2))). rewrite E in *. fold G in H0. assert (0 < K * gg RD2 * (e1 - G)) by (apply Rmult_lt_0_compat; lra). lra.
  - subst r2. unfold G. rewrite gE_self in *. subst e1. lra.
Qed.
Lemma C108_wl_proof : forall m1 s1 m2 s2 beta kappa e1 e2 pw pd pl, 0 < s1 -> 0 < s2 -> 0 < beta -> 0 <= kappa ->
  wl_expected_score (mkWL (Fin m1) (Fin s1)) (mkWL (Fin m2) (Fin s2)) (mkWLConfig (Fin beta) (Fin kappa)) = (Fin e1, Fin e2) -> pw + pd + pl = 1 -> pw + pd / 2 = e1 ->
  exists f g : Outcomes -> R,
    (forall o, let '(p, q) := weng_lin (mkWL (Fin m1) (Fin s1)) (mkWL (Fin m2) (Fin s2)) o (mkWLConfig (Fin beta) (Fin kappa)) in
       wl_rating p = Fin (f o) /\ wl_rating q = Fin (g o)) /\
    pw * f WIN + pd * f DRAW + pl * f LOSS = m1 /\ pw * g WIN + pd * g DRAW + pl * g LOSS = m2.
Proof.
  intros * H1 H2 Hb Hk E Hp He. destruct (C45_players_proof m1 s1 m2 s2 beta (Fin kappa) Hb) as (a & b & E' & Ea & _). cbv zeta in E'. rewrite E in E'. injection E' as <- <-.
  set (c := sqrt (s1 ^ 2 + s2 ^ 2 + 2 * beta ^ 2)) in *.
  exists (fun o => m1 + s1 ^ 2 / c * (points o - wlp m1 m2 c)), (fun o => m2 + s2 ^ 2 / c * (points (invert o) - wlp m2 m1 c)).
  split; [intros o; change (mkWL (Fin m1) (Fin s1)) with (wl_in (m1, s1)); change (mkWL (Fin m2) (Fin s2)) with (wl_in (m2, s2)); rewrite wl_1v1_eval by auto; split; reflexivity|].
  assert (Hc : 0 < c) by (apply (wlc_pos beta); [apply pow_lt; auto|apply pow2_ge_0]). change (e1 = wlp m1 m2 c) in Ea.
  pose proof (wlp_compl m1 m2 c). cbn [points invert]. replace (wlp m2 m1 c) with (1 - e1) by lra. rewrite <- Ea, <- He. replace pl with (1 - pw - pd) by lra. split; field; lra.
Qed.
(** Two Weng-Lin teams: the mean of every member stays. *)
Lemma C108_wl_teams_proof : forall t1 t2 beta kappa e1 e2 pw pd pl, wl_ok t1 -> wl_ok t2 -> 0 < beta -> 0 <= kappa ->
  wl_expected_score_two_teams (wlt_in t1) (wlt_in t2) (mkWLConfig (Fin beta) (Fin kappa)) = (Fin e1, Fin e2) -> pw + pd + pl = 1 -> pw + pd / 2 = e1 ->
  exists f : Outcomes -> nat -> R,
    (forall o j p, nth_error t1 j = Some p -> exists q, nth_error (fst (weng_lin_two_teams (wlt_in t1) (wlt_in t2) o (mkWLConfig (Fin beta) (Fin kappa)))) j = Some q /\ wl_rating q = Fin (f o j)) /\
    (forall j p, nth_error t1 j = Some p -> pw * f WIN j + pd * f DRAW j + pl * f LOSS j = fst p).
Proof.
  intros * O1 O2 Hb Hk E Hp He. destruct (C45_teams_proof t1 t2 beta (Fin kappa) Hb) as (a & b & E' & Ea & _). cbv zeta in E'. rewrite E in E'. injection E' as <- <-.
  pose proof (wl_s2_pos t1 O1). pose proof (wl_s2_pos t2 O2).
  exists (fun o j => match nth_error t1 j with Some p => fst (wl_player kappa (wl_s2 t1) (wls_delta beta (wl_theta t1) (wl_s2 t1) (wl_theta t2) (wl_s2 t2) (points o))
         (wls_eta beta (wl_theta t1) (wl_s2 t1) (wl_theta t2) (wl_s2 t2)) p) | None => 0 end). split.
  - intros o j p Hj. rewrite Hj. rewrite wl_two_teams_eval by auto. cbn [fst]. unfold wl_side, wlt_in. rewrite map_map, nth_error_map, Hj. eexists. split; [reflexivity|reflexivity].
  - intros j p Hj. rewrite Hj. unfold wl_player, wls_delta. cbv zeta. cbn [fst points]. change (e1 = wlp (wl_theta t1) (wl_theta t2) (wlc beta (wl_s2 t1) (wl_s2 t2))) in Ea. rewrite <- Ea.
    assert (0 < wlc beta (wl_s2 t1) (wl_s2 t2)) by (apply wlc_pos; lra). rewrite <- He. replace pl with (1 - pw - pd) by lra. field. lra.
Qed.
(** TrueSkill: with the probabilities of the model itself (win, draw, loss of a
    normal performance difference against the draw margin). *)
Lemma C108_ts_proof : forall m1 s1 m2 s2 dp beta tau e, 0 < s1 -> 0 < s2 -> ts_draw_margin (Fin dp) (Fin beta) (Fin 2) = Fin e ->
  let c := sqrt (2 * beta ^ 2 + s1 ^ 2 + s2 ^ 2) in let t := (m1 - m2) / c in
  let pw := Phi (t - e / c) in let pd := Phi (e / c - Rabs t) - Phi (- (e / c) - Rabs t) in let pl := Phi (- t - e / c) in
  Rabs t <> e / c -> tiny <= pw -> tiny <= pd -> tiny <= pl ->
  pw + pd + pl = 1 /\
  exists f g : Outcomes -> R,
    (forall o, let '(p, q) := trueskill (ts_in (m1, s1)) (ts_in (m2, s2)) o (ts_cfg dp beta tau) in ts_rating p = Fin (f o) /\ ts_rating q = Fin (g o)) /\
    pw * f WIN + pd * f DRAW + pl * f LOSS = m1 /\ pw * g WIN + pd * g DRAW + pl * g LOSS = m2.
Proof.
  intros * H1 H2 He c t pw pd pl Ht Tw Td Tl. set (x := e / c) in *.
  assert (S : pw + pd + pl = 1).
  { unfold pw, pd, pl. unfold Rabs in *. destruct (Rcase_abs t).
    - replace (x - - t) with (- (- t - x)) by ring. replace (- x - - t) with (t - x) by ring. pose proof (Phi_compl (- t - x) ltac:(lra)). lra.
    - replace (x - t) with (- (t - x)) by ring. replace (- x - t) with (- t - x) by ring. pose proof (Phi_compl (t - x) ltac:(lra)). lra. }
  split; auto.
  assert (Hc : 0 < c) by (apply (tsc_pos 2); [lra|apply pow2_ge_0|apply pow_lt; auto]).
  exists (fun o => m1 + (s1 ^ 2 + tau ^ 2) / c * ts_v o t x), (fun o => m2 - (s2 ^ 2 + tau ^ 2) / c * ts_v o t x). split.
  { intros o. destruct (C50_proof m1 s1 m2 s2 o dp beta tau H1 H2) as (e' & a & b & E1 & E2 & E2' & E3 & _). rewrite He in E1. injection E1 as <-.
    rewrite E3. cbn [ts_rating]. rewrite E2, E2'. split; reflexivity. }
  assert (tiny0 : 0 < tiny) by (unfold tiny; apply Rdiv_lt_0_compat; [lra|apply pow_lt; lra]).
  assert (V : pw * ts_v WIN t x + pd * ts_v DRAW t x + pl * ts_v LOSS t x = 0).
  { cbn [ts_v]. unfold vwin, vdraw, drawnorm. fold pw pd pl. destruct (Rlt_dec pw tiny); [lra|]. destruct (Rlt_dec pd tiny); [lra|]. destruct (Rlt_dec pl tiny); [lra|].
    unfold phi. replace ((- t - x) ^ 2) with ((- x - t) ^ 2) by ring. replace ((x - t) ^ 2) with ((t - x) ^ 2) by ring.
    set (A := exp _ / _). set (B := exp _ / _). replace (pw * (A / pw)) with A by (field; lra). replace (pl * - (B / pl)) with (- B) by (field; lra). field. lra. }
  split.
  - replace (pw * _ + _ + _) with ((pw + pd + pl) * m1 + (s1 ^ 2 + tau ^ 2) / c * (pw * ts_v WIN t x + pd * ts_v DRAW t x + pl * ts_v LOSS t x)) by ring. rewrite V, S. ring.
  - replace (pw * _ + _ + _) with ((pw + pd + pl) * m2 - (s2 ^ 2 + tau ^ 2) / c * (pw * ts_v WIN t x + pd * ts_v DRAW t x + pl * ts_v LOSS t x)) by ring. rewrite V, S. ring.
Qed.
