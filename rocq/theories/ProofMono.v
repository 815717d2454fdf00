(** Proofs of C121: a better result in one game of a rating period. *)
From Coq Require Import ZArith NArith List Bool Reals Lra Lia.
From Coquelicot Require Import Coquelicot.
From Verif Require Import Arith XR Tac ModelLib ModelElo ModelFifa ModelIngo ModelUscf ModelEgf ModelDwz ModelGlicko ModelSticko ModelBoost Spec
  ProofElo ProofFifa ProofIngo ProofUscf ProofEgf ProofEgf2 ProofDwz ProofGlicko ProofSticko ProofBoost MathIval ProofOrder ProofBoost2 ProofOrder2 ProofInfo ProofAcc.
Import Spec ListNotations.
Local Open Scope R_scope.

Lemma sum_one {X} (f : X -> R) l1 l2 x : Rsum (map f (l1 ++ x :: l2)) = f x + Rsum (map f (l1 ++ l2)).
Proof. induction l1 as [|y l1 IH]; cbn [app map]; rewrite ?Rsum_cons; [reflexivity|]. rewrite IH. ring. Qed.
Lemma map_one {X Y} (f : X -> Y) l1 l2 x y : f x = f y -> map f (l1 ++ x :: l2) = map f (l1 ++ y :: l2).
Proof. intro H. rewrite !map_app. cbn [map]. now rewrite H. Qed.
Lemma len_one {X} (l1 l2 : list X) x y : length (l1 ++ x :: l2) = length (l1 ++ y :: l2).
Proof. rewrite !app_length. reflexivity. Qed.
Lemma ne_one {X} (l1 l2 : list X) x : l1 ++ x :: l2 <> []. Proof. destruct l1; discriminate. Qed.

(** ** Elo *)
Definition elo_gs (rs : list (R * Outcomes)) : list (EloRating XR * Outcomes) := map (fun g => (mkElo (Fin (fst g)), snd g)) rs.
Definition elo_fin (k : R) (rs : list (R * Outcomes)) (r : R) : R := fold_left (fun x g => elo_upd k x (fst g) (points (snd g))) rs r.
Lemma elo_period_fin k rs : forall r, elo_rating_period (mkElo (Fin r)) (elo_gs rs) (mkEloConfig (Fin k)) = mkElo (Fin (elo_fin k rs r)).
Proof. intro r. rewrite elo_period_fold. revert r. induction rs as [|[x o] rs IH]; intro r; [reflexivity|]. cbn [elo_gs map fold_left fst snd]. rewrite elo_eval. cbn [fst]. apply IH. Qed.
Lemma elo_fin_mono k rs : 0 <= k -> k * ln 10 < 1600 -> forall r r', r < r' -> elo_fin k rs r < elo_fin k rs r'.
Proof.
  intros Hk HK. induction rs as [|[x o] rs IH]; intros r r' H; [exact H|]. cbn [elo_fin fold_left fst snd]. apply IH. unfold elo_upd. rewrite !elo_E_sg.
  pose proof ln10_close. unfold Rdiv. rewrite !Rmult_assoc. pose proof (lin_sg_mono k (ln 10 * / 400) x r r' Hk ltac:(lra) ltac:(lra) H). lra.
Qed.
Lemma C121_elo_proof : forall r k l1 l2 ro x y, 0 < k -> k * ln 10 < 1600 -> points x < points y -> exists a b,
  elo_rating_period (mkElo (Fin r)) (map (fun g => (mkElo (Fin (fst g)), snd g)) (l1 ++ (ro, x) :: l2)) (mkEloConfig (Fin k)) = mkElo (Fin a) /\
  elo_rating_period (mkElo (Fin r)) (map (fun g => (mkElo (Fin (fst g)), snd g)) (l1 ++ (ro, y) :: l2)) (mkEloConfig (Fin k)) = mkElo (Fin b) /\ a < b.
Proof.
  intros r k l1 l2 ro x y Hk HK H. do 2 eexists. split; [apply elo_period_fin|split; [apply elo_period_fin|]].
  unfold elo_fin. rewrite !fold_left_app. cbn [fold_left fst snd]. apply (elo_fin_mono k l2 ltac:(lra) HK). unfold elo_upd. assert (k * points x < k * points y) by (apply Rmult_lt_compat_l; lra). lra.
Qed.
(** Beyond the bound: draws with opponents rated half-way between the two lines
    bring them together until they cross. *)
Lemma sg_half x : sg (x / 2) - sg (- x / 2) = 2 * sg (x / 2) - 1.
Proof. replace (- x / 2) with (- (x / 2)) by field. unfold sg. rewrite Ropp_involutive. pose proof (exp_pos (x / 2)). pose proof (exp_pos (- (x / 2))).
  assert (E : exp (x / 2) * exp (- (x / 2)) = 1) by (rewrite <- exp_plus, Rplus_opp_r; apply exp_0).
  assert (F : / (1 + exp (x / 2)) = 1 - / (1 + exp (- (x / 2)))).
  { apply (Rmult_eq_reg_r ((1 + exp (x / 2)) * (1 + exp (- (x / 2))))); [|apply Rgt_not_eq, Rmult_lt_0_compat; lra]. field_simplify; lra. }
  lra.
Qed.
Lemma elo_mid k a b : elo_upd k b ((a + b) / 2) (1 / 2) - elo_upd k a ((a + b) / 2) (1 / 2) = (b - a) - k * (2 * elo_E (b - a) ((b - a) / 2) - 1).
Proof.
  unfold elo_upd. rewrite !elo_E_sg. pose proof (sg_half ((b - a) * ln 10 / 400)) as H.
  replace ((b - (a + b) / 2) * ln 10 / 400) with ((b - a) * ln 10 / 400 / 2) by field. replace ((a - (a + b) / 2) * ln 10 / 400) with (- ((b - a) * ln 10 / 400) / 2) by field.
  replace ((b - a - (b - a) / 2) * ln 10 / 400) with ((b - a) * ln 10 / 400 / 2) by field. set (s1 := sg ((b - a) * ln 10 / 400 / 2)) in *. set (s2 := sg (- ((b - a) * ln 10 / 400) / 2)) in *. assert (E : s2 = 1 - s1) by lra. rewrite E. ring.
Qed.

Lemma lin_flip_small K L : 4 < K * L -> exists h0, 0 < h0 /\ forall h, 0 < h < h0 -> h - K * (2 * sg (h * L / 2) - 1) < 0.
Proof.
  intros H. pose proof (lin_sg_deriv K (L / 2) 0 0) as D. apply is_derive_Reals in D. assert (S0 : sg ((0 - 0) * (L / 2)) = 1 / 2) by (replace ((0 - 0) * (L / 2)) with 0 by ring; unfold sg; rewrite Ropp_0, exp_0; lra).
  rewrite S0 in D. set (d := 1 - _) in D. assert (Hd : d < 1 / 2) by (unfold d; nra). destruct (D (1 / 2 - d) ltac:(lra)) as [[del Hdel] Q]. cbn in Q. exists del. split; [exact Hdel|]. intros h Hh.
  specialize (Q h ltac:(lra) ltac:(rewrite Rabs_pos_eq; lra)). rewrite !Rplus_0_l in Q. rewrite S0 in Q. replace ((h - 0) * (L / 2)) with (h * L / 2) in Q by field. apply Rabs_def2 in Q. destruct Q as [Q _].
  set (s := sg (h * L / 2)) in *. assert (Q' : (h - K * s - (0 - K * (1 / 2))) / h < 1 / 2) by lra. apply (Rmult_lt_compat_r h) in Q'; [|lra]. unfold Rdiv at 1 in Q'. rewrite Rmult_assoc, Rinv_l, Rmult_1_r in Q' by lra. lra.
Qed.
Lemma elo_cross k : 1600 < k * ln 10 -> exists h0, 0 < h0 /\ forall n a b, 0 < b - a -> b - a < h0 + INR n * (k * (2 * elo_E h0 (h0 / 2) - 1)) ->
  exists rs, elo_fin k rs b <= elo_fin k rs a.
Proof.
  intro HK. pose proof ln10_close. assert (Hk : 0 < k) by (apply (Rmult_lt_reg_r (ln 10)); lra).
  destruct (lin_flip_small k (ln 10 / 400) ltac:(lra)) as (h0 & Hh & F). exists h0. split; [exact Hh|]. induction n as [|n IH]; intros a b H1 H2.
  - exists [((a + b) / 2, DRAW)]. cbn [elo_fin fold_left fst snd points]. pose proof (elo_mid k a b) as M. rewrite elo_E_sg in M. simpl in H2. specialize (F (b - a) ltac:(lra)).
    replace ((b - a - (b - a) / 2) * ln 10 / 400) with ((b - a) * (ln 10 / 400) / 2) in M by field. lra.
  - set (a' := elo_upd k a ((a + b) / 2) (1 / 2)). set (b' := elo_upd k b ((a + b) / 2) (1 / 2)). pose proof (elo_mid k a b) as M. fold a' b' in M.
    destruct (Rle_dec b' a') as [Hc|Hc]; [exists [((a + b) / 2, DRAW)]; exact Hc|].
    destruct (Rlt_dec (b - a) h0) as [Hl|Hl].
    + apply IH; [lra|]. rewrite <- (Rplus_0_r (b - a)). apply Rplus_lt_le_compat; [exact Hl|]. apply Rmult_le_pos; [apply pos_INR|]. apply Rmult_le_pos; [lra|].
      pose proof (elo_E_mono (h0 / 2) h0 (h0 / 2) ltac:(lra)) as Q. rewrite elo_E_equal in Q. lra.
    + destruct (IH a' b' ltac:(lra)) as [rs Hrs]; [|exists (((a + b) / 2, DRAW) :: rs); exact Hrs]. rewrite M. rewrite S_INR in H2.
      assert (elo_E h0 (h0 / 2) <= elo_E (b - a) ((b - a) / 2)).
      { rewrite <- (elo_E_shift h0 (h0 / 2) (- (h0 / 2))), <- (elo_E_shift (b - a) ((b - a) / 2) (- ((b - a) / 2))). replace (h0 / 2 + - (h0 / 2)) with 0 by ring. replace ((b - a) / 2 + - ((b - a) / 2)) with 0 by ring.
        destruct (Req_dec h0 (b - a)) as [->|]; [lra|]. apply Rlt_le, elo_E_mono. lra. }
      assert (k * (2 * elo_E h0 (h0 / 2) - 1) <= k * (2 * elo_E (b - a) ((b - a) / 2) - 1)) by (apply Rmult_le_compat_l; lra). lra.
Qed.
Lemma C121_elo_refuted_proof : forall r ro k, 1600 < k * ln 10 -> exists l2 a b,
  elo_rating_period (mkElo (Fin r)) (map (fun g => (mkElo (Fin (fst g)), snd g)) ((ro, DRAW) :: l2)) (mkEloConfig (Fin k)) = mkElo (Fin a) /\
  elo_rating_period (mkElo (Fin r)) (map (fun g => (mkElo (Fin (fst g)), snd g)) ((ro, WIN) :: l2)) (mkEloConfig (Fin k)) = mkElo (Fin b) /\ b <= a.
Proof.
  intros r ro k HK. pose proof ln10_close. assert (Hk : 0 < k) by (apply (Rmult_lt_reg_r (ln 10)); lra). destruct (elo_cross k HK) as (h0 & Hh & F).
  set (a := elo_upd k r ro (1 / 2)). set (b := elo_upd k r ro 1). assert (D : b - a = k / 2) by (unfold a, b, elo_upd; lra).
  set (e := k * (2 * elo_E h0 (h0 / 2) - 1)) in F. assert (He : 0 < e) by (unfold e; pose proof (elo_E_mono (h0 / 2) h0 (h0 / 2) ltac:(lra)) as Q; rewrite elo_E_equal in Q; apply Rmult_lt_0_compat; lra).
  destruct (nfloor_ex (k / 2 / e)) as [n' [_ Hn]]; [apply Rmult_le_pos; [lra|apply Rlt_le, Rinv_0_lt_compat, He]|]. set (n := S n'). assert (Hn' : k / 2 < INR n * e).
  { unfold n. rewrite S_INR. apply (Rmult_lt_compat_r e) in Hn; [|exact He]. replace (k / 2 / e * e) with (k / 2) in Hn by (field; lra). lra. } destruct (F n a b ltac:(lra)) as [rs Hrs].
  { lra. }
  exists rs. do 2 eexists. split; [apply elo_period_fin|split; [apply elo_period_fin|]]. exact Hrs.
Qed.

(** ** FIFA *)
Definition fifa_fin (rs : list (R * Outcomes * (R * bool * bool))) (r : R) : R :=
  fold_left (fun x g => let '(ro, o, (i, ko, pen)) := g in ko_max ko x (fifa_upd i x ro (code_W1 pen o))) rs r.
Definition fifa_gs (rs : list (R * Outcomes * (R * bool * bool))) : list (FifaRating XR * Outcomes * FifaConfig XR) :=
  map (fun g => let '(ro, o, (i, ko, pen)) := g in (mkFifa (Fin ro), o, mkFifaConfig (Fin i) ko pen)) rs.
Lemma fifa_period_fin rs : forall r, fifa_rating_period (mkFifa (Fin r)) (fifa_gs rs) = mkFifa (Fin (fifa_fin rs r)).
Proof. intro r. rewrite fifa_period_fold. revert r. induction rs as [|[[ro o] [[i ko] pen]] rs IH]; intro r; [reflexivity|]. cbn [fifa_gs map fold_left fst snd]. rewrite fifa_eval. cbn [fst]. apply IH. Qed.
Definition fifa_ok (g : R * Outcomes * (R * bool * bool)) : Prop := let i := fst (fst (snd g)) in 0 < i /\ i * ln 10 < 2400.
Lemma fifa_fin_mono rs : List.Forall fifa_ok rs -> forall r r', r < r' -> fifa_fin rs r < fifa_fin rs r'.
Proof.
  induction 1 as [|[[ro o] [[i ko] pen]] rs [Hi HI] _ IH]; intros r r' H; [exact H|]. cbn [fifa_fin fold_left]. cbn [fst snd] in Hi, HI. apply IH. unfold ko_max, fifa_upd. rewrite !fifa_We_sg. set (W := code_W1 pen o).
  pose proof ln10_close. unfold Rdiv. rewrite !Rmult_assoc. pose proof (lin_sg_mono i (ln 10 * / 600) ro r r' ltac:(lra) ltac:(lra) ltac:(lra) H).
  destruct ko; [|lra]. unfold Rmax. destruct (Rle_dec _ _), (Rle_dec _ _); lra.
Qed.
Lemma C121_fifa_proof : forall r l1 l2 ro x y i ko pen, points x < points y -> 0 < i -> List.Forall (fun g => let i := fst (fst (snd g)) in 0 < i /\ i * ln 10 < 2400) l2 ->
  let games := map (fun g : R * Outcomes * (R * bool * bool) => let '(ro, o, (i, ko, pen)) := g in (mkFifa (Fin ro), o, mkFifaConfig (Fin i) ko pen)) in
  exists a b,
  fifa_rating_period (mkFifa (Fin r)) (games (l1 ++ (ro, x, (i, ko, pen)) :: l2)) = mkFifa (Fin a) /\
  fifa_rating_period (mkFifa (Fin r)) (games (l1 ++ (ro, y, (i, ko, pen)) :: l2)) = mkFifa (Fin b) /\ a <= b /\ (ko = false -> pen = false -> a < b).
Proof.
  intros r l1 l2 ro x y i ko pen H Hi Hl games. do 2 eexists. split; [apply fifa_period_fin|split; [apply fifa_period_fin|]].
  unfold fifa_fin. rewrite !fold_left_app. cbn [fold_left]. set (r0 := fold_left _ l1 r). fold (fifa_fin l2 (ko_max ko r0 (fifa_upd i r0 ro (code_W1 pen x)))) (fifa_fin l2 (ko_max ko r0 (fifa_upd i r0 ro (code_W1 pen y)))).
  assert (W : code_W1 pen x <= code_W1 pen y) by (destruct pen, x, y; cbn in *; lra). assert (U : fifa_upd i r0 ro (code_W1 pen x) <= fifa_upd i r0 ro (code_W1 pen y)) by (unfold fifa_upd; apply Rplus_le_compat_l, Rmult_le_compat_l; lra).
  split.
  - set (a := ko_max ko r0 _). set (b := ko_max ko r0 _). assert (AB : a <= b) by (unfold a, b, ko_max; destruct ko; [apply Rle_max_compat_l|]; exact U). destruct (Req_dec a b) as [->|N]; [lra|]. apply Rlt_le, (fifa_fin_mono l2 Hl). lra.
  - intros -> ->. apply (fifa_fin_mono l2 Hl). cbn [ko_max code_W1]. unfold fifa_upd. assert (i * points x < i * points y) by (apply Rmult_lt_compat_l; lra). lra.
Qed.

(** ** Ingo: a lower number is better *)
Lemma C121_ingo_proof : forall r age l1 l2 ro ao x y, points x < points y -> 
  let games := map (fun g : R * N * Outcomes => let '(r, a, o) := g in (mkIngo (Fin r) a, o)) in
  exists a b,
  ingo_rating_period (mkIngo (Fin r) age) (games (l1 ++ (ro, ao, x) :: l2)) = mkIngo (Fin a) age /\
  ingo_rating_period (mkIngo (Fin r) age) (games (l1 ++ (ro, ao, y) :: l2)) = mkIngo (Fin b) age /\ b < a.
Proof.
  intros r age l1 l2 ro ao x y H games. do 2 eexists. split; [apply C24_formula_proof, ne_one|split; [apply C24_formula_proof, ne_one|]].
  unfold avg. rewrite !map_length, (len_one l1 l2 (ro, ao, x) (ro, ao, y)). set (n := length _). assert (Hn : 0 < INR n) by (apply lt_0_INR; unfold n; rewrite app_length; cbn; lia).
  rewrite !sum_one. cbn [fst snd]. set (A := Rsum _). set (B := Rsum (map (fun g : R * N * Outcomes => points (snd g)) (l1 ++ l2))). unfold ingo_upd, ingo_perf. assert (HD : 0 < ingo_D age) by (unfold ingo_D; destruct (_ <=? _)%N; [lra|]; destruct (_ <=? _)%N; lra).
  apply Rmult_lt_compat_r; [apply Rinv_0_lt_compat; lra|]. apply Rplus_lt_compat_r. apply Rmult_lt_compat_l; [exact Hn|]. apply Rplus_lt_compat_l, Ropp_lt_contravar. unfold Rminus. apply Rplus_lt_compat_r, Rmult_lt_compat_l; [lra|]. apply Rmult_lt_compat_r; [apply Rinv_0_lt_compat; exact Hn|lra].
Qed.

(** ** USCF *)
Lemma cw_one l1 l2 (x : Outcomes) : count_wins (l1 ++ x :: l2) = (count_wins [x] + count_wins (l1 ++ l2))%nat.
Proof. unfold count_wins. rewrite !filter_app. cbn [filter]. destruct x; rewrite !app_length; cbn [length]; lia. Qed.
Lemma cl_one l1 l2 (x : Outcomes) : count_losses (l1 ++ x :: l2) = (count_losses [x] + count_losses (l1 ++ l2))%nat.
Proof. unfold count_losses. rewrite !filter_app. cbn [filter]. destruct x; rewrite !app_length; cbn [length]; lia. Qed.
Lemma C121_uscf_proof : forall r n t l1 l2 ro no x y, points x < points y -> (n + N.of_nat (length (l1 ++ l2)) + 1 < 2 ^ 64)%N ->
  let games := map (fun g : R * N * Outcomes => (mkUscf (Fin (fst (fst g))) (snd (fst g)), snd g)) in
  exists a b m,
  uscf_rating_period (mkUscf (Fin r) n) (games (l1 ++ (ro, no, x) :: l2)) (mkUscfConfig (Fin t)) = mkUscf (Fin a) m /\
  uscf_rating_period (mkUscf (Fin r) n) (games (l1 ++ (ro, no, y) :: l2)) (mkUscfConfig (Fin t)) = mkUscf (Fin b) m /\ a < b.
Proof.
  intros r n t l1 l2 ro no x y H Hn games. assert (LL : forall z : R * N * Outcomes, length (l1 ++ z :: l2) = S (length (l1 ++ l2))) by (intro; rewrite !app_length; cbn; lia).
  do 3 eexists. split; [apply C10_period_proof; [apply ne_one|rewrite LL; lia]|split; [rewrite (len_one l1 l2 (ro, no, x) (ro, no, y)); apply C10_period_proof; [apply ne_one|rewrite LL; lia]|]].
  rewrite !LL. set (m := S (length (l1 ++ l2))). rewrite !sum_one. cbn [fst snd]. rewrite !(map_app snd). cbn [map snd].
  assert (Hm : 0 < INR m) by (apply lt_0_INR; unfold m; lia). assert (HN : 0 <= IZR (Z.of_N n)) by (apply IZR_le; lia).
  destruct (n <=? 8)%N.
  - rewrite !cw_one, !cl_one, !plus_INR. unfold uscf_prov. apply Rmult_lt_compat_r; [apply Rinv_0_lt_compat; lra|]. apply Rplus_lt_compat_l, Rmult_lt_compat_l; [lra|]. destruct x, y; cbn in *; lra.
  - set (E := elo_E r ro + Rsum (map (fun g : R * N * Outcomes => elo_E r (fst (fst g))) (l1 ++ l2))). set (B := Rsum (map _ _)). unfold uscf_upd. set (K := uscf_K _ _ _). assert (HK : 0 < K).
    { unfold K, uscf_K. apply Rmult_lt_0_compat; [lra|]. apply Rinv_0_lt_compat. assert (0 <= uscf_Ne r (IZR (Z.of_N n))); [|lra]. unfold uscf_Ne. destruct (Rlt_dec _ _); repeat apply Rmin_glb; try lra. apply Rmult_le_pos; [lra|]. apply Rlt_le, Rinv_0_lt_compat, sqrt_lt_R0. pose proof (pow2_ge_0 (2569 - r)). lra. }
    assert (HS : K * (points x + B - E) < K * (points y + B - E)) by (apply Rmult_lt_compat_l; lra). unfold uscf_bonus. destruct (m <? 3)%nat; [lra|].
    apply Rplus_lt_le_compat; [lra|]. apply Rle_max_compat_l. lra.
Qed.

(** ** DWZ *)
Lemma C121_dwz_proof : forall r i age l1 l2 ro io ao x y, (1 <= i)%N -> points x < points y ->
  let games := map (fun g : R * N * N * Outcomes => let '(x, j, b, o) := g in (mkDwz (Fin x) j b, o)) in
  exists a b j,
  dwz_rating_period (mkDwz (Fin r) i age) (games (l1 ++ (ro, io, ao, x) :: l2)) = mkDwz (Fin a) j age /\
  dwz_rating_period (mkDwz (Fin r) i age) (games (l1 ++ (ro, io, ao, y) :: l2)) = mkDwz (Fin b) j age /\ a < b.
Proof.
  intros r i age l1 l2 ro io ao x y Hi H games. do 3 eexists. split; [apply (C22_formula_proof r i age _ Hi)|split; [apply (C22_formula_proof r i age _ Hi)|]].
  rewrite (len_one l1 l2 (ro, io, ao, x) (ro, io, ao, y)). rewrite !sum_one. cbn [fst snd]. set (n := INR _). set (E := elo_E r ro + Rsum (map (fun g : R * N * N * Outcomes => elo_E r (fst (fst (fst g)))) (l1 ++ l2))). set (B := Rsum _). set (S := points x + B). set (S' := points y + B). assert (HS : S < S') by (unfold S, S'; lra). clearbody S S' E.
  assert (Hn : 0 <= n) by apply pos_INR. unfold dwz_upd. set (j := IZR (Z.of_N i)).
  assert (P : forall s, 0 < 800 / (dwz_E r age s E j + n)). { intro s. apply Rmult_lt_0_compat; [lra|]. apply Rinv_0_lt_compat. assert (5 <= dwz_E r age s E j) by apply Rmax_l. lra. }
  pose proof (P S) as P1. pose proof (P S') as P2. apply Rplus_lt_compat_l.
  destruct (Rlt_dec S E) as [L|L]; [destruct (Rlt_dec S' E) as [L'|L']|].
  - assert (EE : dwz_E r age S' E j = dwz_E r age S E j). { unfold dwz_E, dwz_raw_E, dwz_acc, dwz_brake. destruct (Rle_dec E S), (Rle_dec E S'); try lra. destruct (Rle_dec S E), (Rle_dec S' E); try lra; reflexivity. }
    rewrite EE. apply Rmult_lt_compat_l; [exact P1|lra].
  - apply Rlt_le_trans with 0; [|apply Rmult_le_pos; lra]. rewrite <- (Rmult_0_r (800 / (dwz_E r age S E j + n))). apply Rmult_lt_compat_l; lra.
  - destruct (Req_dec S E) as [->|N].
    + rewrite Rminus_diag_eq, Rmult_0_r by reflexivity. apply Rmult_lt_0_compat; lra.
    + assert (EE : dwz_E r age S' E j = dwz_E r age S E j). { unfold dwz_E, dwz_raw_E, dwz_acc, dwz_brake. destruct (Rle_dec E S), (Rle_dec E S'); try lra. destruct (Rle_dec S E), (Rle_dec S' E); try lra; reflexivity. }
      rewrite EE. apply Rmult_lt_compat_l; [exact P1|lra].
Qed.

(** ** EGF *)
Lemma C121_egf_proof : forall r l1 l2 ro x y H, r < 3300 -> points x < points y ->
  (forall opp o H', In (opp, o, H') (l1 ++ (ro, x, H) :: l2) -> egf_adj (egf_h1 H') r < 3300 /\ egf_adj (egf_h2 H') opp < 3300) ->
  let games := map (fun g : R * Outcomes * R => let '(opp, o, H) := g in (mkEgf (Fin opp), o, mkEgfConfig (Fin H))) in
  exists a b,
  egf_rating_period (mkEgf (Fin r)) (games (l1 ++ (ro, x, H) :: l2)) = mkEgf (Fin a) /\
  egf_rating_period (mkEgf (Fin r)) (games (l1 ++ (ro, y, H) :: l2)) = mkEgf (Fin b) /\ a <= b /\
  (- 900 < r + egf_C r * (points y - egf_E (egf_adj (egf_h1 H) r) (egf_adj (egf_h2 H) ro)) + egf_bon r -> a < b).
Proof.
  intros r l1 l2 ro x y H Hr Hp HA games.
  assert (HB : forall opp o H', In (opp, o, H') (l1 ++ (ro, y, H) :: l2) -> egf_adj (egf_h1 H') r < 3300 /\ egf_adj (egf_h2 H') opp < 3300).
  { intros opp o H' I. apply in_app_or in I. destruct I as [I|[I|I]]; [apply (HA opp o); apply in_or_app; left; exact I| |apply (HA opp o); apply in_or_app; right; right; exact I].
    injection I as -> _ ->. apply (HA opp x). apply in_or_app. right. left. reflexivity. }
  do 2 eexists. split; [apply C73_proof; assumption|split; [apply C73_proof; assumption|]]. rewrite !sum_one. set (E := egf_E (egf_adj (egf_h1 H) r) (egf_adj (egf_h2 H) ro)). set (B := Rsum _).
  pose proof (egf_C_pos r) as HC. assert (D : egf_C r * (points x - E) < egf_C r * (points y - E)) by (apply Rmult_lt_compat_l; lra). unfold egf_upd. split.
  - assert (Rmax (-900) (r + egf_C r * (points x - E) + egf_bon r) <= Rmax (-900) (r + egf_C r * (points y - E) + egf_bon r)) by (apply Rle_max_compat_l; lra). lra.
  - intro F. rewrite (Rmax_right (-900) (r + egf_C r * (points y - E) + egf_bon r)) by lra. assert (Rmax (-900) (r + egf_C r * (points x - E) + egf_bon r) < r + egf_C r * (points y - E) + egf_bon r) by (apply Rmax_lub_lt; lra). lra.
Qed.

(** ** Glicko and Sticko *)
Lemma gM_one r l1 l2 rj RDj s : gM r (l1 ++ (rj, RDj, s) :: l2) = gg RDj * (s - gE r rj RDj) + gM r (l1 ++ l2).
Proof. unfold gM. apply (sum_one (fun '(rj, RDj, s) => gg RDj * (s - gE r rj RDj)) l1 l2 (rj, RDj, s)). Qed.
Lemma gd2inv_one r l1 l2 rj RDj s s' : gd2inv r (l1 ++ (rj, RDj, s) :: l2) = gd2inv r (l1 ++ (rj, RDj, s') :: l2).
Proof. unfold gd2inv. f_equal. f_equal. now apply map_one. Qed.
Lemma gM_lt r l1 l2 rj RDj s s' : s < s' -> gM r (l1 ++ (rj, RDj, s) :: l2) < gM r (l1 ++ (rj, RDj, s') :: l2).
Proof. intro H. rewrite !gM_one. pose proof (gg_pos RDj) as G. assert (gg RDj * (s - gE r rj RDj) < gg RDj * (s' - gE r rj RDj)) by (apply Rmult_lt_compat_l; lra). lra. Qed.
Lemma gpre_pos RD c : 0 < RD -> 0 < gpre RD c.
Proof. intro H. unfold gpre. apply Rmin_glb_lt; [|lra]. apply sqrt_lt_R0. pose proof (pow_lt RD 2 H). pose proof (pow2_ge_0 c). lra. Qed.
Lemma glicko_r_lt r RD l1 l2 rj RDj s s' : 0 < RD -> s < s' -> glicko_r r RD (l1 ++ (rj, RDj, s) :: l2) < glicko_r r RD (l1 ++ (rj, RDj, s') :: l2).
Proof.
  intros HR H. unfold glicko_r. rewrite (gd2inv_one r l1 l2 rj RDj s s'). set (D := gd2inv r _). assert (0 <= D) by apply gd2inv_nonneg. assert (0 < / RD ^ 2) by (apply Rinv_0_lt_compat, pow_lt, HR). pose proof gq_pos.
  apply Rplus_lt_compat_l, Rmult_lt_compat_l; [apply Rmult_lt_0_compat; [assumption|apply Rinv_0_lt_compat; lra]|]. apply gM_lt, H.
Qed.
Lemma C121_glicko_proof : forall r RD c l1 l2 rj RDj x y, 0 < RD -> points x < points y ->
  let games := map (fun '(rj, RDj, o) => (mkGlicko (Fin rj) (Fin RDj), o)) in
  exists a b d,
  glicko_rating_period (mkGlicko (Fin r) (Fin RD)) (games (l1 ++ (rj, RDj, x) :: l2)) (mkGlickoConfig (Fin c)) = mkGlicko (Fin a) (Fin d) /\
  glicko_rating_period (mkGlicko (Fin r) (Fin RD)) (games (l1 ++ (rj, RDj, y) :: l2)) (mkGlickoConfig (Fin c)) = mkGlicko (Fin b) (Fin d) /\ a < b.
Proof.
  intros r RD c l1 l2 rj RDj x y HR H games. set (f := fun '(rj, RDj, o) => (rj : R, RDj : R, points o)).
  exists (glicko_r r (gpre RD c) (map f (l1 ++ (rj, RDj, x) :: l2))), (glicko_r r (gpre RD c) (map f (l1 ++ (rj, RDj, y) :: l2))), (glicko_rd r (gpre RD c) (map f (l1 ++ (rj, RDj, x) :: l2))).
  split; [apply C29_formula_proof; [exact HR|apply ne_one]|split].
  - unfold games. rewrite (C29_formula_proof r RD c _ HR (ne_one l1 l2 _)). cbv zeta. fold f. f_equal. unfold glicko_rd. rewrite !map_app. cbn [map]. do 4 f_equal. apply (gd2inv_one r (map f l1) (map f l2)).
  - rewrite !map_app. cbn [map]. apply (glicko_r_lt r _ (map f l1) (map f l2)); [apply gpre_pos, HR|exact H].
Qed.
Lemma C121_sticko_proof : forall r RD h beta lambda gamma c l1 l2 rj RDj x y w, 0 < RD -> 0 <= h -> points x < points y ->
  let games := map (fun '(rj, RDj, o, white) => (mkSticko (Fin rj) (Fin RDj), o, white)) in
  let cfg := mkStickoConfig (Fin h) (Fin beta) (Fin lambda) (Fin gamma) (Fin c) in
  exists a b d,
  sticko_rating_period (mkSticko (Fin r) (Fin RD)) (games (l1 ++ (rj, RDj, x, w) :: l2)) cfg = mkSticko (Fin a) (Fin d) /\
  sticko_rating_period (mkSticko (Fin r) (Fin RD)) (games (l1 ++ (rj, RDj, y, w) :: l2)) cfg = mkSticko (Fin b) (Fin d) /\ a < b.
Proof.
  intros r RD h beta lambda gamma c l1 l2 rj RDj x y w HR Hh H games cfg.
  exists (sticko_r r (gpre RD c) beta gamma lambda (l1 ++ (rj, RDj, x, w) :: l2)), (sticko_r r (gpre RD c) beta gamma lambda (l1 ++ (rj, RDj, y, w) :: l2)), (sticko_rd r (gpre RD c) beta gamma h (l1 ++ (rj, RDj, x, w) :: l2)).
  set (f := st_game gamma beta).
  split; [apply C33_period_proof; [exact HR|exact Hh|apply ne_one]|split].
  - unfold games, cfg. rewrite (C33_period_proof r RD h beta lambda gamma c _ HR Hh (ne_one l1 l2 _)). f_equal. f_equal. unfold sticko_rd. rewrite (len_one l1 l2 (rj, RDj, y, w) (rj, RDj, x, w)). fold f. rewrite !map_app. cbn [map]. do 4 f_equal. apply (gd2inv_one r (map f l1) (map f l2)).
  - unfold sticko_r. fold f. rewrite (map_one (fun '(rj, _, _, _) => rj) l1 l2 (rj, RDj, x, w) (rj, RDj, y, w) eq_refl). apply Rplus_lt_compat_r. rewrite !map_app. cbn [map]. apply (glicko_r_lt r _ (map f l1) (map f l2)); [apply gpre_pos, HR|lra].
Qed.

(** ** Glicko-Boost *)
Lemma grd_pos r RD g : 0 < RD -> 0 < glicko_rd r RD g.
Proof. intro H. apply sqrt_lt_R0, Rinv_0_lt_compat. pose proof (gd2inv_nonneg r g). pose proof (Rinv_0_lt_compat _ (pow_lt RD 2 H)). lra. Qed.
Lemma grd_mono r RD RD' g g' : 0 < RD <= RD' -> gd2inv r g = gd2inv r g' -> glicko_rd r RD g <= glicko_rd r RD' g'.
Proof.
  intros [H H'] E. unfold glicko_rd. rewrite E. apply sqrt_le_1_alt, Rinv_le_contravar.
  - pose proof (gd2inv_nonneg r g'). pose proof (Rinv_0_lt_compat _ (pow_lt RD' 2 ltac:(lra))). lra.
  - apply Rplus_le_compat_r, Rinv_le_contravar; [apply pow_lt, H|apply pow_incr; lra].
Qed.
Lemma boost_r_lt c r RD g g' : 0 < RD -> 0 <= bc_k c -> 0 <= bc_b0 c -> 0 <= bc_b1 c -> g <> [] -> gd2inv r g = gd2inv r g' -> gM r g < gM r g' ->
  bc_k c = 0 \/ boost_Z r g' <= bc_k c \/ bc_k c < boost_Z r g -> boost_r c r RD g < boost_r c r RD g'.
Proof.
  intros HR Hk H0 H1 Hg HD HM Hc. unfold boost_r. apply Rplus_lt_compat_l. pose proof gq_pos as Q.
  assert (EZ : boost_Z r g < boost_Z r g'). { unfold boost_Z. rewrite HD. apply Rmult_lt_compat_r; [|exact HM]. apply Rinv_0_lt_compat, sqrt_lt_R0, Rmult_lt_0_compat; [rewrite <- HD; now apply gd2inv_pos|apply Rinv_0_lt_compat, pow_lt, Q]. }
  assert (EG : forall d, glicko_rd r d g = glicko_rd r d g') by (intro; unfold glicko_rd; now rewrite HD).
  assert (PB : 0 < boost_rd c r RD g). { unfold boost_rd. cbv zeta. apply Rmin_glb_lt; [|lra]. apply grd_pos. destruct (Rlt_dec _ _) as [l|]; [|exact HR]. destruct (Req_EM_T _ _); [exact HR|]. pose proof (grd_pos r RD g HR) as P.
    assert (0 <= (boost_Z r g - bc_k c) * bc_b0 c) by (apply Rmult_le_pos; lra). assert (0 < (1 + (boost_Z r g - bc_k c) * bc_b0 c) * glicko_rd r RD g) by (apply Rmult_lt_0_compat; lra). lra. }
  assert (SAME : boost_rd c r RD g = boost_rd c r RD g' -> gq * boost_rd c r RD g ^ 2 * gM r g < gq * boost_rd c r RD g' ^ 2 * gM r g').
  { intros <-. apply Rmult_lt_compat_l; [|exact HM]. apply Rmult_lt_0_compat; [exact Q|apply pow_lt, PB]. }
  destruct (Req_EM_T (bc_k c) 0) as [K0|K0].
  - apply SAME. unfold boost_rd. cbv zeta. destruct (Req_EM_T (bc_k c) 0); [|contradiction]. destruct (Rlt_dec _ _), (Rlt_dec _ _); now rewrite EG.
  - destruct Hc as [Hc|[Hc|Hc]]; [contradiction| |].
    + apply SAME. unfold boost_rd. cbv zeta. destruct (Rlt_dec (bc_k c) (boost_Z r g)); [lra|]. destruct (Rlt_dec (bc_k c) (boost_Z r g')); [lra|]. now rewrite EG.
    + assert (LE : boost_rd c r RD g <= boost_rd c r RD g'). { unfold boost_rd. cbv zeta. destruct (Rlt_dec (bc_k c) (boost_Z r g)); [|lra]. destruct (Rlt_dec (bc_k c) (boost_Z r g')); [|lra]. destruct (Req_EM_T _ _); [contradiction|].
        apply Rle_min_compat_r. pose proof (grd_pos r RD g HR) as P. assert (Z0 : 0 <= (boost_Z r g - bc_k c) * bc_b0 c) by (apply Rmult_le_pos; lra). assert (Z1 : (boost_Z r g - bc_k c) * bc_b0 c <= (boost_Z r g' - bc_k c) * bc_b0 c) by (apply Rmult_le_compat_r; lra).
        apply grd_mono; [|exact HD]. rewrite <- EG. assert (0 < (1 + (boost_Z r g - bc_k c) * bc_b0 c) * glicko_rd r RD g) by (apply Rmult_lt_0_compat; lra). split; [lra|]. apply Rplus_le_compat_r, Rmult_le_compat_r; lra. }
      assert (ZP : 0 < gM r g). { apply Rnot_le_lt. intro N. assert (boost_Z r g <= 0); [|lra]. unfold boost_Z. rewrite <- (Rmult_0_l (/ sqrt (gd2inv r g / gq ^ 2))). apply Rmult_le_compat_r; [|exact N]. apply Rlt_le, Rinv_0_lt_compat, sqrt_lt_R0, Rmult_lt_0_compat; [now apply gd2inv_pos|apply Rinv_0_lt_compat, pow_lt, Q]. }
      apply Rle_lt_trans with (gq * boost_rd c r RD g' ^ 2 * gM r g).
      * apply Rmult_le_compat_r; [lra|]. apply Rmult_le_compat_l; [lra|]. apply pow_incr. lra.
      * apply Rmult_lt_compat_l; [|exact HM]. apply Rmult_lt_0_compat; [exact Q|apply pow_lt; lra].
Qed.
Lemma C121_boost_partial_proof : forall r RD c l1 l2 rj RDj x y w, 0 < RD -> 0 <= bc_k c -> 0 <= bc_b0 c -> 0 <= bc_b1 c -> points x < points y ->
  let cfg := mkBoostConfig (Fin (bc_eta c)) (Fin (bc_k c)) (Fin (bc_b0 c)) (Fin (bc_b1 c))
    (Fin (bc_a0 c)) (Fin (bc_a1 c)) (Fin (bc_a2 c)) (Fin (bc_a3 c)) (Fin (bc_a4 c)) in
  let g := map (fun '(rj, RDj, o, white) => (rj - (if white : bool then bc_eta c else - bc_eta c), RDj, points o)) in
  let games := map (fun '(rj, RDj, o, white) => (mkBoost (Fin rj) (Fin RDj), o, white)) in
  let Zx := boost_Z r (g (l1 ++ (rj, RDj, x, w) :: l2)) in let Zy := boost_Z r (g (l1 ++ (rj, RDj, y, w) :: l2)) in
  Zx < Zy /\ (bc_k c = 0 \/ Zy <= bc_k c \/ bc_k c < Zx ->
  exists a b,
  gb_rating (glicko_boost_rating_period (mkBoost (Fin r) (Fin RD)) (games (l1 ++ (rj, RDj, x, w) :: l2)) cfg) = Fin a /\
  gb_rating (glicko_boost_rating_period (mkBoost (Fin r) (Fin RD)) (games (l1 ++ (rj, RDj, y, w) :: l2)) cfg) = Fin b /\ a < b).
Proof.
  intros r RD c l1 l2 rj RDj x y w HR Hk H0 H1 H cfg g games Zx Zy.
  assert (GA : forall o, g (l1 ++ (rj, RDj, o, w) :: l2) = g l1 ++ (rj - (if w : bool then bc_eta c else - bc_eta c), RDj, points o) :: g l2) by (intro; unfold g; rewrite map_app; reflexivity).
  assert (HD : gd2inv r (g (l1 ++ (rj, RDj, x, w) :: l2)) = gd2inv r (g (l1 ++ (rj, RDj, y, w) :: l2))) by (rewrite !GA; apply gd2inv_one).
  assert (HM : gM r (g (l1 ++ (rj, RDj, x, w) :: l2)) < gM r (g (l1 ++ (rj, RDj, y, w) :: l2))) by (rewrite !GA; apply gM_lt, H).
  assert (NE : g (l1 ++ (rj, RDj, x, w) :: l2) <> []) by (rewrite GA; apply ne_one). pose proof gq_pos as Q.
  split.
  - unfold Zx, Zy, boost_Z. rewrite HD. apply Rmult_lt_compat_r; [|exact HM]. apply Rinv_0_lt_compat, sqrt_lt_R0, Rmult_lt_0_compat; [rewrite <- HD; now apply gd2inv_pos|apply Rinv_0_lt_compat, pow_lt, Q].
  - intro Hc. exists (boost_r c r RD (g (l1 ++ (rj, RDj, x, w) :: l2))), (boost_r c r RD (g (l1 ++ (rj, RDj, y, w) :: l2))). unfold games, cfg.
    rewrite (C35_period_proof r RD c (l1 ++ (rj, RDj, x, w) :: l2) HR H0 H1 (ne_one l1 l2 _)), (C35_period_proof r RD c (l1 ++ (rj, RDj, y, w) :: l2) HR H0 H1 (ne_one l1 l2 _)).
    split; [reflexivity|split; [reflexivity|]]. apply boost_r_lt; assumption.
Qed.
Definition even16 (r RDj : R) (x : Outcomes) : list (R * R * Outcomes * bool) :=
  repeat (r + 30, RDj, WIN, true) 11 ++ (r + 30, RDj, x, true) :: repeat (r + 30, RDj, LOSS, true) 4.
Lemma even16_sums r RDj x : let g := map (fun '(rj, RDj, o, white) => (rj - (if white : bool then 30 else - 30), RDj, points o)) (even16 r RDj x) in
  gd2inv r g = gq ^ 2 * (4 * gg RDj ^ 2) /\ gM r g = gg RDj * (3 + points x).
Proof.
  intro g. assert (E : gE r (r + 30 - 30) RDj = / 2). { unfold gE. replace (- gg RDj * (r - (r + 30 - 30)) / 400) with 0 by field. rewrite Rpower_O by lra. lra. }
  unfold g, even16, gd2inv, gM. cbn [repeat app map]. rewrite !Rsum_cons. unfold Rsum. cbn [fold_right]. rewrite !E. cbn [points]. split; [f_equal|]; field.
Qed.
Lemma C121_boost_refuted_proof : forall r RDj, 0 <= RDj <= 350 -> exists a b,
  gb_rating (glicko_boost_rating_period (mkBoost (Fin r) (Fin 350)) (map (fun '(rj, RDj, o, white) => (mkBoost (Fin rj) (Fin RDj), o, white))
    (repeat (r + 30, RDj, WIN, true) 11 ++ (r + 30, RDj, DRAW, true) :: repeat (r + 30, RDj, LOSS, true) 4)) boost_config_new) = Fin a /\
  gb_rating (glicko_boost_rating_period (mkBoost (Fin r) (Fin 350)) (map (fun '(rj, RDj, o, white) => (mkBoost (Fin rj) (Fin RDj), o, white))
    (repeat (r + 30, RDj, WIN, true) 11 ++ (r + 30, RDj, WIN, true) :: repeat (r + 30, RDj, LOSS, true) 4)) boost_config_new) = Fin b /\ b < a.
Proof.
  intros r RDj B. set (c := bdef (196 / 100)). fold (even16 r RDj DRAW) (even16 r RDj WIN).
  assert (F : forall x, glicko_boost_rating_period (mkBoost (Fin r) (Fin 350)) (map (fun '(rj, RDj, o, white) => (mkBoost (Fin rj) (Fin RDj), o, white)) (even16 r RDj x)) boost_config_new =
    let g := map (fun '(rj, RDj, o, white) => (rj - (if white : bool then 30 else - 30), RDj, points o)) (even16 r RDj x) in
    mkBoost (Fin (boost_r c r 350 g)) (Fin (boost_end c (boost_r c r 350 g) (boost_rd c r 350 g)))).
  { intro x. rewrite <- bdef_new. apply (C35_period_proof r 350 c (even16 r RDj x)); [lra|cbn; lra|cbn; lra|discriminate]. }
  rewrite !F. cbv zeta. cbn [gb_rating]. do 2 eexists. split; [reflexivity|split; [reflexivity|]]. clear F.
  destruct (even16_sums r RDj DRAW) as [D1 M1]. destruct (even16_sums r RDj WIN) as [D2 M2]. set (g1 := map _ (even16 r RDj DRAW)) in *. set (g2 := map _ (even16 r RDj WIN)) in *. cbv zeta in *. cbn [points] in M1, M2.
  pose proof (gg_rng RDj ltac:(lra)) as [_ Bg]. set (G := gg RDj) in *. pose proof gq_close as Bq. set (D := gq ^ 2 * (4 * G ^ 2)) in *.
  assert (BD : 0.000033 <= D <= 0.000133). { unfold D. assert (0.25 <= G ^ 2 <= 1) by (split; nra). assert (0.000033 <= gq ^ 2 <= 0.00003315) by (split; nra). nra. }
  assert (SZ : forall g m, gd2inv r g = D -> gM r g = G * m -> boost_Z r g = m / 2).
  { intros g m H1 H2. unfold boost_Z. rewrite H1, H2. unfold D. replace (gq ^ 2 * (4 * G ^ 2) / gq ^ 2) with ((2 * G) ^ 2) by (field; lra). rewrite sqrt_pow2 by lra. field. lra. }
  pose proof (SZ _ _ D1 M1) as Z1. pose proof (SZ _ _ D2 M2) as Z2. clear SZ. unfold boost_r. rewrite M1, M2. apply Rplus_lt_compat_l.
  set (a := / 350 ^ 2). assert (Ha : a * 122500 = 1) by (unfold a; field). set (y := sqrt (/ (a + D))). assert (Py : 0 < y) by (apply sqrt_lt_R0, Rinv_0_lt_compat; lra).
  assert (Y2 : y * y * (a + D) = 1) by (unfold y; rewrite sqrt_sqrt; [field; lra|apply Rlt_le, Rinv_0_lt_compat; lra]). assert (By : 84 <= y <= 350). { split; apply Rnot_lt_le; intro N; [assert (y * y <= 84 * 84) by (apply Rmult_le_compat; lra)|assert (350 * 350 <= y * y) by (apply Rmult_le_compat; lra)]; nra. }
  assert (R1 : boost_rd c r 350 g1 = y). { unfold boost_rd. cbv zeta. rewrite Z1. cbn [c bdef bc_k]. destruct (Rlt_dec _ _); [lra|]. unfold glicko_rd. rewrite D1. fold a y. apply Rmin_left. lra. }
  set (P := (1 + (2 - 196 / 100) * (20139 / 100000)) * y + 175 / 10). assert (BP : y <= P <= 1.2165 * y) by (unfold P; lra).
  assert (R2 : boost_rd c r 350 g2 ^ 2 <= / (/ P ^ 2 + D)). { unfold boost_rd. cbv zeta. rewrite Z2. cbn [c bdef bc_k bc_b0 bc_b1]. destruct (Rlt_dec _ _); [|lra]. destruct (Req_EM_T _ _); [lra|]. unfold glicko_rd. rewrite D2. fold a y. replace ((3 + 1) / 2) with 2 by field. fold P.
    assert (PI2 : 0 < / (/ P ^ 2 + D)) by (apply Rinv_0_lt_compat; pose proof (Rinv_0_lt_compat _ (pow_lt P 2 ltac:(lra))); lra). rewrite <- (pow2_sqrt (/ (/ P ^ 2 + D))) at 2 by lra. apply pow_incr. split; [apply Rmin_glb; [apply sqrt_pos|lra]|apply Rmin_l]. }
  rewrite R1. set (X := boost_rd c r 350 g2 ^ 2) in *.
  assert (KEY : X * 4 < y * y * (7 / 2)). { assert (IP : 0 < / P ^ 2) by (apply Rinv_0_lt_compat, pow_lt; lra).
    assert (LP : / (1.2165 * y) ^ 2 <= / P ^ 2) by (apply Rinv_le_contravar; [apply pow_lt; lra|apply pow_incr; lra]).
    assert (E2 : / (1.2165 * y) ^ 2 = (a + D) / 1.2165 ^ 2). { apply (Rmult_eq_reg_r ((1.2165 * y) ^ 2)); [|apply pow_nonzero; lra]. rewrite Rinv_l by (apply pow_nonzero; lra). replace ((a + D) / 1.2165 ^ 2 * (1.2165 * y) ^ 2) with (y * y * (a + D)) by (field; lra). now rewrite Y2. }
    assert (Q1 : 4 * (a + D) < (7 / 2) * (/ P ^ 2 + D)). { rewrite E2 in LP. lra. }
    apply Rle_lt_trans with (/ (/ P ^ 2 + D) * 4); [apply Rmult_le_compat_r; lra|]. apply (Rmult_lt_reg_r ((/ P ^ 2 + D) * (a + D))); [apply Rmult_lt_0_compat; lra|].
    replace (/ (/ P ^ 2 + D) * 4 * ((/ P ^ 2 + D) * (a + D))) with (4 * (a + D)) by (field; split; [lra|]; pose proof (pow_lt P 2 ltac:(lra)); apply Rgt_not_eq; assert (0 < D * P ^ 2) by (apply Rmult_lt_0_compat; lra); lra).
    replace (y * y * (7 / 2) * ((/ P ^ 2 + D) * (a + D))) with (y * y * (a + D) * ((7 / 2) * (/ P ^ 2 + D))) by ring. rewrite Y2. lra. }
  replace (gq * X * (G * (3 + 1))) with (gq * G * (X * 4)) by ring. replace (gq * y ^ 2 * (G * (3 + 1 / 2))) with (gq * G * (y * y * (7 / 2))) by field. apply Rmult_lt_compat_l; [apply Rmult_lt_0_compat; lra|exact KEY].
Qed.
