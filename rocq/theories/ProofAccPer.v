(** Accuracy in double precision of whole rating periods: Elo, FIFA, EGF and Ingo. *)
From Coq Require Import ZArith NArith List Bool Reals Lra Lia Psatz.
From Flocq Require Import Core.Core IEEE754.BinarySingleNaN.
From Verif Require Import Arith XR B64 ModelLib ModelElo ModelFifa ModelIngo ModelEgf Spec SpecB64 SpecAcc Tac MathB64 ProofB64 ProofB64b ProofB64c MathB64b ProofB64f MathAcc MathAcc2 ProofDwz ProofIngo ProofElo ProofFifa ProofOrder2 ProofBoost2 ProofAcc ProofAcc2 ProofAcc3 ProofAccDwz.
Import ListNotations.
Local Open Scope R_scope.
#[local] Opaque Bplus Bminus Bmult Bdiv Bfma Bsqrt Bopp b64_max b64_min b64_of_Z b64_lit.

(** ** The exact step is non-expansive, so the errors of single games only add up *)
Lemma sg_lip a b : a <= b -> 0 <= sg b - sg a <= (b - a) / 4.
Proof.
  intros [H| ->]; [|lra]. assert (M : sg a < sg b).
  { apply (mvt_pos sg (fun u => sg u * (1 - sg u)) a b H); [intros c _; apply sg_deriv|]. intros c _. pose proof (sg_range c). nra. }
  split; [lra|]. apply Rnot_lt_le. intros C. set (D := sg b - sg a) in *. set (K := ((b - a) / D + 4) / 2).
  assert (D0 : 0 < D) by (unfold D; lra). assert (ED : (b - a) / D * D = b - a) by (field; lra).
  assert (Q4 : (b - a) / D < 4). { apply Rmult_lt_reg_r with D; [lra|]. rewrite ED. lra. }
  assert (Q0 : 0 < (b - a) / D) by (apply Rdiv_lt_0_compat; lra).
  pose proof (lin_sg_mono K 1 0 a b ltac:(unfold K; lra) ltac:(lra) ltac:(unfold K; lra) H) as Q. rewrite !Rminus_0_r, !Rmult_1_r in Q.
  assert (E : K * D = ((b - a) + 4 * D) / 2) by (unfold K; field; lra). unfold D in E at 1. lra.
Qed.
(** r + K (s - sg ((r - b) L)) *)
Lemma step_lip K L b s x y : 0 <= K -> 0 <= L -> K * L <= 8 ->
  Rabs ((x + K * (s - sg ((x - b) * L))) - (y + K * (s - sg ((y - b) * L)))) <= Rabs (x - y).
Proof.
  assert (W : forall x y, x <= y -> 0 <= K -> 0 <= L -> K * L <= 8 -> Rabs ((x + K * (s - sg ((x - b) * L))) - (y + K * (s - sg ((y - b) * L)))) <= Rabs (x - y)).
  { clear x y. intros x y H HK HL HKL. assert (HL' : (x - b) * L <= (y - b) * L) by (apply Rmult_le_compat_r; lra). pose proof (sg_lip _ _ HL') as S.
    set (D := sg ((y - b) * L) - sg ((x - b) * L)) in *. assert (E : ((y - b) * L - (x - b) * L) / 4 = (y - x) * L / 4) by field. rewrite E in S.
    assert (KD : 0 <= K * D <= 2 * (y - x)). { split; [apply Rmult_le_pos; lra|]. apply Rle_trans with (K * ((y - x) * L / 4)); [apply Rmult_le_compat_l; lra|]. replace (K * ((y - x) * L / 4)) with ((K * L) * ((y - x) / 4)) by field. apply Rle_trans with (8 * ((y - x) / 4)); [apply Rmult_le_compat_r; lra|lra]. }
    replace ((x + K * (s - sg ((x - b) * L))) - (y + K * (s - sg ((y - b) * L)))) with (x - y + K * D) by (unfold D; ring).
    rewrite (Rabs_left1 (x - y)) by lra. apply Rabs_le. lra. }
  intros HK HL HKL. destruct (Rle_dec x y) as [H|H]; [apply W; auto|]. rewrite (Rabs_minus_sym x y), Rabs_minus_sym. apply W; auto. lra.
Qed.
Lemma elo_upd_lip K b s x y : 0 <= K <= 1000 -> Rabs (elo_upd K x b s - elo_upd K y b s) <= Rabs (x - y).
Proof.
  intros HK. pose proof ln10_close as LN. unfold elo_upd. rewrite !elo_E_sg. pose proof (step_lip K (ln 10 / 400) b s x y ltac:(lra) ltac:(lra)) as S.
  replace ((x - b) * ln 10 / 400) with ((x - b) * (ln 10 / 400)) by field. replace ((y - b) * ln 10 / 400) with ((y - b) * (ln 10 / 400)) by field. apply S.
  apply Rle_trans with (1000 * (3 / 400)); [apply Rmult_le_compat; lra|lra].
Qed.
Lemma fifa_upd_lip K b s x y : 0 <= K <= 1000 -> Rabs (fifa_upd K x b s - fifa_upd K y b s) <= Rabs (x - y).
Proof.
  intros HK. pose proof ln10_close as LN. unfold fifa_upd. rewrite !fifa_We_sg. pose proof (step_lip K (ln 10 / 600) b s x y ltac:(lra) ltac:(lra)) as S.
  replace ((x - b) * ln 10 / 600) with ((x - b) * (ln 10 / 600)) by field. replace ((y - b) * ln 10 / 600) with ((y - b) * (ln 10 / 600)) by field. apply S.
  apply Rle_trans with (1000 * (3 / 600)); [apply Rmult_le_compat; lra|lra].
Qed.
Lemma Rmax_lip a b c d e : Rabs (a - b) <= e -> Rabs (c - d) <= e -> Rabs (Rmax a c - Rmax b d) <= e.
Proof. intros H1 H2. apply Rabs_le_inv in H1, H2. unfold Rmax. destruct (Rle_dec a c), (Rle_dec b d); apply Rabs_le; lra. Qed.

(** ** A generic loop: each pass is within [D] of an exact non-expansive step *)
Lemma loop_ap (X : Type) (f : B64 -> X -> B64) (g : R -> X -> R) (mv : X -> R) (D : R) (l : list X) : 0 <= D ->
  Forall (fun x => 0 <= mv x /\ (forall a b, Rabs (g a x - g b x) <= Rabs (a - b)) /\ (forall a, Rabs (g a x - a) <= mv x) /\
                   forall r, fin r -> Rabs (ext r) <= 19000 -> ap (f r x) (g (ext r) x) D) l ->
  forall r R0 (d : R), ap r R0 d -> Rabs R0 + Rsum (map mv l) + (d + INR (length l) * D) <= 19000 ->
  ap (fold_left f l r) (fold_left g l R0) (d + INR (length l) * D).
Proof.
  intros HD. induction l as [|x l IH]; intros HF r R0 d A B.
  - cbn [fold_left length]. simpl INR. rewrite Rmult_0_l, Rplus_0_r. exact A.
  - inversion HF as [|? ? [M0 [Lp [Mv St]]] Hl]; subst. cbn [map length fold_left] in *. rewrite Rsum_cons in B. rewrite S_INR in *. pose proof (pos_INR (length l)) as N0. pose proof (ap_nonneg _ _ _ A) as D0.
    assert (ND : 0 <= INR (length l) * D) by (apply Rmult_le_pos; lra).
    assert (S0 : 0 <= Rsum (map mv l)). { clear - Hl. induction Hl as [|y l [Y _] _ IH]; [simpl; unfold Rsum; simpl; lra|]. cbn [map]. rewrite Rsum_cons. lra. }
    replace (d + (INR (length l) + 1) * D) with (d + D + INR (length l) * D) by ring. apply IH; [exact Hl| |].
    + destruct A as [Fr Ar]. assert (Br : Rabs (ext r) <= 19000). { replace (ext r) with (R0 + (ext r - R0)) by ring. eapply Rle_trans; [apply Rabs_triang|]. lra. }
      destruct (St r Fr Br) as [F1 A1]. split; [exact F1|]. specialize (Lp (ext r) R0).
      replace (ext (f r x) - g R0 x) with ((ext (f r x) - g (ext r) x) + (g (ext r) x - g R0 x)) by ring. eapply Rle_trans; [apply Rabs_triang|]. lra.
    + specialize (Mv R0). assert (Rabs (g R0 x) <= Rabs R0 + mv x). { replace (g R0 x) with (R0 + (g R0 x - R0)) by ring. eapply Rle_trans; [apply Rabs_triang|]. lra. } lra.
Qed.

(** ** Elo *)
Lemma elo_step_ap L (k : B64) K (op : B64) RO o r : pow10_accurate L -> ap k K 0 -> 0 <= K <= 1000 -> ap op RO 0 -> Rabs RO <= 19000 -> fin r -> Rabs (ext r) <= 19000 ->
  ap (elo_period_step (A := B64A L) (mkEloConfig k) r (mkElo op, o)) (elo_upd K (ext r) RO (points o)) (2 / 10 ^ 11).
Proof.
  intros HP Ak BK Ao BO Fr Br. pose proof (ap_self r Fr) as Ar. set (R0 := ext r) in *. apply Rabs_le_inv in BO, Br.
  assert (U : elo_period_step (A := B64A L) (mkEloConfig k) r (mkElo op, o) = Bfma mode_NE k (Bminus mode_NE (to_chess_points (A := B64A L) o)
      (Bdiv mode_NE one64 (Bplus mode_NE one64 (l_pow L (b64_of_Z 10) (Bdiv mode_NE (Bminus mode_NE op r) (b64_of_Z 400)))))) r) by reflexivity.
  rewrite U. clear U.
  step (ap_sub _ _ _ _ _ _ 38001 Ao Ar ltac:(rewrite !Rplus_0_r; apply Rabs_le; lra) ltac:(okb)) (46 / 10 ^ 13).
  assert (By : Rabs ((RO - R0) / 400) <= 95). { apply Rabs_le. lra. }
  step (ap_div _ _ _ _ _ _ 400 95 96 S (ap_Z 400 ltac:(vm_compute; discriminate)) ltac:(lra) ltac:(rewrite Rabs_pos_eq; lra) By ltac:(lra) ltac:(okb)) (24 / 10 ^ 15).
  destruct (log_ap L _ _ _ HP S0 ltac:(lra) ltac:(lra)) as [_ E].
  assert (Ee : elo_E R0 RO = / (1 + Rpower 10 ((RO - R0) / 400))) by (unfold elo_E, Rdiv; rewrite Rmult_1_l; reflexivity).
  rewrite <- Ee in E. assert (BE : 0 < elo_E R0 RO < 1). { rewrite elo_E_sg. apply sg_range. }
  destruct (ext_points L o) as [Fp Ep]. pose proof (points_range o) as PR.
  pose proof (pts_minus_ap _ _ _ _ _ (ap_exact _ _ Fp Ep) PR E ltac:(lra) ltac:(lra)) as Am. apply (ap_weak _ _ _ (151 / 10 ^ 16)) in Am; [|ulra].
  assert (Bp : Rabs (K * (points o - elo_E R0 RO) + R0) <= 20000). { eapply Rle_trans; [apply Rabs_triang|]. rewrite Rabs_mult, (Rabs_pos_eq K) by lra. assert (K * Rabs (points o - elo_E R0 RO) <= 1000 * 1) by (apply Rmult_le_compat; try apply Rabs_pos; try lra; apply Rabs_le; lra). assert (Rabs R0 <= 19000) by (apply Rabs_le; lra). lra. }
  step (ap_fma _ _ _ _ _ _ _ _ _ 1000 1 20001 Ak Am Ar ltac:(rewrite Rabs_pos_eq; lra) ltac:(apply Rabs_le; lra) ltac:(lra) ltac:(okb)) (2 / 10 ^ 11). apply (ap_eq _ _ _ _ S1). unfold elo_upd. ring.
Qed.
Lemma elo_upd_mv K a b s : 0 <= K -> 0 <= s <= 1 -> Rabs (elo_upd K a b s - a) <= K.
Proof.
  intros HK HS. unfold elo_upd. pose proof (sg_range ((a - b) * ln 10 / 400)) as E. rewrite <- elo_E_sg in E. replace (a + K * (s - elo_E a b) - a) with (K * (s - elo_E a b)) by ring.
  rewrite Rabs_mult, (Rabs_pos_eq K) by lra. rewrite <- (Rmult_1_r K) at 2. apply Rmult_le_compat_l; [lra|]. apply Rabs_le. lra.
Qed.
Lemma Rsum_const {X} (l : list X) c : Rsum (map (fun _ => c) l) = INR (length l) * c.
Proof. induction l as [|x l IH]; cbn [map length]; [unfold Rsum; simpl; lra|]. rewrite Rsum_cons, IH, S_INR. ring. Qed.

Lemma C113_elo_proof : forall (L : Libm) (p : EloRating B64) (rs : list (EloRating B64 * Outcomes)) (k : B64),
  pow10_accurate L -> num_in (- 10 ^ 4) (10 ^ 4) (elo_rating p) -> Forall (fun g => num_in (- 10 ^ 4) (10 ^ 4) (elo_rating (fst g))) rs ->
  num_in 0 1000 k -> INR (length rs) * B2R k <= 8000 -> (Z.of_nat (length rs) <= 10 ^ 6)%Z ->
  near (elo_rating (elo_rating_period (A := B64A L) p rs (mkEloConfig k)))
       (fold_left (fun r g => elo_upd (B2R k) r (B2R (elo_rating (fst g))) (points (snd g))) rs (B2R (elo_rating p)))
       (INR (length rs) * (2 / 10 ^ 11)).
Proof.
  intros L [r] rs k HP NR0 HF NK HN HL. cbn [elo_rating] in *. destruct (num_ap _ _ _ NR0) as [Ar Br]. destruct (num_ap _ _ _ NK) as [Ak Bk].
  unfold elo_rating_period. cbn [elo_rating]. apply ap_near. rewrite <- (Rplus_0_l (INR (length rs) * (2 / 10 ^ 11))).
  apply (loop_ap _ _ _ (fun _ => B2R k)); [lra| |exact Ar|].
  - eapply Forall_impl; [|exact HF]. intros [[op] o] N. cbn [fst snd elo_rating] in *. destruct (num_ap _ _ _ N) as [Ao Bo]. pose proof (points_range o).
    split; [lra|]. split; [intros; apply elo_upd_lip; lra|]. split; [intros; apply elo_upd_mv; lra|]. intros x Fx Bx. apply elo_step_ap; auto. apply Rabs_le. lra.
  - rewrite Rsum_const. assert (INR (length rs) <= 10 ^ 6) by (rewrite INR_IZR_INZ; apply IZR_le in HL; rewrite pow_IZR; exact HL). assert (Rabs (B2R r) <= 10 ^ 4) by (apply Rabs_le; lra). lra.
Qed.

(** ** FIFA *)
Lemma lit_75 : b64_lit 75 100 = b64 3 (-2).
Proof. apply B2SF_inj. vm_compute. reflexivity. Qed.
Lemma ap_75 : ap (b64_lit 75 100) (3 / 4) 0.
Proof.
  rewrite lit_75. apply ap_exact; [reflexivity|]. rewrite (proj2 (ext_b64 3 (-2))).
  replace (F2R (Float radix2 3 (-2))) with (3 / 4) by (unfold F2R; simpl; lra). apply rnd_id.
  - replace (3 / 4) with (F2R (Float radix2 3 (-2))) by (unfold F2R; simpl; lra). rewrite fexp64_FLT. apply generic_format_FLT. exists (Float radix2 3 (-2)); simpl; try reflexivity; lia.
  - rewrite Rabs_pos_eq by lra. apply Rle_trans with (bpow radix2 0); [simpl; lra|]. unfold M64. apply bpow_le. lia.
Qed.
Lemma out1_ap L (c : FifaConfig B64) o : ap (fifa_outcome1 (A := B64A L) c o) (code_W1 (fifa_penalties c) o) 0.
Proof.
  unfold fifa_outcome1, code_W1. destruct (fifa_penalties c).
  - destruct o; cbn [outcome_eqb]; [apply ap_75|apply half_ap|apply half_ap].
  - destruct (ext_points L o) as [F E]. exact (ap_exact _ _ F E).
Qed.
Lemma W1_rng pen o : 0 <= code_W1 pen o <= 1.
Proof. destruct pen, o; simpl; lra. Qed.
Lemma fifa_We_rng a b : 0 < fifa_We a b < 1.
Proof. rewrite fifa_We_sg. apply sg_range. Qed.
Lemma fifa_step_ap L (imp : B64) I (op : B64) RO o kn pen r : pow10_accurate L -> ap imp I 0 -> 0 <= I <= 1000 -> ap op RO 0 -> Rabs RO <= 19000 -> fin r -> Rabs (ext r) <= 19000 ->
  ap (fifa_period_step (A := B64A L) r (mkFifa op, o, mkFifaConfig imp kn pen)) (ko_max kn (ext r) (fifa_upd I (ext r) RO (code_W1 pen o))) (2 / 10 ^ 11).
Proof.
  intros HP Ak BK Ao BO Fr Br. pose proof (ap_self r Fr) as Ar. set (R0 := ext r) in *. apply Rabs_le_inv in BO, Br.
  pose (x := Bfma mode_NE imp (Bminus mode_NE (fifa_outcome1 (A := B64A L) (mkFifaConfig imp kn pen) o)
      (Bdiv mode_NE one64 (Bplus mode_NE one64 (l_pow L (b64_of_Z 10) (Bdiv mode_NE (Bopp (Bminus mode_NE r op)) (b64_of_Z 600)))))) r).
  assert (U : fifa_period_step (A := B64A L) r (mkFifa op, o, mkFifaConfig imp kn pen) = if negb (kn && Bltb x r) then x else r) by reflexivity.
  rewrite U. clear U.
  assert (Ax : ap x (fifa_upd I R0 RO (code_W1 pen o)) (2 / 10 ^ 11)).
  { step (ap_sub _ _ _ _ _ _ 38001 Ar Ao ltac:(rewrite !Rplus_0_r; apply Rabs_le; lra) ltac:(okb)) (46 / 10 ^ 13).
    pose proof (ap_opp _ _ _ S) as S'. assert (By : Rabs (- (R0 - RO) / 600) <= 64). { apply Rabs_le. lra. }
    step (ap_div _ _ _ _ _ _ 600 64 65 S' (ap_Z 600 ltac:(vm_compute; discriminate)) ltac:(lra) ltac:(rewrite Rabs_pos_eq; lra) By ltac:(lra) ltac:(okb)) (24 / 10 ^ 15).
    destruct (log_ap L _ _ _ HP S0 ltac:(lra) ltac:(lra)) as [_ E].
    assert (Ee : fifa_We R0 RO = / (1 + Rpower 10 (- (R0 - RO) / 600))) by (unfold fifa_We, Rdiv; rewrite Rmult_1_l; f_equal; ring).
    rewrite <- Ee in E. pose proof (fifa_We_rng R0 RO) as BE. pose proof (W1_rng pen o) as PR. pose proof (out1_ap L (mkFifaConfig imp kn pen) o) as AW. cbn [fifa_penalties] in AW.
    pose proof (pts_minus_ap _ _ _ _ _ AW PR E ltac:(lra) ltac:(lra)) as Am. apply (ap_weak _ _ _ (151 / 10 ^ 16)) in Am; [|ulra]. set (W := code_W1 pen o) in *.
    assert (Bp : Rabs (I * (W - fifa_We R0 RO) + R0) <= 20000). { eapply Rle_trans; [apply Rabs_triang|]. rewrite Rabs_mult, (Rabs_pos_eq I) by lra. assert (I * Rabs (W - fifa_We R0 RO) <= 1000 * 1) by (apply Rmult_le_compat; try apply Rabs_pos; try lra; apply Rabs_le; lra). assert (Rabs R0 <= 19000) by (apply Rabs_le; lra). lra. }
    step (ap_fma _ _ _ _ _ _ _ _ _ 1000 1 20001 Ak Am Ar ltac:(rewrite Rabs_pos_eq; lra) ltac:(apply Rabs_le; lra) ltac:(lra) ltac:(okb)) (2 / 10 ^ 11). apply (ap_eq _ _ _ _ S1). unfold fifa_upd. ring. }
  pose proof (ko_ap kn r x R0 _ _ Ar Ax) as T. unfold ko_max. destruct (kn && Bltb x r); exact T.
Qed.
Lemma fifa_upd_mv K a b s : 0 <= K -> 0 <= s <= 1 -> Rabs (fifa_upd K a b s - a) <= K.
Proof.
  intros HK HS. unfold fifa_upd. pose proof (fifa_We_rng a b) as E. replace (a + K * (s - fifa_We a b) - a) with (K * (s - fifa_We a b)) by ring.
  rewrite Rabs_mult, (Rabs_pos_eq K) by lra. rewrite <- (Rmult_1_r K) at 2. apply Rmult_le_compat_l; [lra|]. apply Rabs_le. lra.
Qed.
Lemma C113_fifa_proof : forall (L : Libm) (p : FifaRating B64) (rs : list (FifaRating B64 * Outcomes * FifaConfig B64)),
  pow10_accurate L -> num_in (- 10 ^ 4) (10 ^ 4) (fifa_rating p) ->
  Forall (fun g => num_in (- 10 ^ 4) (10 ^ 4) (fifa_rating (fst (fst g))) /\ num_in 0 1000 (fifa_importance (snd g))) rs ->
  Rsum (map (fun g => B2R (fifa_importance (snd g))) rs) <= 8000 -> (Z.of_nat (length rs) <= 10 ^ 6)%Z ->
  near (fifa_rating (fifa_rating_period (A := B64A L) p rs))
       (fold_left (fun r g =>
          let '(opp, o, c) := g in
          let W := if fifa_penalties c then match o with WIN => 3 / 4 | _ => 1 / 2 end else points o in
          let new := fifa_upd (B2R (fifa_importance c)) r (B2R (fifa_rating opp)) W in
          if fifa_knockout c then Rmax r new else new) rs (B2R (fifa_rating p)))
       (INR (length rs) * (2 / 10 ^ 11)).
Proof.
  intros L [r] rs HP NR0 HF HN HL. cbn [fifa_rating] in *. destruct (num_ap _ _ _ NR0) as [Ar Br].
  unfold fifa_rating_period. cbn [fifa_rating]. apply ap_near. rewrite <- (Rplus_0_l (INR (length rs) * (2 / 10 ^ 11))).
  apply (loop_ap _ _ _ (fun g => B2R (fifa_importance (snd g)))); [lra| |exact Ar|].
  - eapply Forall_impl; [|exact HF]. intros [[[op] o] [imp kn pen]] [N NI]. cbn [fst snd fifa_rating fifa_importance fifa_knockout fifa_penalties] in *. destruct (num_ap _ _ _ N) as [Ao Bo]. destruct (num_ap _ _ _ NI) as [AI BI]. pose proof (W1_rng pen o) as WR.
    change (if pen then match o with WIN => 3 / 4 | _ => 1 / 2 end else points o) with (code_W1 pen o).
    split; [lra|]. split; [|split].
    + intros a b. pose proof (fifa_upd_lip (B2R imp) (B2R op) (code_W1 pen o) a b BI). destruct kn; [apply Rmax_lip; lra|assumption].
    + intros a. pose proof (fifa_upd_mv (B2R imp) a (B2R op) (code_W1 pen o) ltac:(lra) WR) as M. destruct kn; [|exact M].
      apply Rabs_le_inv in M. unfold Rmax. destruct (Rle_dec a _); apply Rabs_le; lra.
    + intros x Fx Bx. apply fifa_step_ap; auto. apply Rabs_le. lra.
  - assert (INR (length rs) <= 10 ^ 6) by (rewrite INR_IZR_INZ; apply IZR_le in HL; rewrite pow_IZR; exact HL). assert (Rabs (B2R r) <= 10 ^ 4) by (apply Rabs_le; lra).
    assert (Q : forall n t a, n <= 10 ^ 6 -> t <= 8000 -> a <= 10 ^ 4 -> a + t + (0 + n * (2 / 10 ^ 11)) <= 19000) by (intros; lra). apply Q; assumption.
Qed.

(** ** EGF *)
Lemma near_ap x r d : near x r d -> ap x r d.
Proof. intros [F H]. split; [exact F|]. rewrite (ext_fin _ F). exact H. Qed.
Lemma C113_egf_proof : forall (L : Libm) (p : EGFRating B64) (rs : list (EGFRating B64 * Outcomes * EGFConfig B64)),
  ln_accurate L -> ln1p_accurate L -> pow16_accurate L -> exp_accurate L -> (length rs <= 1000)%nat ->
  let r := B2R (egf_rating p) in num_in (-900) 3200 (egf_rating p) ->
  Forall (fun g => let '(opp, o, c) := g in let H := B2R (egf_handicap c) in
     num_in (-900) 3200 (egf_rating opp) /\ num_in (-20) 20 (egf_handicap c) /\
     egf_adj (egf_h1 H) r <= 3200 /\ egf_adj (egf_h2 H) (B2R (egf_rating opp)) <= 3200) rs ->
  near (egf_rating (egf_rating_period (A := B64A L) p rs))
       (r + Rsum (map (fun g => let '(opp, o, c) := g in let H := B2R (egf_handicap c) in
          egf_upd r (points o) (egf_E (egf_adj (egf_h1 H) r) (egf_adj (egf_h2 H) (B2R (egf_rating opp)))) - r) rs))
       (INR (S (length rs)) * (2 / 10 ^ 10)).
Proof.
  intros L [r] rs HL HL1 H16 HE HN R0 N HF. cbn [egf_rating] in *. destruct (num_ap _ _ _ N) as [Ar Br]. fold R0 in Ar, Br.
  pose (f := fun g : EGFRating B64 * Outcomes * EGFConfig B64 => let '(opp, o, c) := g in Bminus mode_NE (egf_rating (fst (egf (A := B64A L) (mkEgf r) opp o c))) r).
  pose (F := fun g : EGFRating B64 * Outcomes * EGFConfig B64 => let '(opp, o, c) := g in let H := B2R (egf_handicap c) in
          egf_upd R0 (points o) (egf_E (egf_adj (egf_h1 H) R0) (egf_adj (egf_h2 H) (B2R (egf_rating opp)))) - R0).
  assert (U : egf_rating (egf_rating_period (A := B64A L) (mkEgf r) rs) = Bplus mode_NE r (fold_left (Bplus mode_NE) (map f rs) (b64_of_Z 0))).
  { unfold egf_rating_period. cbn [egf_rating]. change (fadd (Arith := B64A L)) with (Bplus (prec := 53) (emax := 1024) mode_NE). f_equal. clear. change (fofZ (Arith := B64A L) 0) with (b64_of_Z 0). generalize (b64_of_Z 0).
    induction rs as [|[[opp o] c] rs IH]; intros acc; [reflexivity|]. cbn [map fold_left]. rewrite <- IH. f_equal. unfold egf_period_step, f, egf. destruct (egf_expected_score (A := B64A L) (mkEgf r) opp c) as [e1 e2]. reflexivity. }
  rewrite U. clear U. destruct (fsum_apM_acc _ L f F 142 (13 / 10 ^ 11) rs ltac:(lra) ltac:(lra)) with (acc := b64_of_Z 0) (s := 0) (n := 0%nat) as [A B].
  - eapply Forall_impl; [|exact HF]. intros [[[opp] o] c] [NO [NH [O1 O2]]]. cbn [egf_rating] in *. unfold f, F. cbn [egf_rating].
    destruct (C101_egf_proof L (mkEgf r) (mkEgf opp) o c HL HL1 H16 HE N NO NH O1 O2) as [_ [_ [X _]]]. cbn [egf_rating] in X. fold R0 in X. apply near_ap in X.
    set (E := egf_E _ _) in *. assert (BE : 0 < E < 1). { unfold E, egf_E, Rdiv. rewrite Rmult_1_l. set (q := exp _). assert (0 < q) by apply exp_pos. split; [apply Rinv_0_lt_compat; lra|]. rewrite <- Rinv_1. apply Rinv_lt_contravar; lra. }
    assert (BU : Rabs (egf_upd R0 (points o) E - R0) <= 142).
    { pose proof (C_rng R0 Br) as BC. pose proof (bon_rng R0 Br) as BB. pose proof (points_range o) as PR. unfold egf_upd.
      assert (BP : Rabs (egf_C R0 * (points o - E)) <= 131 * 1) by (rewrite Rabs_mult; apply Rmult_le_compat; try apply Rabs_pos; [rewrite Rabs_pos_eq; lra|apply Rabs_le; lra]).
      apply Rabs_le_inv in BP. unfold Rmax. destruct (Rle_dec (-900) _); apply Rabs_le; lra. }
    split; [|exact BU]. step (ap_sub _ _ _ _ _ _ 143 X Ar ltac:(lra) ltac:(okb)) (13 / 10 ^ 11). exact S.
  - simpl INR. rewrite Rmult_0_l. apply (ap_Z 0). vm_compute. discriminate.
  - rewrite Rabs_R0. simpl. lra.
  - exact HN.
  - rewrite Rplus_0_l in A, B. cbn [Nat.add] in A, B.
    assert (N1000 : INR (length rs) <= 1000) by (replace 1000 with (INR 1000) by (rewrite INR_IZR_INZ; reflexivity); apply le_INR; lia). pose proof (pos_INR (length rs)) as N0. rewrite S_INR.
    set (n := INR (length rs)) in *. apply (ap_weak _ _ _ (n * (15 / 10 ^ 11))) in A; [|apply Rmult_le_compat_l; [lra|ulra]].
    apply ap_near. change (map (fun g => _) rs) with (map F rs). pose proof (Rabs_triang R0 (Rsum (map F rs))) as T. assert (Rabs R0 <= 3200) by (apply Rabs_le; lra).
    pose proof (ap_add _ _ _ _ _ _ (3201 + n * 143) Ar A ltac:(lra) ltac:(okb)) as Q. apply (ap_weak _ _ _ _ Q). ulra.
Qed.

(** ** Ingo *)
Lemma ipts_acc L (rs : list (IngoRating B64 * Outcomes)) : forall acc k, (0 <= k)%Z -> (k + 2 * Z.of_nat (length rs) <= 2 ^ 52)%Z -> ap acc (IZR k / 2) 0 ->
  ap (fold_left (Bplus mode_NE) (map (fun r => to_chess_points (A := B64A L) (snd r)) rs) acc) (IZR (k + hsum (map snd rs)) / 2) 0.
Proof.
  induction rs as [|r rs IH]; intros acc k K0 K1 A; cbn [map fold_left hsum].
  - rewrite Z.add_0_r. exact A.
  - cbn [length] in K1. assert (Q : (0 <= hp (snd r) <= 2)%Z) by (destruct (snd r); simpl; lia). rewrite Z.add_assoc. apply IH; [lia|lia|].
    destruct (ext_points L (snd r)) as [F E]. destruct A as [Fa Ea]. assert (EA : ext acc = IZR k / 2) by (apply Rabs_le_inv in Ea; lra).
    destruct (ext_plus acc _ Fa F) as [N P]. rewrite EA, E, hp_points in P. replace (IZR k / 2 + IZR (hp (snd r)) / 2) with (IZR (k + hp (snd r)) / 2) in P by (rewrite plus_IZR; lra).
    rewrite ProofAccDwz.rnd_half in P by lia. apply half_fin; [exact N|exact P|lia].
Qed.
Lemma C113_ingo_proof : forall (L : Libm) (p : IngoRating B64) (rs : list (IngoRating B64 * Outcomes)),
  num_in (- 10 ^ 4) (10 ^ 4) (ingo_rating p) -> Forall (fun g => num_in (- 10 ^ 4) (10 ^ 4) (ingo_rating (fst g))) rs -> rs <> [] -> (length rs <= 1000)%nat ->
  let n := INR (length rs) in
  near (ingo_rating (ingo_rating_period (A := B64A L) p rs))
       (ingo_upd n (B2R (ingo_rating p)) (ingo_D (ingo_age p))
          (Rsum (map (fun g => B2R (ingo_rating (fst g))) rs) / n) (Rsum (map (fun g => points (snd g)) rs) / n))
       (2 / 10 ^ 9).
Proof.
  intros L [r a] rs N HF NE HN n. cbn [ingo_rating ingo_age] in *. destruct (num_ap _ _ _ N) as [Ar Br]. set (R0 := B2R r) in *.
  assert (BN : 1 <= n <= 1000). { split; [|unfold n; replace 1000 with (INR 1000) by (rewrite INR_IZR_INZ; reflexivity); apply le_INR; lia]. unfold n. apply (le_INR 1). destruct rs; [congruence|simpl; lia]. }
  assert (Al : ap (flen (A := B64A L) rs) n 0). { unfold n. rewrite INR_IZR_INZ. apply ap_Z. lia. }
  assert (IN : 0 < / n <= 1) by (split; [apply Rinv_0_lt_compat; lra|rewrite <- Rinv_1; apply Rinv_le_contravar; lra]).
  assert (As : ap (fsum (A := B64A L) (map (fun r => to_chess_points (A := B64A L) (snd r)) rs)) (Rsum (map (fun g => points (snd g)) rs)) 0).
  { replace (Rsum (map (fun g => points (snd g)) rs)) with (IZR (hsum (map snd rs)) / 2).
    - apply (ipts_acc L rs (B754_zero true) 0); [lia|lia|]. split; [reflexivity|]. simpl. apply Rabs_le. lra.
    - rewrite <- hsum_psum. unfold psum. rewrite map_map. reflexivity. }
  assert (BS : 0 <= Rsum (map (fun g => points (snd g)) rs) <= n).
  { unfold n. clear. induction rs as [|g rs IH]; cbn [map length]; [unfold Rsum; simpl; lra|]. rewrite Rsum_cons, S_INR. pose proof (points_range (snd g)). lra. }
  destruct (fsum_apM _ L (fun g => ingo_rating (fst g)) (fun g => B2R (ingo_rating (fst g))) (10 ^ 4) 0 rs ltac:(lra) ltac:(lra)) as [Ao Bo]; [|exact HN|].
  { eapply Forall_impl; [|exact HF]. intros g G. destruct (num_ap _ _ _ G) as [Ag Bg]. split; [exact Ag|apply Rabs_le; lra]. }
  set (S := Rsum (map (fun g => points (snd g)) rs)) in *. set (T := Rsum (map (fun g => B2R (ingo_rating (fst g))) rs)).
  assert (Ao' : ap (fsum (A := B64A L) (map (fun g => ingo_rating (fst g)) rs)) T (n * (0 + u0 * (1001 * 10 ^ 4)))) by exact Ao. assert (Bo' : Rabs T <= n * 10 ^ 4) by exact Bo. clear Ao Bo. rename Ao' into Ao. rename Bo' into Bo.
  assert (AD : ap (ingo_age_to_devcoefficent (A := B64A L) a) (ingo_D a) 0 /\ 10 <= ingo_D a <= 20).
  { unfold ingo_age_to_devcoefficent, ingo_D. destruct (a <=? 20)%N; [split; [apply (ap_Z 10); vm_compute; discriminate|lra]|].
    destruct (a <=? 25)%N; [split; [apply (ap_Z 15); vm_compute; discriminate|lra]|split; [apply (ap_Z 20); vm_compute; discriminate|lra]]. }
  destruct AD as [AD BD]. set (D := ingo_D a) in *.
  assert (U : ingo_rating (ingo_rating_period (A := B64A L) (mkIngo r a) rs) =
    let len := flen (A := B64A L) rs in let d := ingo_age_to_devcoefficent (A := B64A L) a in
    let ap_ := Bdiv mode_NE (fsum (A := B64A L) (map (fun r => to_chess_points (A := B64A L) (snd r)) rs)) len in
    let ao := Bdiv mode_NE (fsum (A := B64A L) (map (fun g => ingo_rating (fst g)) rs)) len in
    Bdiv mode_NE (Bfma mode_NE (Bminus mode_NE ao (Bfma mode_NE (b64_of_Z 100) ap_ (b64_of_Z (-50)))) len (Bmult mode_NE r d)) (Bplus mode_NE len d)) by reflexivity.
  rewrite U. clear U. cbv zeta. set (d := ingo_age_to_devcoefficent (A := B64A L) a) in *. set (len := flen (A := B64A L) rs) in *.
  set (fs := fsum (map (fun r => to_chess_points (snd r)) rs)) in *. set (fo := fsum (map (fun g => ingo_rating (fst g)) rs)) in *. clearbody d len fs fo. clear HF HN N.
  assert (B1 : 0 <= S / n <= 1). { unfold Rdiv. split; [apply Rmult_le_pos; lra|]. apply Rmult_le_reg_r with n; [lra|]. rewrite Rmult_assoc, Rinv_l by lra. lra. }
  assert (B2 : Rabs (T / n) <= 10 ^ 4). { unfold Rdiv. rewrite Rabs_mult, (Rabs_pos_eq (/ n)) by lra. apply Rmult_le_reg_r with n; [lra|]. rewrite Rmult_assoc, Rinv_l by lra. lra. }
  assert (U0 : 0 < u0 <= 12 / 10 ^ 17) by ulra.
  pose proof (ap_div _ _ _ _ _ _ n 1 1.1 As Al ltac:(lra) ltac:(rewrite Rabs_pos_eq; lra) ltac:(rewrite Rabs_pos_eq; lra)) as P1. replace ((0 + 1 * 0) / n) with 0 in P1 by (field; lra).
  specialize (P1 ltac:(lra) ltac:(okb)). apply (ap_weak _ _ _ (2 / 10 ^ 16)) in P1; [|ulra].
  pose proof (ap_div _ _ _ _ _ _ n (10 ^ 4) (10 ^ 4 + 1) Ao Al ltac:(lra) ltac:(rewrite Rabs_pos_eq; lra) B2) as P2. replace ((n * (0 + u0 * (1001 * 10 ^ 4)) + 10 ^ 4 * 0) / n) with (u0 * (1001 * 10 ^ 4)) in P2 by (field; lra).
  specialize (P2 ltac:(ulra) ltac:(okb)). apply (ap_weak _ _ _ (121 / 10 ^ 11)) in P2; [|ulra].
  set (s := S / n) in *. set (t := T / n) in *. clearbody s t. clear As Ao Bo BS. clearbody S T. apply Rabs_le_inv in B2.
  pose proof (ap_fma _ _ _ _ _ _ _ _ _ 100 1 51 (ap_Z 100 ltac:(vm_compute; discriminate)) P1 (ap_Z (-50) ltac:(vm_compute; discriminate)) ltac:(bd) ltac:(bd) ltac:(pose proof (Rabs_le (100 * s + -50) 50 ltac:(lra)); lra) ltac:(okb)) as P3.
  apply (ap_weak _ _ _ (3 / 10 ^ 14)) in P3; [|ulra].
  step (ap_sub _ _ _ _ _ _ 10051 P2 P3 ltac:(pose proof (Rabs_le (t - (100 * s + -50)) 10050 ltac:(lra)); lra) ltac:(okb)) (122 / 10 ^ 11).
  assert (Bm : Rabs (R0 * D) <= 200000). { rewrite Rabs_mult, (Rabs_pos_eq D) by lra. apply Rle_trans with (10 ^ 4 * 20); [apply Rmult_le_compat; try lra; [apply Rabs_pos|apply Rabs_le; lra]|lra]. }
  step (ap_mul _ _ _ _ _ _ (10 ^ 4) 20 200001 Ar AD ltac:(apply Rabs_le; lra) ltac:(bd) ltac:(lra) ltac:(okb)) (25 / 10 ^ 12).
  set (q := t - (100 * s + -50)) in *. assert (Bq : Rabs q <= 10050) by (apply Rabs_le; unfold q; lra).
  assert (Bqn : Rabs (q * n) <= 10050 * n) by (rewrite Rabs_mult, (Rabs_pos_eq n) by lra; apply Rmult_le_compat_r; lra).
  assert (Bt : Rabs (q * n + R0 * D) <= 10050 * n + 200000). { pose proof (Rabs_triang (q * n) (R0 * D)). lra. }
  pose proof (ap_fma _ _ _ _ _ _ _ _ _ 10051 n (10051 * n + 200001) S0 Al S1 ltac:(lra) ltac:(rewrite Rabs_pos_eq; lra) ltac:(lra) ltac:(okb)) as P4.
  apply (ap_weak _ _ _ (n * (123 / 10 ^ 11) + 5 / 10 ^ 11)) in P4; [|unfold u0; lra].
  step (ap_add _ _ _ _ _ _ 1021 Al AD ltac:(rewrite Rabs_pos_eq; lra) ltac:(okb)) (13 / 10 ^ 14).
  assert (ID : 0 < / (n + D) <= / 11) by (split; [apply Rinv_0_lt_compat; lra|apply Rinv_le_contravar; lra]).
  assert (BQ : Rabs ((q * n + R0 * D) / (n + D)) <= 30000). { unfold Rdiv. rewrite Rabs_mult, (Rabs_pos_eq (/ (n + D))) by lra. apply Rmult_le_reg_r with (n + D); [lra|]. rewrite Rmult_assoc, Rinv_l by lra. lra. }
  assert (EE : (n * (123 / 10 ^ 11) + 5 / 10 ^ 11 + 30000 * (13 / 10 ^ 14)) / (0.99 * (n + D)) <= 18 / 10 ^ 10).
  { apply Rmult_le_reg_r with (0.99 * (n + D)); [lra|]. unfold Rdiv. rewrite Rmult_assoc, Rinv_l by lra. lra. }
  pose proof (ap_div _ _ _ _ _ _ (0.99 * (n + D)) 30000 30001 P4 S2 ltac:(lra) ltac:(rewrite Rabs_pos_eq; lra) BQ ltac:(lra) ltac:(okb)) as P5.
  apply ap_near. eapply ap_weak; [|apply Rle_refl]. apply (ap_weak _ _ _ (2 / 10 ^ 9)) in P5; [|ulra].
  apply (ap_eq _ _ _ _ P5). unfold ingo_upd, ingo_perf, q, Rdiv. f_equal. ring.
Qed.
