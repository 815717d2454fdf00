(** C124: how certain a rating can become over a whole career. *)
From Coq Require Import ZArith NArith List Bool Reals Lra Lia.
From Verif Require Import Arith XR Tac ModelLib ModelGlicko ModelSticko ModelWengLin ModelTS Spec SpecIn SpecTS SpecInTS ProofElo ProofGlicko ProofSticko ProofWengLin ProofTS ProofTSUpset ProofAcc ProofInfo.
Import Spec ListNotations.
Local Open Scope R_scope.

Lemma gg_le1' RD : gg RD <= 1.
Proof.
  unfold gg. rewrite <- Rinv_1. apply Rinv_le_contravar; [lra|]. rewrite <- sqrt_1 at 1. apply sqrt_le_1_alt.
  assert (0 <= 3 * gq ^ 2 * RD ^ 2 / PI ^ 2); [|lra]. apply Rmult_le_pos; [apply Rmult_le_pos; [apply Rmult_le_pos; [lra|apply pow2_ge_0]|apply pow2_ge_0]|]. apply Rlt_le, Rinv_0_lt_compat, pow_lt, PI_RGT_0.
Qed.
Lemma gvar_le r rj RDj : gg RDj ^ 2 * gE r rj RDj * (1 - gE r rj RDj) <= / 4.
Proof.
  pose proof (gg_pos RDj) as G. pose proof (gg_le1' RDj) as G1. pose proof (gE_range r rj RDj) as E. set (e := gE r rj RDj) in *. set (g := gg RDj) in *.
  assert (A : 0 <= e * (1 - e) <= / 4). { split; [apply Rmult_le_pos; lra|]. pose proof (pow2_ge_0 (e - 1 / 2)). lra. }
  assert (B : 0 <= g ^ 2 <= 1). { split; [apply pow2_ge_0|]. apply Rle_trans with (1 ^ 2); [apply pow_incr; lra|lra]. }
  rewrite Rmult_assoc. apply Rle_trans with (1 * (/ 4)); [apply Rmult_le_compat; lra|lra].
Qed.
(** Information of a list of games: at most q^2/4 per game. *)
Lemma gd2inv_le r gs : gd2inv r gs <= INR (length gs) * (gq ^ 2 / 4).
Proof.
  unfold gd2inv. pose proof (pow2_ge_0 gq) as Q. induction gs as [|[[rj RDj] s] gs IH].
  - cbn [map length INR]. rewrite Rsum_nil. lra.
  - cbn [map]. rewrite Rsum_cons. change (length ((rj, RDj, s) :: gs)) with (S (length gs)). rewrite S_INR. pose proof (gvar_le r rj RDj) as V.
    apply (Rmult_le_compat_l _ _ _ Q) in V. lra.
Qed.
Lemma gpre_sq RD c : gpre RD c ^ 2 = Rmin (RD ^ 2 + c ^ 2) (350 ^ 2).
Proof.
  unfold gpre. assert (A : 0 <= RD ^ 2 + c ^ 2) by (pose proof (pow2_ge_0 RD); pose proof (pow2_ge_0 c); lra). pose proof (sqrt_pos (RD ^ 2 + c ^ 2)) as S. pose proof (sqrt_sqrt _ A) as SS.
  destruct (Rle_dec (sqrt (RD ^ 2 + c ^ 2)) 350) as [L|L].
  - rewrite (Rmin_left _ _ L), Rmin_left; [simpl in *; lra|]. assert (sqrt (RD ^ 2 + c ^ 2) ^ 2 <= 350 ^ 2) by (apply pow_incr; lra). simpl in *. lra.
  - rewrite Rmin_right by lra. rewrite Rmin_right; [lra|]. assert (350 ^ 2 <= sqrt (RD ^ 2 + c ^ 2) ^ 2) by (apply pow_incr; lra). simpl in *. lra.
Qed.
Lemma inv_post_ge F P X : 0 < F -> 0 < P -> / P + X <= / F ^ 2 -> 0 <= X -> F <= sqrt (/ (/ P + X)).
Proof.
  intros HF HP H HX. rewrite <- (sqrt_pow2 F) at 1 by lra. apply sqrt_le_1_alt. assert (0 < / P) by (apply Rinv_0_lt_compat; auto). assert (0 < F ^ 2) by (apply pow_lt; auto).
  rewrite <- (Rinv_inv (F ^ 2)). apply Rinv_le_contravar; lra.
Qed.
Lemma min_mono F RD c K : 0 < F <= RD -> 0 < K -> 0 < Rmin (F ^ 2 + c ^ 2) K <= Rmin (RD ^ 2 + c ^ 2) K.
Proof.
  intros H HK. assert (0 < F ^ 2) by (apply pow_lt; lra). assert (F ^ 2 <= RD ^ 2) by (apply pow_incr; lra). pose proof (pow2_ge_0 c). split; [apply Rmin_glb_lt; lra|apply Rle_min_compat_r; lra].
Qed.
Lemma glicko_step_floor r RD c m F rs : 0 < F <= RD -> (length rs <= m)%nat -> / Rmin (F ^ 2 + c ^ 2) (350 ^ 2) + INR m * (gq ^ 2 / 4) <= / F ^ 2 ->
  exists r' d, glicko_rating_period (mkGlicko (Fin r) (Fin RD)) (map (fun '(rj, RDj, o) => (mkGlicko (Fin rj) (Fin RDj), o)) rs) (mkGlickoConfig (Fin c)) = mkGlicko (Fin r') (Fin d) /\ F <= d <= 350.
Proof.
  intros HF Hl H. pose proof (min_mono F RD c (350 ^ 2) HF ltac:(lra)) as M. pose proof (pow2_ge_0 gq) as Q.
  assert (IV : / Rmin (RD ^ 2 + c ^ 2) (350 ^ 2) <= / Rmin (F ^ 2 + c ^ 2) (350 ^ 2)) by (apply Rinv_le_contravar; lra).
  set (games := map (fun '(rj, RDj, o) => (rj, RDj, points o)) rs).
  assert (D : F <= glicko_rd r (gpre RD c) games <= 350).
  { split.
    - unfold glicko_rd. rewrite gpre_sq. apply inv_post_ge; try lra; [|apply gd2inv_nonneg]. pose proof (gd2inv_le r games) as G. unfold games in G at 2. rewrite map_length in G. apply le_INR in Hl.
      assert (INR (length rs) * (gq ^ 2 / 4) <= INR m * (gq ^ 2 / 4)) by (apply Rmult_le_compat_r; lra). lra.
    - pose proof (gpre_range RD c ltac:(left; lra)) as P. apply Rle_trans with (gpre RD c); [|lra]. unfold glicko_rd. rewrite <- (sqrt_pow2 (gpre RD c)) at 2 by lra. apply sqrt_le_1_alt. assert (0 < gpre RD c ^ 2) by (apply pow_lt; lra). assert (0 < / gpre RD c ^ 2) by (apply Rinv_0_lt_compat; auto).
      rewrite <- (Rinv_inv (gpre RD c ^ 2)) at 2. pose proof (gd2inv_nonneg r games). apply Rinv_le_contravar; lra. }
  destruct rs as [|g rs].
  - cbn [map]. rewrite C29_empty_proof. unfold glicko_decay_deviation. cbn [gl_rating gl_deviation gl_c]. rewrite gl_pre_eval. do 2 eexists. split; [reflexivity|]. unfold games in D. cbn [map] in D. rewrite glicko_rd_nil in D by (apply gpre_pos; lra). exact D.
  - rewrite C29_formula_proof by (try discriminate; lra). do 2 eexists. split; [reflexivity|]. exact D.
Qed.
(** F is a floor for careers of periods with at most m games. *)
Lemma C124_glicko_proof : forall r RD c m F career, 0 < F <= RD -> List.Forall (fun rs => (length rs <= m)%nat) career ->
  / Rmin (F ^ 2 + c ^ 2) (350 ^ 2) + INR m * (gq ^ 2 / 4) <= / F ^ 2 ->
  exists r' d, fold_left (fun p rs => glicko_rating_period p (map (fun '(rj, RDj, o) => (mkGlicko (Fin rj) (Fin RDj), o)) rs) (mkGlickoConfig (Fin c))) career
    (mkGlicko (Fin r) (Fin RD)) = mkGlicko (Fin r') (Fin d) /\ F <= d.
Proof.
  intros r RD c m F career HF HC H. revert r RD HF. induction HC as [|rs career Hl HC IH]; intros r RD HF; cbn [fold_left].
  - exists r, RD. split; [reflexivity|lra].
  - destruct (glicko_step_floor r RD c m F rs HF Hl H) as (r' & d & -> & D). apply IH. lra.
Qed.
(** The best such F, and its value. *)
Lemma floor_value c m : 0 < c -> (1 <= m)%nat ->
  let k := INR m * (gq ^ 2 / 4) in let F := sqrt (c ^ 2 / 2 * (sqrt (1 + 4 / (k * c ^ 2)) - 1)) in 0 < F /\ / (F ^ 2 + c ^ 2) + k = / F ^ 2.
Proof.
  intros Hc Hm k F. assert (K : 0 < k). { unfold k. apply Rmult_lt_0_compat; [apply lt_0_INR; lia|]. pose proof (pow_lt _ 2 gq_pos). lra. }
  assert (C2 : 0 < c ^ 2) by (apply pow_lt; auto). set (z := sqrt (1 + 4 / (k * c ^ 2))). assert (KC : 0 < k * c ^ 2) by (apply Rmult_lt_0_compat; auto).
  assert (Q : 0 < 4 / (k * c ^ 2)) by (apply Rdiv_lt_0_compat; lra). assert (Z1 : 1 < z) by (unfold z; rewrite <- sqrt_1 at 1; apply sqrt_lt_1_alt; lra).
  assert (ZZ : z * z = 1 + 4 / (k * c ^ 2)) by (apply sqrt_sqrt; lra). assert (P : 0 < c ^ 2 / 2 * (z - 1)) by (apply Rmult_lt_0_compat; lra).
  split; [apply sqrt_lt_R0; auto|]. assert (FF : F ^ 2 = c ^ 2 / 2 * (z - 1)) by (unfold F; apply pow2_sqrt; fold z; lra). rewrite FF.
  assert (KV : k = 4 / (c ^ 2 * (z * z - 1))). { rewrite ZZ. field. lra. }
  rewrite KV. field. split; [nra|]. split; [nra|nra].
Qed.
Lemma h_contract k P Q : 0 < k -> 0 < Q <= P -> / (/ P + k) - / (/ Q + k) = (P - Q) / ((1 + k * P) * (1 + k * Q)).
Proof. intros Hk H. assert (0 < k * P) by (apply Rmult_lt_0_compat; lra). assert (0 < k * Q) by (apply Rmult_lt_0_compat; lra). field. repeat split; lra. Qed.
Lemma gd2inv_even r m : gd2inv r (repeat (r, 0, 1 / 2) m) = INR m * (gq ^ 2 / 4).
Proof.
  unfold gd2inv. induction m as [|m IH]; [cbn [repeat map INR]; rewrite Rsum_nil; lra|]. rewrite S_INR. cbn [repeat map]. rewrite Rsum_cons.
  assert (G1 : gg 0 = 1). { unfold gg. replace (1 + 3 * gq ^ 2 * 0 ^ 2 / PI ^ 2) with 1 by (unfold Rdiv; ring). rewrite sqrt_1. apply Rinv_1. }
  rewrite G1, gE_self. lra.
Qed.
Lemma gM_even r m : gM r (repeat (r, 0, 1 / 2) m) = 0.
Proof. unfold gM. induction m as [|m IH]; [reflexivity|]. cbn [repeat map]. rewrite Rsum_cons, IH, gE_self. ring. Qed.
Lemma C124_glicko_sharp_proof : forall r RD c m F n, (1 <= m)%nat -> 0 < F <= RD -> RD <= 350 -> F ^ 2 + c ^ 2 <= 350 ^ 2 -> / (F ^ 2 + c ^ 2) + INR m * (gq ^ 2 / 4) = / F ^ 2 ->
  exists d, Nat.iter n (fun p => glicko_rating_period p (repeat (mkGlicko (Fin r) (Fin 0), DRAW) m) (mkGlickoConfig (Fin c))) (mkGlicko (Fin r) (Fin RD)) = mkGlicko (Fin r) (Fin d) /\
    F <= d <= 350 /\ d ^ 2 - F ^ 2 <= (RD ^ 2 - F ^ 2) / (1 + INR m * (gq ^ 2 / 4) * c ^ 2) ^ (2 * n).
Proof.
  intros r RD c m F n Hm HF HR HC HE. set (k := INR m * (gq ^ 2 / 4)) in *.
  assert (K : 0 < k). { unfold k. apply Rmult_lt_0_compat; [apply lt_0_INR; lia|]. pose proof (pow_lt _ 2 gq_pos). lra. }
  assert (C2 : 0 <= c ^ 2) by apply pow2_ge_0. assert (F2 : 0 < F ^ 2) by (apply pow_lt; lra). assert (KC : 0 <= k * c ^ 2) by (apply Rmult_le_pos; lra).
  induction n as [|n (d & E & D & B)].
  - exists RD. split; [reflexivity|]. split; [lra|]. replace (2 * 0)%nat with 0%nat by lia. rewrite pow_O. lra.
  - assert (FL : / Rmin (F ^ 2 + c ^ 2) (350 ^ 2) + INR m * (gq ^ 2 / 4) <= / F ^ 2) by (rewrite Rmin_left by lra; fold k; lra).
    change (Nat.iter (S n) ?f ?x) with (f (Nat.iter n f x)). cbv beta. rewrite E.
    assert (RP : repeat (mkGlicko (Fin r) (Fin 0), DRAW) m = map (fun '(rj, RDj, o) => (mkGlicko (Fin rj) (Fin RDj), o)) (repeat (r, 0, DRAW) m)) by (clear; induction m; [reflexivity|cbn; now f_equal]).
    destruct (glicko_step_floor r d c m F (repeat (r, 0, DRAW) m) ltac:(lra) ltac:(rewrite repeat_length; lia) FL) as (r' & d' & E' & D').
    rewrite RP, E'. rewrite C29_formula_proof in E' by (first [lra|destruct m; [lia|discriminate]]).
    assert (GR : map (fun '(rj, RDj, o) => (rj, RDj, points o)) (repeat (r, 0, DRAW) m) = repeat (r, 0, 1 / 2) m) by (clear; induction m; [reflexivity|cbn; now f_equal]).
    cbv zeta in E'. rewrite GR in E'. injection E' as Er Ed. unfold glicko_r in Er. rewrite gM_even in Er. exists d'. split; [f_equal; f_equal; lra|]. split; [exact D'|].
    unfold glicko_rd in Ed. rewrite gpre_sq, gd2inv_even in Ed. fold k in Ed. set (P := Rmin (d ^ 2 + c ^ 2) (350 ^ 2)) in *.
    assert (PQ : F ^ 2 + c ^ 2 <= P). { unfold P. assert (F ^ 2 <= d ^ 2) by (apply pow_incr; lra). apply Rmin_glb; lra. }
    assert (PD : P - (F ^ 2 + c ^ 2) <= d ^ 2 - F ^ 2) by (unfold P; pose proof (Rmin_l (d ^ 2 + c ^ 2) (350 ^ 2)); lra).
    assert (DD : d' ^ 2 = / (/ P + k)). { rewrite <- Ed. apply pow2_sqrt. apply Rlt_le, Rinv_0_lt_compat. assert (0 < / P) by (apply Rinv_0_lt_compat; lra). lra. }
    assert (FF : F ^ 2 = / (/ (F ^ 2 + c ^ 2) + k)) by (rewrite HE, Rinv_inv; reflexivity).
    assert (STEP : d' ^ 2 - F ^ 2 = (P - (F ^ 2 + c ^ 2)) / ((1 + k * P) * (1 + k * (F ^ 2 + c ^ 2)))). { rewrite <- h_contract by lra. rewrite DD. rewrite <- FF. reflexivity. }
    rewrite STEP. set (q := 1 + k * c ^ 2) in *. replace (2 * S n)%nat with (2 + 2 * n)%nat by lia. rewrite pow_add.
    assert (Hq : 1 <= q) by (unfold q; lra). assert (A1 : q <= 1 + k * P) by (unfold q; apply Rplus_le_compat_l, Rmult_le_compat_l; lra). assert (A2 : q <= 1 + k * (F ^ 2 + c ^ 2)) by (unfold q; apply Rplus_le_compat_l, Rmult_le_compat_l; lra).
    assert (Q2 : 0 < q ^ 2) by (apply pow_lt; lra). assert (QN : 0 < q ^ (2 * n)) by (apply pow_lt; lra).
    assert (A3 : q ^ 2 <= (1 + k * P) * (1 + k * (F ^ 2 + c ^ 2))) by (replace (q ^ 2) with (q * q) by ring; apply Rmult_le_compat; lra).
    apply Rle_trans with ((P - (F ^ 2 + c ^ 2)) / q ^ 2); [apply Rmult_le_compat_l; [lra|]; apply Rinv_le_contravar; auto|].
    apply Rle_trans with ((d ^ 2 - F ^ 2) / q ^ 2); [apply Rmult_le_compat_r; [apply Rlt_le, Rinv_0_lt_compat; auto|lra]|].
    replace ((RD ^ 2 - F ^ 2) / (q ^ 2 * q ^ (2 * n))) with ((RD ^ 2 - F ^ 2) / q ^ (2 * n) / q ^ 2) by (field; lra). apply Rmult_le_compat_r; [apply Rlt_le, Rinv_0_lt_compat; auto|exact B].
Qed.
(** Sticko: the extra variance h per game only helps. *)
Lemma C124_sticko_proof : forall r RD h beta lambda gamma c m F career, 0 <= h -> 0 < F <= RD -> List.Forall (fun rs => (length rs <= m)%nat) career ->
  / (Rmin (F ^ 2 + c ^ 2) (350 ^ 2) + h) + INR m * (gq ^ 2 / 4) <= / F ^ 2 -> F ^ 2 <= Rmin (F ^ 2 + c ^ 2) (350 ^ 2) ->
  exists r' d, fold_left (fun p rs => sticko_rating_period p (map (fun '(rj, RDj, o, white) => (mkSticko (Fin rj) (Fin RDj), o, white)) rs)
      (mkStickoConfig (Fin h) (Fin beta) (Fin lambda) (Fin gamma) (Fin c))) career (mkSticko (Fin r) (Fin RD)) = mkSticko (Fin r') (Fin d) /\ F <= d.
Proof.
  intros r RD h be la ga c m F career Hh HF HC H H2. revert r RD HF. induction HC as [|rs career Hl HC IH]; intros r RD HF; cbn [fold_left].
  - exists r, RD. split; [reflexivity|lra].
  - pose proof (min_mono F RD c (350 ^ 2) HF ltac:(lra)) as M. pose proof (pow2_ge_0 gq) as Q. assert (F3 : F <= 350). { apply Rnot_lt_le. intro. assert (350 ^ 2 < F ^ 2) by (apply Rlt_pow_le_compat || (replace (350 ^ 2) with (350 * 350) by ring; replace (F ^ 2) with (F * F) by ring; apply Rmult_le_0_lt_compat; lra)). pose proof (Rmin_r (F ^ 2 + c ^ 2) (350 ^ 2)). lra. }
    destruct rs as [|g rs].
    + cbn [map sticko_rating_period]. unfold sticko_decay_deviation. cbn [st_rating st_deviation st_c]. change (@st_pre_deviation XR XRA) with (@gl_pre_deviation XR XRA). rewrite gl_pre_eval. apply IH. split; [lra|].
      rewrite <- (sqrt_pow2 F) by lra. rewrite <- (sqrt_pow2 (gpre RD c)) by (apply Rlt_le, gpre_pos; lra). apply sqrt_le_1_alt. rewrite gpre_sq. lra.
    + rewrite C33_period_proof by (try discriminate; auto; lra). apply IH. split; [lra|]. unfold sticko_rd. rewrite gpre_sq. apply Rmin_glb; [|exact F3].
      set (gs := map (st_game ga be) (g :: rs)). assert (L1 : 1 <= INR (length (g :: rs))) by (change 1 with (INR 1); apply le_INR; cbn; lia).
      assert (HL : h <= h * INR (length (g :: rs))) by (rewrite <- (Rmult_1_r h) at 1; apply Rmult_le_compat_l; lra).
      apply inv_post_ge; try lra; [|apply gd2inv_nonneg]. pose proof (gd2inv_le r gs) as G. unfold gs in G at 2. rewrite map_length in G. apply le_INR in Hl.
      assert (INR (length (g :: rs)) * (gq ^ 2 / 4) <= INR m * (gq ^ 2 / 4)) by (apply Rmult_le_compat_r; lra).
      assert (/ (Rmin (RD ^ 2 + c ^ 2) (350 ^ 2) + h * INR (length (g :: rs))) <= / (Rmin (F ^ 2 + c ^ 2) (350 ^ 2) + h)) by (apply Rinv_le_contravar; lra). lra.
Qed.
(** TrueSkill: decided games, any opponents. *)
Lemma ts_step_floor F tau beta w V s2 : 0 < F -> 0 <= w <= 1 -> tau ^ 2 <= 2 * beta ^ 2 -> F ^ 2 * (F ^ 2 + tau ^ 2) <= tau ^ 2 * (2 * beta ^ 2 - tau ^ 2) -> F ^ 2 <= V -> 0 <= s2 ->
  F ^ 2 <= (V + tau ^ 2) * (1 - w * (V + tau ^ 2) / (2 * beta ^ 2 + V + s2)).
Proof.
  intros HF Hw Ht H HV Hs. set (f := F ^ 2) in *. assert (f0 : 0 < f) by (apply pow_lt; auto). set (T := tau ^ 2) in *. set (B := 2 * beta ^ 2) in *. assert (T0 : 0 <= T) by apply pow2_ge_0.
  assert (C0 : 0 < B + V + s2) by lra. assert (C1 : 0 < B + V) by lra.
  apply Rle_trans with ((V + T) * (1 - 1 * (V + T) / (B + V))).
  - replace (1 - 1 * (V + T) / (B + V)) with ((B - T) / (B + V)) by (field; lra).
    apply Rmult_le_reg_r with (B + V); [lra|]. replace ((V + T) * ((B - T) / (B + V)) * (B + V)) with ((V + T) * (B - T)) by (field; lra).
    assert (X : f * (B + f) <= (f + T) * (B - T)) by nra.
    assert (Y : f <= B - T). { assert (f * (B - T) + T * (B - T) >= f * B + f * f) by nra. nra. }
    nra.
  - apply Rmult_le_compat_l; [lra|]. assert (w * (V + T) / (B + V + s2) <= 1 * (V + T) / (B + V)); [|lra].
    apply Rmult_le_compat; [apply Rmult_le_pos; lra|apply Rlt_le, Rinv_0_lt_compat; lra|apply Rmult_le_compat_r; lra|apply Rinv_le_contravar; lra].
Qed.
Lemma C124_ts_proof : forall m s dp beta tau F games, 0 < F <= s -> tau ^ 2 <= 2 * beta ^ 2 -> F ^ 2 * (F ^ 2 + tau ^ 2) <= tau ^ 2 * (2 * beta ^ 2 - tau ^ 2) ->
  List.Forall (fun g : R * R * Outcomes => 0 < snd (fst g) /\ snd g <> DRAW) games ->
  exists m' u, trueskill_rating_period (ts_in (m, s)) (map (fun '(mj, sj, o) => (ts_in (mj, sj), o)) games) (ts_cfg dp beta tau) = ts_in (m', u) /\ F <= u.
Proof.
  intros m s dp beta tau F games HF Ht H HG. revert m s HF. induction HG as [|[[mj sj] o] games [Hs Ho] HG IH]; intros m s HF.
  - exists m, s. split; [reflexivity|lra].
  - cbn [fst snd] in Hs, Ho. cbn [map]. destruct (C57_proof XR _ (ts_in (m, s)) ((ts_in (mj, sj), o) :: map (fun '(mj, sj, o) => (ts_in (mj, sj), o)) games) [] (ts_cfg dp beta tau)) as (E & _ & _). rewrite E. cbn [fold_left fst snd].
    destruct (C57_proof XR _ (fst (trueskill (ts_in (m, s)) (ts_in (mj, sj)) o (ts_cfg dp beta tau))) (map (fun '(mj, sj, o) => (ts_in (mj, sj), o)) games) [] (ts_cfg dp beta tau)) as (E' & _ & _). rewrite <- E'. clear E E'.
    pose proof (draw_margin_eval dp beta 2 ltac:(lra)) as He. rewrite (trueskill_eval m s mj sj o dp beta tau _ ltac:(lra) Hs He). cbv zeta. cbn [fst].
    set (c := tsc 2 beta (s ^ 2) (sj ^ 2)). assert (P1 : 0 < s ^ 2) by (apply pow_lt; lra). assert (P2 : 0 < sj ^ 2) by (apply pow_lt; auto). pose proof (pow2_ge_0 beta) as Hb.
    assert (Hc : 0 < c) by (apply tsc_pos; lra). assert (Hcc : c ^ 2 = 2 * beta ^ 2 + s ^ 2 + sj ^ 2) by (unfold c, tsc; apply pow2_sqrt; lra).
    unfold ts_out. set (w := ts_w o _ _). assert (Hw : 0 <= w <= 1) by now apply ts_w_unit. set (mu := ts_mu' _ _ _ _).
    destruct (std_real tau c w m s Hc Hw ltac:(lra)) as [SR _]. rewrite SR.
    change (mkTS (Fin mu) (Fin (sqrt (ts_var' tau c w (m, s))))) with (ts_in (mu, sqrt (ts_var' tau c w (m, s)))). apply IH. split; [lra|].
    rewrite <- (sqrt_pow2 F) by lra. apply sqrt_le_1_alt. unfold ts_var'. cbn [snd]. rewrite Hcc. apply ts_step_floor; auto; try lra. apply pow_incr. lra.
Qed.

(** Weng-Lin has no such floor. *)
Lemma wl_draw_step m s s2 beta kappa : 0 < s -> 0 < s2 -> 0 < kappa <= 3 / 4 ->
  let c := sqrt (s ^ 2 + s2 ^ 2 + 2 * beta ^ 2) in
  fst (weng_lin (mkWL (Fin m) (Fin s)) (mkWL (Fin m) (Fin s2)) DRAW (mkWLConfig (Fin beta) (Fin kappa))) = mkWL (Fin m) (Fin (s * sqrt (1 - (s / c) ^ 3 / 4))) /\ 0 < s / c < 1.
Proof.
  intros H1 H2 Hk c. destruct (C42_proof m s m s2 DRAW beta kappa H1 H2 ltac:(lra)) as (m1' & s1' & m2' & s2' & E & A & _ & B & _). rewrite E. cbn [fst]. fold c in A, B.
  replace (/ (1 + exp ((m - m) / c))) with (/ 2) in A, B by (unfold Rminus; rewrite Rplus_opp_r; unfold Rdiv; rewrite Rmult_0_l, exp_0; lra).
  assert (S2 : 0 < s ^ 2) by (apply pow_lt; auto). assert (T2 : 0 < s2 ^ 2) by (apply pow_lt; auto). pose proof (pow2_ge_0 beta).
  assert (Hc : s < c) by (unfold c; rewrite <- (sqrt_pow2 s) at 1 by lra; apply sqrt_lt_1_alt; lra).
  assert (R : 0 < s / c < 1). { split; [apply Rdiv_lt_0_compat; lra|]. apply Rmult_lt_reg_r with c; [lra|]. unfold Rdiv. rewrite Rmult_assoc, Rinv_l; lra. }
  split; [|exact R]. assert (X : 0 < (s / c) ^ 3 < 1) by (split; [apply pow_lt; lra|]; set (x := s / c) in *; simpl; nra).
  f_equal; f_equal; [rewrite A; cbn [points]; field; lra|]. rewrite B. rewrite Rmax_left by lra. f_equal. f_equal. lra.
Qed.
Lemma iter_shift {A} (f : A -> A) n x : Nat.iter (S n) f x = Nat.iter n f (f x).
Proof. induction n as [|n IH]; [reflexivity|]. change (Nat.iter (S (S n)) f x) with (f (Nat.iter (S n) f x)). rewrite IH. reflexivity. Qed.
Lemma C124_wl_proof : forall m s s2 beta kappa eps, 0 < s -> 0 < s2 -> 0 < kappa <= 3 / 4 -> 0 < eps ->
  exists N, forall n, (N <= n)%nat -> exists u,
    weng_lin_rating_period (mkWL (Fin m) (Fin s)) (repeat (mkWL (Fin m) (Fin s2), DRAW) n) (mkWLConfig (Fin beta) (Fin kappa)) = mkWL (Fin m) (Fin u) /\ 0 < u < eps.
Proof.
  intros m s s2 beta kappa eps H1 H2 Hk He. set (cfg := mkWLConfig (Fin beta) (Fin kappa)). set (c0 := sqrt (s ^ 2 + s2 ^ 2 + 2 * beta ^ 2)).
  assert (S2 : 0 < s ^ 2) by (apply pow_lt; auto). assert (T2 : 0 < s2 ^ 2) by (apply pow_lt; auto). pose proof (pow2_ge_0 beta) as B2. assert (C0 : 0 < c0) by (apply sqrt_lt_R0; lra).
  set (e := Rmin eps s). assert (E0 : 0 < e <= s) by (unfold e; split; [apply Rmin_glb_lt; auto|apply Rmin_r]). assert (EE : e <= eps) by apply Rmin_l.
  set (rho := 1 - (e / c0) ^ 3 / 4).
  assert (SC : s < c0) by (unfold c0; rewrite <- (sqrt_pow2 s) at 1 by lra; apply sqrt_lt_1_alt; lra).
  assert (X0 : 0 < e / c0 < 1). { split; [apply Rdiv_lt_0_compat; lra|]. apply Rmult_lt_reg_r with c0; [lra|]. unfold Rdiv. rewrite Rmult_assoc, Rinv_l; lra. }
  assert (X3 : 0 < (e / c0) ^ 3 < 1). { split; [apply pow_lt; lra|]. set (x := e / c0) in *. simpl. nra. }
  assert (RH : 0 < rho < 1) by (unfold rho; lra).
  assert (INV : forall n, exists u, Nat.iter n (fun p => fst (weng_lin p (mkWL (Fin m) (Fin s2)) DRAW cfg)) (mkWL (Fin m) (Fin s)) = mkWL (Fin m) (Fin u) /\ 0 < u <= s /\ (u < e \/ u ^ 2 <= s ^ 2 * rho ^ n)).
  { induction n as [|n (u & E & U & D)].
    - exists s. split; [reflexivity|]. split; [lra|]. right. rewrite pow_O. lra.
    - change (Nat.iter (S n) ?f ?x) with (f (Nat.iter n f x)). cbv beta. rewrite E. destruct (wl_draw_step m u s2 beta kappa ltac:(lra) H2 Hk) as [A R]. fold cfg in A. rewrite A.
      set (c := sqrt (u ^ 2 + s2 ^ 2 + 2 * beta ^ 2)) in *. assert (U2 : 0 < u ^ 2 <= s ^ 2) by (split; [apply pow_lt; lra|apply pow_incr; lra]).
      assert (CC : 0 < c <= c0) by (unfold c, c0; split; [apply sqrt_lt_R0; lra|apply sqrt_le_1_alt; lra]).
      assert (Y3 : 0 < (u / c) ^ 3 < 1). { split; [apply pow_lt; lra|]. set (x := u / c) in *. simpl. nra. }
      eexists. split; [reflexivity|]. set (z := 1 - (u / c) ^ 3 / 4) in *. assert (Z : 3 / 4 < z < 1) by (unfold z; lra). assert (SZ : 0 < sqrt z < 1) by (split; [apply sqrt_lt_R0; lra|rewrite <- sqrt_1; apply sqrt_lt_1_alt; lra]).
      assert (UZ : 0 < u * sqrt z <= u) by (split; [apply Rmult_lt_0_compat; lra|rewrite <- (Rmult_1_r u) at 2; apply Rmult_le_compat_l; lra]). split; [lra|].
      destruct D as [D|D]; [left; lra|]. destruct (Rlt_le_dec u e) as [L|L]; [left; lra|]. right.
      rewrite Rpow_mult_distr, pow2_sqrt by lra. assert (ZR : z <= rho). { unfold z, rho. assert ((e / c0) ^ 3 <= (u / c) ^ 3); [|lra]. apply pow_incr. split; [lra|]. unfold Rdiv. apply Rmult_le_compat; [lra|apply Rlt_le, Rinv_0_lt_compat; lra|lra|apply Rinv_le_contravar; lra]. }
      replace (s ^ 2 * rho ^ S n) with (s ^ 2 * rho ^ n * rho) by (simpl; ring). apply Rmult_le_compat; lra. }
  destruct (pow_lt_1_zero rho ltac:(rewrite Rabs_right; lra) (e ^ 2 / s ^ 2) ltac:(apply Rdiv_lt_0_compat; [apply pow_lt; lra|lra])) as [N HN].
  exists N. intros n Hn. destruct (INV n) as (u & E & U & D). exists u. split.
  - rewrite <- E. destruct (C48_proof XR _ (mkWL (Fin m) (Fin s)) (repeat (mkWL (Fin m) (Fin s2), DRAW) n) [] cfg) as (Q & _ & _). rewrite Q. clear.
    assert (G : forall p, fold_left (fun q x => fst (weng_lin q (fst x) (snd x) cfg)) (repeat (mkWL (Fin m) (Fin s2), DRAW) n) p = Nat.iter n (fun p => fst (weng_lin p (mkWL (Fin m) (Fin s2)) DRAW cfg)) p).
    { induction n as [|n IH]; intros p; [reflexivity|]. cbn [repeat fold_left fst snd]. rewrite IH, iter_shift. reflexivity. }
    apply G.
  - split; [lra|]. destruct D as [D|D]; [lra|]. specialize (HN n Hn). rewrite Rabs_right in HN by (apply Rle_ge, pow_le; lra).
    assert (u ^ 2 < e ^ 2). { eapply Rle_lt_trans; [exact D|]. apply Rmult_lt_compat_l with (r := s ^ 2) in HN; [|lra]. replace (s ^ 2 * (e ^ 2 / s ^ 2)) with (e ^ 2) in HN by (field; lra). exact HN. }
    assert (u < e); [|lra]. apply Rnot_le_lt. intro L. assert (e ^ 2 <= u ^ 2) by (apply pow_incr; lra). lra.
Qed.

(** The default configurations. *)
Lemma glicko_default_cfg : @glicko_config_new XR XRA = mkGlickoConfig (Fin (632 / 10)).
Proof. unfold glicko_config_new. f_equal. Qed.
Lemma C124_glicko_default_proof : forall r RD games, 141 <= RD -> List.Forall (fun g : R * R * Outcomes => 0 < snd (fst g)) games ->
  exists r' d, fold_left (fun p '(rj, RDj, o) => fst (glicko p (mkGlicko (Fin rj) (Fin RDj)) o glicko_config_new)) games (mkGlicko (Fin r) (Fin RD)) = mkGlicko (Fin r') (Fin d) /\ 141 <= d.
Proof.
  intros r RD games HR HG. rewrite glicko_default_cfg. revert r RD HR. induction HG as [|[[rj RDj] o] games H0 HG IH]; intros r RD HR; cbn [fold_left].
  - exists r, RD. split; [reflexivity|lra].
  - cbn [fst snd] in H0. rewrite <- (C29_single_proof r RD rj RDj o (632 / 10)) by (auto; lra).
    destruct (glicko_step_floor r RD (632 / 10) 1 141 [(rj, RDj, o)] ltac:(lra) (le_n 1)) as (r' & d & E & D).
    { rewrite Rmin_left by lra. cbn [INR]. pose proof gq_rng as Q. assert (gq ^ 2 <= 0.00576 ^ 2) by (apply pow_incr; lra). lra. }
    cbn [map] in E. rewrite E. apply IH. lra.
Qed.
Lemma ts_default_cfg : @ts_config_new XR XRA = ts_cfg (1 / 10) (25 / 3 * (5 / 10)) (25 / 300).
Proof. unfold ts_config_new, ts_cfg. rewrite !xr_ofZ. f_equal; xr; f_equal; lra. Qed.
Lemma C124_ts_default_proof : forall m s games, 0.69 <= s -> List.Forall (fun g : R * R * Outcomes => 0 < snd (fst g) /\ snd g <> DRAW) games ->
  exists m' u, trueskill_rating_period (ts_in (m, s)) (map (fun '(mj, sj, o) => (ts_in (mj, sj), o)) games) ts_config_new = ts_in (m', u) /\ 0.69 <= u.
Proof. intros m s games Hs HG. rewrite ts_default_cfg. apply C124_ts_proof; auto; lra. Qed.
Lemma C124_floor_value_proof : forall c m, 0 < c -> (1 <= m)%nat ->
  let k := INR m * (gq ^ 2 / 4) in let F := sqrt (c ^ 2 / 2 * (sqrt (1 + 4 / (k * c ^ 2)) - 1)) in 0 < F /\ / (F ^ 2 + c ^ 2) + k = / F ^ 2.
Proof. exact floor_value. Qed.
