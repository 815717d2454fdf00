(** Property theorems for the closed-form part of TrueSkill (trueskill/mod.rs,
    math.rs, erf.rs, weights.rs).  [ts_in]/[tst_in] inject (rating, uncertainty)
    reals and teams of them into the model. *)
From Coq Require Import ZArith NArith List Bool Reals Lra Lia.
From Verif Require Import Arith XR ModelLib ModelWengLin ModelTS ModelTSGraph ModelTSMatrix Spec SpecTS SpecInTS ProofTS.
Import ListNotations.
Local Open Scope R_scope.

(** C49: validation of weights. *)
Theorem C49_ts_weights_rate : forall (F : Type) (A : Arith F) (trs : list (list (TrueSkillRating F) * MultiTeamOutcome)) cfg ws,
  trs <> [] -> Forall (fun x => fst x <> []) trs ->
  let neg w := fltb w (#0)%flt = true in
  (forall e, trueskill_multi_team trs cfg (Some ws) = Err e <-> weight_error neg (map fst trs) ws e) /\
  ((exists e, trueskill_multi_team trs cfg (Some ws) = Err e) <-> ~ weights_ok neg (map fst trs) ws) /\
  (forall e, trueskill_multi_team trs cfg None <> Err e).
Proof. exact C49_rate_proof. Qed.
Print Assumptions C49_ts_weights_rate.
Theorem C49_ts_weights_quality : forall (F : Type) (A : Arith F) (ts : list (list (TrueSkillRating F))) cfg ws,
  ts <> [] -> Forall (fun x => x <> []) ts ->
  let neg w := fltb w (#0)%flt = true in
  (forall e, match_quality_multi_team ts cfg (Some ws) = Err e <-> weight_error neg ts ws e) /\
  ((exists e, match_quality_multi_team ts cfg (Some ws) = Err e) <-> ~ weights_ok neg ts ws) /\
  (forall e, match_quality_multi_team ts cfg None <> Err e).
Proof. exact C49_quality_proof. Qed.
Print Assumptions C49_ts_weights_quality.
Theorem C49_ts_weights_default : forall trs cfg,
  trueskill_multi_team (F:=XR) trs cfg None = trueskill_multi_team trs cfg (Some (map (fun x => repeat (Fin 1) (length (fst x))) trs)) /\
  match_quality_multi_team (F:=XR) (map fst trs) cfg None = match_quality_multi_team (map fst trs) cfg (Some (map (fun x => repeat (Fin 1) (length (fst x))) trs)).
Proof. exact C49_default_proof. Qed.
Print Assumptions C49_ts_weights_default.
Example C49_case : weight_error (fun w => w < 0) [[mkTS 25 8]; [mkTS 20 3; mkTS 1 1]] [[1]; [2; -3]] (WeightErr 1 1).
Proof.
  exists [[mkTS 25 8]], [mkTS 20 3; mkTS 1 1], [], [[1]], [2; -3], [], [2], (-3), [].
  repeat split; try (repeat constructor; lra); try lra.
Qed.

(** C50: the 1v1 update. *)
Theorem C50_ts_1v1 : forall m1 s1 m2 s2 o dp beta tau, 0 < s1 -> 0 < s2 ->
  let c := sqrt (2 * beta ^ 2 + s1 ^ 2 + s2 ^ 2) in let t := (m1 - m2) / c in
  exists e m1' m2',
    ts_draw_margin (Fin dp) (Fin beta) (Fin 2) = Fin e /\
    m1' = m1 + (s1 ^ 2 + tau ^ 2) / c * ts_v o t (e / c) /\
    m2' = m2 - (s2 ^ 2 + tau ^ 2) / c * ts_v o t (e / c) /\
    trueskill (ts_in (m1, s1)) (ts_in (m2, s2)) o (ts_cfg dp beta tau) =
      (mkTS (Fin m1') (std ((s1 ^ 2 + tau ^ 2) * (1 - ts_w o t (e / c) * (s1 ^ 2 + tau ^ 2) / c ^ 2))),
       mkTS (Fin m2') (std ((s2 ^ 2 + tau ^ 2) * (1 - ts_w o t (e / c) * (s2 ^ 2 + tau ^ 2) / c ^ 2)))) /\
    (o = WIN -> m1 < m1' /\ m2' < m2) /\ (o = LOSS -> m1' < m1 /\ m2 < m2') /\
    (o = DRAW -> 0 < e -> tiny <= drawnorm t (e / c) ->
       (m2 < m1 -> m1' < m1 /\ m2 < m2') /\ (m1 < m2 -> m1 < m1' /\ m2' < m2) /\ (m1 = m2 -> m1' = m1 /\ m2' = m2)) /\
    (m1' - m1) / (s1 ^ 2 + tau ^ 2) = - ((m2' - m2) / (s2 ^ 2 + tau ^ 2)).
Proof. exact C50_proof. Qed.
Print Assumptions C50_ts_1v1.
Example C50_case : 0 < 25/3 /\ 0 < 3. Proof. lra. Qed.

(** C51: two teams. *)
Theorem C51_ts_two_single : forall m1 s1 m2 s2 o dp beta tau, 0 < s1 -> 0 < s2 ->
  let p := ts_in (m1, s1) in let q := ts_in (m2, s2) in let cfg := ts_cfg dp beta tau in
  trueskill_two_teams [p] [q] o cfg = ([fst (trueskill p q o cfg)], [snd (trueskill p q o cfg)]).
Proof. exact C51_single_proof. Qed.
Print Assumptions C51_ts_two_single.
Theorem C51_ts_two_formula : forall t1 t2 o dp beta tau, wl_ok t1 -> wl_ok t2 ->
  let n := INR (length t1 + length t2) in
  let c := sqrt (n * beta ^ 2 + side_var t1 + side_var t2) in let t := (side_mu t1 - side_mu t2) / c in
  exists e, ts_draw_margin (Fin dp) (Fin beta) (Fin n) = Fin e /\
    trueskill_two_teams (tst_in t1) (tst_in t2) o (ts_cfg dp beta tau) =
    (map (ts_out tau c (ts_v o t (e / c)) (ts_w o t (e / c))) t1, map (ts_out tau c (- ts_v o t (e / c)) (ts_w o t (e / c))) t2).
Proof. exact C51_formula_proof. Qed.
Print Assumptions C51_ts_two_formula.
Theorem C51_ts_two_swap_partial : forall t1 t2 o dp beta tau e, wl_ok t1 -> wl_ok t2 ->
  let n := INR (length t1 + length t2) in
  let c := sqrt (n * beta ^ 2 + side_var t1 + side_var t2) in
  ts_draw_margin (Fin dp) (Fin beta) (Fin n) = Fin e ->
  o <> DRAW \/ side_mu t1 <> side_mu t2 \/ tiny <= drawnorm 0 (e / c) ->
  let '(t1', t2') := trueskill_two_teams (tst_in t1) (tst_in t2) o (ts_cfg dp beta tau) in
  trueskill_two_teams (tst_in t2) (tst_in t1) (invert o) (ts_cfg dp beta tau) = (t2', t1').
Proof. exact C51_swap_proof. Qed.
Print Assumptions C51_ts_two_swap_partial.
Theorem C51_ts_two_shape : forall (F : Type) (A : Arith F) (t1 t2 : list (TrueSkillRating F)) o c,
  length (fst (trueskill_two_teams t1 t2 o c)) = length t1 /\ length (snd (trueskill_two_teams t1 t2 o c)) = length t2 /\
  (t1 = [] \/ t2 = [] -> trueskill_two_teams t1 t2 o c = (t1, t2)).
Proof. exact C51_shape_proof. Qed.
Print Assumptions C51_ts_two_shape.
Example C51_case : wl_ok [(25, 25/3); (30, 4)] /\ WIN <> DRAW.
Proof. split; [|discriminate]. split; [discriminate|]. repeat constructor; cbn; lra. Qed.

(** C54: expected scores. *)
Theorem C54_ts_expected : forall m1 s1 m2 s2 dp beta tau, 0 < beta ->
  let c := sqrt (2 * beta ^ 2 + s1 ^ 2 + s2 ^ 2) in
  exists e, 0 < e < 1 /\ e = Phi ((m1 - m2) / c) /\
    ts_expected_score (ts_in (m1, s1)) (ts_in (m2, s2)) (ts_cfg dp beta tau) = (Fin e, Fin (1 - e)) /\
    (m1 <> m2 -> ts_expected_score (ts_in (m2, s2)) (ts_in (m1, s1)) (ts_cfg dp beta tau) = (Fin (1 - e), Fin e)) /\
    (m2 < m1 -> 0.4999999 < e) /\ (m1 < m2 -> e < 0.5000001).
Proof. exact C54_players_proof. Qed.
Print Assumptions C54_ts_expected.
Theorem C54_ts_expected_teams : forall t1 t2 dp beta tau, 0 < beta -> t1 ++ t2 <> [] ->
  exists e, 0 < e < 1 /\ e = Phi ((side_mu t1 - side_mu t2) / sqrt (INR (length t1 + length t2) * beta ^ 2 + side_var t1 + side_var t2)) /\
    ts_expected_score_two_teams (tst_in t1) (tst_in t2) (ts_cfg dp beta tau) = (Fin e, Fin (1 - e)).
Proof. exact C54_teams_proof. Qed.
Print Assumptions C54_ts_expected_teams.
Theorem C54_ts_expected_period : forall m s os dp beta tau, 0 < beta ->
  exists es, ts_expected_score_rating_period (ts_in (m, s)) (tst_in os) (ts_cfg dp beta tau) = map Fin es /\
    length es = length os /\ Forall (fun e => 0 < e < 1) es /\
    Forall2 (fun e o => fst (ts_expected_score (ts_in (m, s)) (ts_in o) (ts_cfg dp beta tau)) = Fin e) es os.
Proof. exact C54_period_proof. Qed.
Print Assumptions C54_ts_expected_period.
Theorem C54_ts_expected_multi : forall ts dp beta tau, 0 < beta -> (2 <= length ts)%nat -> concat ts <> [] ->
  let total := Rsum (map (ts_row beta ts) (seq 0 (length ts))) in
  let es := map (fun i => ts_row beta ts i / total) (seq 0 (length ts)) in
  ts_expected_score_multi_team (map tst_in ts) (ts_cfg dp beta tau) = map Fin es /\
  length es = length ts /\ Rsum es = 1 /\ Forall (fun e => 0 < e < 1) es.
Proof. exact C54_multi_proof. Qed.
Print Assumptions C54_ts_expected_multi.
Theorem C54_ts_expected_one_team : forall t dp beta tau, ts_expected_score_multi_team [tst_in t] (ts_cfg dp beta tau) = [NaN].
Proof. exact C54_one_team_proof. Qed.
Print Assumptions C54_ts_expected_one_team.
Theorem C54_ts_expected_mono_partial : forall m m' s1 m2 s2 dp beta tau, 0 < beta -> m < m' ->
  exists e e',
    fst (ts_expected_score (ts_in (m, s1)) (ts_in (m2, s2)) (ts_cfg dp beta tau)) = Fin e /\
    fst (ts_expected_score (ts_in (m', s1)) (ts_in (m2, s2)) (ts_cfg dp beta tau)) = Fin e' /\
    e <= e' + 0.0000002 /\ (m' <= m2 \/ m2 < m -> e < e').
Proof. exact C54_mono_proof. Qed.
Print Assumptions C54_ts_expected_mono_partial.
Theorem C54_ts_expected_mono_refuted : exists m m' s1 m2 s2 dp beta tau e e',
  0 < beta /\ 0 < s1 /\ 0 < s2 /\ m < m' /\
  fst (ts_expected_score (ts_in (m, s1)) (ts_in (m2, s2)) (ts_cfg dp beta tau)) = Fin e /\
  fst (ts_expected_score (ts_in (m', s1)) (ts_in (m2, s2)) (ts_cfg dp beta tau)) = Fin e' /\ e' < e.
Proof. exact C54_refuted_proof. Qed.
Print Assumptions C54_ts_expected_mono_refuted.
Example C54_case : 0 < 25/6 /\ (2 <= length [[(25, 25/3)]; [(20, 2); (1, 1)]])%nat /\ concat [[(25, 25/3)]; [(20, 2); (1, 1)]] <> [] /\
  (20 < 25 /\ (25 <= 25 \/ 25 < 20)).
Proof. repeat split; try lra; [cbn; lia|discriminate]. Qed.

(** C55: match quality. *)
Theorem C55_ts_quality : forall m1 s1 m2 s2 m1' m2' dp beta tau, 0 < beta ->
  let cfg := ts_cfg dp beta tau in
  exists q q', q = mq 2 beta (s1 ^ 2 + s2 ^ 2) (m1 - m2) /\ 0 < q <= 1 /\
    match_quality (ts_in (m1, s1)) (ts_in (m2, s2)) cfg = Fin q /\
    match_quality (ts_in (m2, s2)) (ts_in (m1, s1)) cfg = Fin q /\
    match_quality_two_teams [ts_in (m1, s1)] [ts_in (m2, s2)] cfg = Fin q /\
    match_quality_rating_period (ts_in (m1, s1)) [ts_in (m2, s2)] cfg = [Fin q] /\
    match_quality (ts_in (m1', s1)) (ts_in (m2', s2)) cfg = Fin q' /\
    (Rabs (m1 - m2) < Rabs (m1' - m2') -> q' < q).
Proof. exact C55_players_proof. Qed.
Print Assumptions C55_ts_quality.
Theorem C55_ts_quality_teams : forall t1 t2 t1' t2' dp beta tau, 0 < beta -> t1 ++ t2 <> [] ->
  let cfg := ts_cfg dp beta tau in
  exists q, q = mq (INR (length t1 + length t2)) beta (side_var t1 + side_var t2) (side_mu t1 - side_mu t2) /\ 0 < q <= 1 /\
    match_quality_two_teams (tst_in t1) (tst_in t2) cfg = Fin q /\
    match_quality_two_teams (tst_in t2) (tst_in t1) cfg = Fin q /\
    (map snd t1 = map snd t1' -> map snd t2 = map snd t2' -> Rabs (side_mu t1 - side_mu t2) < Rabs (side_mu t1' - side_mu t2') ->
     exists q', match_quality_two_teams (tst_in t1') (tst_in t2') cfg = Fin q' /\ q' < q).
Proof. exact C55_teams_proof. Qed.
Print Assumptions C55_ts_quality_teams.
Example C55_case : map snd [(25, 25/3); (20, 2)] = map snd [(1, 25/3); (2, 2)] /\ Rabs (25 - 24) < Rabs (25 - 20).
Proof. split; [reflexivity|]. rewrite !Rabs_right; lra. Qed.

(** C57: rating periods. *)
Theorem C57_ts_period : forall (F : Type) (A : Arith F) (p : TrueSkillRating F) rs rs' c,
  trueskill_rating_period p rs c = fold_left (fun q x => fst (trueskill q (fst x) (snd x) c)) rs p /\
  trueskill_rating_period p [] c = p /\
  trueskill_rating_period p (rs ++ rs') c = trueskill_rating_period (trueskill_rating_period p rs c) rs' c.
Proof. exact C57_proof. Qed.
Print Assumptions C57_ts_period.
Example C57_case : trueskill_rating_period (mkTS (Fin 25) (Fin 8)) [] (ts_cfg (1/10) 4 0) = mkTS (Fin 25) (Fin 8).
Proof. reflexivity. Qed.

(** C58: the new uncertainty can be NaN. *)
Theorem C58_ts_uncertainty_refuted : forall dp beta s1 s2, 0 < s1 -> 0 < s2 ->
  exists m1 m2 tau, 0 <= tau /\
    ts_uncertainty (fst (trueskill (ts_in (m1, s1)) (ts_in (m2, s2)) WIN (ts_cfg dp beta tau))) = NaN.
Proof. exact C58_refuted_proof. Qed.
Print Assumptions C58_ts_uncertainty_refuted.
Example C58_case : 0 < 25/3 /\ 0 < 3. Proof. lra. Qed.

(** C59: conservative rank and draw margin. *)
Theorem C59_ts_rank : forall m s, ts_get_rank (ts_in (m, s)) = Fin (m - 3 * s).
Proof. exact C59_rank_proof. Qed.
Print Assumptions C59_ts_rank.
Theorem C59_ts_margin : forall dp, exists u, forall beta n, 0 <= n ->
  ts_draw_margin (Fin dp) (Fin beta) (Fin n) = Fin (u * sqrt n * beta).
Proof. exact C59_margin_proof. Qed.
Print Assumptions C59_ts_margin.
Example C59_case : 0 <= 2. Proof. lra. Qed.

(** C78: equal players. *)
Theorem C78_ts_expected_swap_partial : forall m1 s1 m2 s2 dp beta tau, 0 < beta -> m1 <> m2 ->
  let cfg := ts_cfg dp beta tau in
  let '(e1, e2) := ts_expected_score (ts_in (m1, s1)) (ts_in (m2, s2)) cfg in
  ts_expected_score (ts_in (m2, s2)) (ts_in (m1, s1)) cfg = (e2, e1).
Proof. exact C78_swap_proof. Qed.
Print Assumptions C78_ts_expected_swap_partial.
Theorem C78_ts_expected_swap_refuted : forall m s1 s2 dp beta tau, 0 < beta ->
  exists e, ts_expected_score (ts_in (m, s1)) (ts_in (m, s2)) (ts_cfg dp beta tau) = (Fin e, Fin (1 - e)) /\
            ts_expected_score (ts_in (m, s2)) (ts_in (m, s1)) (ts_cfg dp beta tau) = (Fin e, Fin (1 - e)) /\ 1 - e < e < 1 - e + 0.0000002.
Proof. exact C78_refuted_proof. Qed.
Print Assumptions C78_ts_expected_swap_refuted.
Example C78_case : 0 < 25/6 /\ 25 <> 26. Proof. lra. Qed.
