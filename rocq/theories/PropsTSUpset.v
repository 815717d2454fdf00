(** TrueSkill: decided games - the variance correction, the closed form of trueskill_multi_team and huge upsets. *)
From Coq Require Import ZArith NArith List Bool Reals Lra Lia.
From Verif Require Import Arith XR ModelLib ModelWengLin ModelTS ModelTSGraph Spec SpecTS SpecInTS MathTS ProofTS ProofTSTwo ProofTSTwoTop ProofTSUpset.
Import ListNotations.
Local Open Scope R_scope.

(** C58: the uncertainty after a decided game. *)
Theorem C58_ts_decided_partial : forall m1 s1 m2 s2 o dp beta tau, 0 < s1 -> 0 < s2 -> o <> DRAW -> tau ^ 2 <= 2 * beta ^ 2 ->
  let '(n1, n2) := trueskill (ts_in (m1, s1)) (ts_in (m2, s2)) o (ts_cfg dp beta tau) in
  exists u1 u2, ts_uncertainty n1 = Fin u1 /\ ts_uncertainty n2 = Fin u2 /\
    0 < u1 <= sqrt (s1 ^ 2 + tau ^ 2) /\ 0 < u2 <= sqrt (s2 ^ 2 + tau ^ 2).
Proof. exact C58_player_proof. Qed.
Print Assumptions C58_ts_decided_partial.
Theorem C58_ts_decided_team_partial : forall t1 t2 o dp beta tau, wl_ok t1 -> wl_ok t2 -> o <> DRAW ->
  let C := INR (length t1 + length t2) * beta ^ 2 + side_var t1 + side_var t2 in
  let good p r := snd p ^ 2 + tau ^ 2 <= C ->
    exists u, ts_uncertainty r = Fin u /\ 0 <= u <= sqrt (snd p ^ 2 + tau ^ 2) /\ (snd p ^ 2 + tau ^ 2 < C -> 0 < u) in
  let '(r1, r2) := trueskill_two_teams (tst_in t1) (tst_in t2) o (ts_cfg dp beta tau) in
  Forall2 good t1 r1 /\ Forall2 good t2 r2.
Proof. exact C58_decided_proof. Qed.
Print Assumptions C58_ts_decided_team_partial.
Example C58_decided_case : 0 < 25/3 /\ LOSS <> DRAW /\ (25/300) ^ 2 <= 2 * (25/6) ^ 2 /\
  let t1 := [(25, 25/3); (30, 4)] in let t2 := [(20, 3)] in
  wl_ok t1 /\ wl_ok t2 /\ (25/3) ^ 2 + (25/300) ^ 2 < INR (length t1 + length t2) * (25/6) ^ 2 + side_var t1 + side_var t2.
Proof.
  split; [lra|]. split; [discriminate|]. split; [lra|]. cbv zeta. unfold wl_ok.
  repeat split; try discriminate; try (repeat constructor; cbn; lra).
Qed.

(** C53: decided games of two teams. *)
Theorem C53_ts_graph_two_decided_partial : forall (t1 t2 : list wpl) k1 k2 dp beta tau,
  t1 <> [] -> t2 <> [] -> Forall (fun x : wpl => 0 < snd (fst x) /\ 0 < snd x) (t1 ++ t2) -> k1 <> k2 ->
  let c := sqrt (w_var beta tau (t1 ++ t2)) in let t := (w_mean t1 - w_mean t2) / c in let o := rank_outcome k1 k2 in
  exists e, ts_draw_margin (Fin dp) (Fin beta) (Fin (INR (length t1 + length t2))) = Fin e /\
  (tiny <= Phi ((if N.ltb k1 k2 then t else - t) - e / c) ->
   trueskill_multi_team [tsr_in (map fst t1, k1); tsr_in (map fst t2, k2)] (ts_cfg dp beta tau) (Some [map Fin (map snd t1); map Fin (map snd t2)]) =
   Ok [map (w_out tau c (ts_v o t (e / c)) (ts_w o t (e / c))) t1; map (w_out tau c (- ts_v o t (e / c)) (ts_w o t (e / c))) t2]).
Proof. exact C53_decided_proof. Qed.
Print Assumptions C53_ts_graph_two_decided_partial.
Theorem C53_ts_graph_huge_upset_refuted : forall dp beta tau s1 s2, 0 < s1 -> 0 < s2 ->
  exists m1 m2 u1 u2, trueskill_multi_team [tsr_in ([(m1, s1)], 1%N); tsr_in ([(m2, s2)], 2%N)] (ts_cfg dp beta tau) None =
    Ok [[mkTS NaN (Fin u1)]; [mkTS NaN (Fin u2)]].
Proof. exact C53_refuted_proof. Qed.
Print Assumptions C53_ts_graph_huge_upset_refuted.
(** Every game in which the winner was at least as strong by the draw margin qualifies. *)
Example C53_decided_case : forall t e c, 0 < c -> e <= t -> tiny <= Phi (t / c - e / c).
Proof.
  intros t e c Hc H. apply Rle_trans with (1 / 4).
  - pose proof tiny_small. lra.
  - assert (0 <= t / c - e / c). { replace (t / c - e / c) with ((t - e) / c) by (unfold Rdiv; ring). apply Rmult_le_pos; [lra|]. now apply Rlt_le, Rinv_0_lt_compat. }
    pose proof (Phi_pos_ge _ H0). lra.
Qed.

(** C84: decided games of two teams by both functions. *)
Theorem C84_ts_two_team_decided_partial : forall (t1 t2 : list (R * R)) k1 k2 dp beta,
  t1 <> [] -> t2 <> [] -> Forall (fun p => 0 < snd p) (t1 ++ t2) -> k1 <> k2 ->
  let n := INR (length t1 + length t2) in
  let c := sqrt (n * beta ^ 2 + side_var t1 + side_var t2) in let t := (side_mu t1 - side_mu t2) / c in
  exists e, ts_draw_margin (Fin dp) (Fin beta) (Fin n) = Fin e /\
  (tiny <= Phi ((if N.ltb k1 k2 then t else - t) - e / c) ->
   let '(r1, r2) := trueskill_two_teams (tst_in t1) (tst_in t2) (if N.ltb k1 k2 then WIN else LOSS) (ts_cfg dp beta 0) in
   trueskill_multi_team [tsr_in (t1, k1); tsr_in (t2, k2)] (ts_cfg dp beta 0) None = Ok [r1; r2]).
Proof. exact C84_decided_proof. Qed.
Print Assumptions C84_ts_two_team_decided_partial.
Example C84_decided_case : Forall (fun p => 0 < snd p) ([(25, 25/3); (20, 1)] ++ [(30, 3)]) /\ 3%N <> 7%N.
Proof. split; [|discriminate]. repeat constructor; cbn; lra. Qed.
