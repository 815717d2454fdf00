(** TrueSkill: drawn games - the variance correction and the closed form of trueskill_multi_team. *)
From Coq Require Import ZArith NArith List Bool Reals Lra Lia.
From Verif Require Import Arith XR ModelLib ModelWengLin ModelTS ModelTSGraph Spec SpecTS SpecInTS MathTS MathTSAcc ProofTS ProofTSTwo ProofTSTwoTop ProofTSAcc ProofTSDraw ProofTSDraw2.
Import ListNotations.
Local Open Scope R_scope.

(** C58: the uncertainty after a draw. *)
Theorem C58_ts_draw_partial : forall m1 s1 m2 s2 dp beta tau, 0 < s1 -> 0 < s2 -> 0.01 <= dp <= 1 -> 0 < beta ->
  s1 ^ 2 + s2 ^ 2 <= 2 * (1400 * dp ^ 2 - 1) * beta ^ 2 -> tau ^ 2 <= 2 * beta ^ 2 ->
  let '(n1, n2) := trueskill (ts_in (m1, s1)) (ts_in (m2, s2)) DRAW (ts_cfg dp beta tau) in
  exists u1 u2, ts_uncertainty n1 = Fin u1 /\ ts_uncertainty n2 = Fin u2 /\
    0 < u1 <= sqrt (s1 ^ 2 + tau ^ 2) /\ 0 < u2 <= sqrt (s2 ^ 2 + tau ^ 2).
Proof. exact C58_draw_player_proof. Qed.
Print Assumptions C58_ts_draw_partial.
Theorem C58_ts_draw_team_partial : forall t1 t2 dp beta tau, wl_ok t1 -> wl_ok t2 -> 0.01 <= dp <= 1 -> 0 < beta ->
  let n := INR (length t1 + length t2) in
  side_var t1 + side_var t2 <= n * (1400 * dp ^ 2 - 1) * beta ^ 2 ->
  let C := n * beta ^ 2 + side_var t1 + side_var t2 in
  let good p r := snd p ^ 2 + tau ^ 2 <= C ->
    exists u, ts_uncertainty r = Fin u /\ 0 <= u <= sqrt (snd p ^ 2 + tau ^ 2) /\ (snd p ^ 2 + tau ^ 2 < C -> 0 < u) in
  let '(r1, r2) := trueskill_two_teams (tst_in t1) (tst_in t2) DRAW (ts_cfg dp beta tau) in
  Forall2 good t1 r1 /\ Forall2 good t2 r2.
Proof. exact C58_draw_proof. Qed.
Print Assumptions C58_ts_draw_team_partial.
Theorem C58_ts_draw_refuted : forall dp beta, 0.01 <= dp <= 1 -> 0 < beta -> exists s, 0 < s /\ forall m tau,
  let '(n1, n2) := trueskill (ts_in (m, s)) (ts_in (m, s)) DRAW (ts_cfg dp beta tau) in ts_uncertainty n1 = NaN /\ ts_uncertainty n2 = NaN.
Proof. exact C58_draw_refuted_proof. Qed.
Print Assumptions C58_ts_draw_refuted.
(** The default configuration with fresh players. *)
Example C58_draw_case : 0.01 <= 0.1 <= 1 /\ (25/3) ^ 2 + (25/3) ^ 2 <= 2 * (1400 * 0.1 ^ 2 - 1) * (25/6) ^ 2 /\ (25/300) ^ 2 <= 2 * (25/6) ^ 2 /\
  let t1 := [(25, 25/3); (30, 4)] in let t2 := [(20, 3)] in
  wl_ok t1 /\ wl_ok t2 /\ side_var t1 + side_var t2 <= INR (length t1 + length t2) * (1400 * 0.1 ^ 2 - 1) * (25/6) ^ 2 /\
  (25/3) ^ 2 + (25/300) ^ 2 < INR (length t1 + length t2) * (25/6) ^ 2 + side_var t1 + side_var t2.
Proof.
  split; [lra|]. split; [lra|]. split; [lra|]. cbv zeta. unfold wl_ok.
  repeat split; try discriminate; try (repeat constructor; cbn; lra).
  all: unfold side_var, Rsum; cbn; lra.
Qed.

(** C53: drawn games of two teams. *)
Theorem C53_ts_graph_two_drawn_partial : forall (t1 t2 : list wpl) k dp beta tau,
  t1 <> [] -> t2 <> [] -> Forall (fun x : wpl => 0 < snd (fst x) /\ 0 < snd x) (t1 ++ t2) ->
  let c := sqrt (w_var beta tau (t1 ++ t2)) in let t := (w_mean t1 - w_mean t2) / c in
  exists e, ts_draw_margin (Fin dp) (Fin beta) (Fin (INR (length t1 + length t2))) = Fin e /\
  (1 / 30 <= e / c -> tiny <= drawnorm t (e / c) ->
   trueskill_multi_team [tsr_in (map fst t1, k); tsr_in (map fst t2, k)] (ts_cfg dp beta tau) (Some [map Fin (map snd t1); map Fin (map snd t2)]) =
   Ok [map (w_out tau c (vdraw t (e / c)) (wdraw t (e / c))) t1; map (w_out tau c (- vdraw t (e / c)) (wdraw t (e / c))) t2]).
Proof. exact C53_draw_proof. Qed.
Print Assumptions C53_ts_graph_two_drawn_partial.
(** Evenly matched teams qualify. *)
Example C53_drawn_case : forall e c, 0 < c -> c <= 30 * e -> 1 / 30 <= e / c /\ tiny <= drawnorm 0 (e / c).
Proof.
  intros e c Hc H. assert (K : 1 / 30 <= e / c) by (apply Rmult_le_reg_r with c; auto; unfold Rdiv; rewrite (Rmult_assoc e), Rinv_l by lra; lra).
  split; auto. apply drawnorm_near; lra.
Qed.

(** C84: drawn games of two teams by both functions. *)
Theorem C84_ts_two_team_drawn_partial : forall (t1 t2 : list (R * R)) k dp beta,
  t1 <> [] -> t2 <> [] -> Forall (fun p => 0 < snd p) (t1 ++ t2) -> 0.01 <= dp <= 1 -> 0 < beta ->
  let n := INR (length t1 + length t2) in
  let c := sqrt (n * beta ^ 2 + side_var t1 + side_var t2) in let t := (side_mu t1 - side_mu t2) / c in
  side_var t1 + side_var t2 <= n * (1400 * dp ^ 2 - 1) * beta ^ 2 ->
  exists e, ts_draw_margin (Fin dp) (Fin beta) (Fin n) = Fin e /\
  (tiny <= drawnorm t (e / c) ->
   let '(r1, r2) := trueskill_two_teams (tst_in t1) (tst_in t2) DRAW (ts_cfg dp beta 0) in
   trueskill_multi_team [tsr_in (t1, k); tsr_in (t2, k)] (ts_cfg dp beta 0) None = Ok [r1; r2]).
Proof. exact C84_draw_proof. Qed.
Print Assumptions C84_ts_two_team_drawn_partial.
Example C84_drawn_case : let t1 := [(25, 25/3); (20, 1)] in let t2 := [(45, 3)] in
  Forall (fun p => 0 < snd p) (t1 ++ t2) /\ side_mu t1 - side_mu t2 = 0 /\
  side_var t1 + side_var t2 <= INR (length t1 + length t2) * (1400 * 0.1 ^ 2 - 1) * (25/6) ^ 2.
Proof.
  cbv zeta. split; [repeat constructor; cbn; lra|]. split; [unfold side_mu, Rsum; cbn; lra|]. unfold side_var, Rsum. cbn. lra.
Qed.
