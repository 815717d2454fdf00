(** How certain a rating can become over a whole career. *)
From Coq Require Import ZArith NArith List Bool Reals Lra Lia.
From Verif Require Import Arith XR ModelLib ModelGlicko ModelSticko ModelTS ModelWengLin Spec SpecIn SpecTS SpecInTS ProofElo ProofAcc ProofTS ProofFloor.
Import Spec ListNotations.
Local Open Scope R_scope.

(** C124: with at most m games per rating period the deviation of a Glicko
    player never falls below F, whatever the opponents and the results are, for
    every F that one best possible period does not lower. *)
Theorem C124_glicko_floor : forall r RD c m F career, 0 < F <= RD -> List.Forall (fun rs => (length rs <= m)%nat) career ->
  / Rmin (F ^ 2 + c ^ 2) (350 ^ 2) + INR m * (gq ^ 2 / 4) <= / F ^ 2 ->
  exists r' d, fold_left (fun p rs => glicko_rating_period p (map (fun '(rj, RDj, o) => (mkGlicko (Fin rj) (Fin RDj), o)) rs) (mkGlickoConfig (Fin c))) career
    (mkGlicko (Fin r) (Fin RD)) = mkGlicko (Fin r') (Fin d) /\ F <= d.
Proof. exact C124_glicko_proof. Qed.
Print Assumptions C124_glicko_floor.
(** The largest such F has a closed form ... *)
Theorem C124_glicko_floor_value : forall c m, 0 < c -> (1 <= m)%nat ->
  let k := INR m * (gq ^ 2 / 4) in let F := sqrt (c ^ 2 / 2 * (sqrt (1 + 4 / (k * c ^ 2)) - 1)) in 0 < F /\ / (F ^ 2 + c ^ 2) + k = / F ^ 2.
Proof. exact C124_floor_value_proof. Qed.
Print Assumptions C124_glicko_floor_value.
(** ... and is the limit: m draws per period against equal opponents of
    deviation 0 approach it geometrically, from above. *)
Theorem C124_glicko_floor_sharp : forall r RD c m F n, (1 <= m)%nat -> 0 < F <= RD -> RD <= 350 -> F ^ 2 + c ^ 2 <= 350 ^ 2 -> / (F ^ 2 + c ^ 2) + INR m * (gq ^ 2 / 4) = / F ^ 2 ->
  exists d, Nat.iter n (fun p => glicko_rating_period p (repeat (mkGlicko (Fin r) (Fin 0), DRAW) m) (mkGlickoConfig (Fin c))) (mkGlicko (Fin r) (Fin RD)) = mkGlicko (Fin r) (Fin d) /\
    F <= d <= 350 /\ d ^ 2 - F ^ 2 <= (RD ^ 2 - F ^ 2) / (1 + INR m * (gq ^ 2 / 4) * c ^ 2) ^ (2 * n).
Proof. exact C124_glicko_sharp_proof. Qed.
Print Assumptions C124_glicko_floor_sharp.
(** With the default settings and one call of glicko() per game the deviation
    never falls below 141. *)
Theorem C124_glicko_default_floor : forall r RD games, 141 <= RD -> List.Forall (fun g : R * R * Outcomes => 0 < snd (fst g)) games ->
  exists r' d, fold_left (fun p '(rj, RDj, o) => fst (glicko p (mkGlicko (Fin rj) (Fin RDj)) o glicko_config_new)) games (mkGlicko (Fin r) (Fin RD)) = mkGlicko (Fin r') (Fin d) /\ 141 <= d.
Proof. exact C124_glicko_default_proof. Qed.
Print Assumptions C124_glicko_default_floor.
Theorem C124_sticko_floor : forall r RD h beta lambda gamma c m F career, 0 <= h -> 0 < F <= RD -> List.Forall (fun rs => (length rs <= m)%nat) career ->
  / (Rmin (F ^ 2 + c ^ 2) (350 ^ 2) + h) + INR m * (gq ^ 2 / 4) <= / F ^ 2 -> F ^ 2 <= Rmin (F ^ 2 + c ^ 2) (350 ^ 2) ->
  exists r' d, fold_left (fun p rs => sticko_rating_period p (map (fun '(rj, RDj, o, white) => (mkSticko (Fin rj) (Fin RDj), o, white)) rs)
      (mkStickoConfig (Fin h) (Fin beta) (Fin lambda) (Fin gamma) (Fin c))) career (mkSticko (Fin r) (Fin RD)) = mkSticko (Fin r') (Fin d) /\ F <= d.
Proof. exact C124_sticko_proof. Qed.
Print Assumptions C124_sticko_floor.
(** TrueSkill, decided games: tau keeps the uncertainty up. *)
Theorem C124_trueskill_floor : forall m s dp beta tau F games, 0 < F <= s -> tau ^ 2 <= 2 * beta ^ 2 -> F ^ 2 * (F ^ 2 + tau ^ 2) <= tau ^ 2 * (2 * beta ^ 2 - tau ^ 2) ->
  List.Forall (fun g : R * R * Outcomes => 0 < snd (fst g) /\ snd g <> DRAW) games ->
  exists m' u, trueskill_rating_period (ts_in (m, s)) (map (fun '(mj, sj, o) => (ts_in (mj, sj), o)) games) (ts_cfg dp beta tau) = ts_in (m', u) /\ F <= u.
Proof. exact C124_ts_proof. Qed.
Print Assumptions C124_trueskill_floor.
Theorem C124_trueskill_default_floor : forall m s games, 0.69 <= s -> List.Forall (fun g : R * R * Outcomes => 0 < snd (fst g) /\ snd g <> DRAW) games ->
  exists m' u, trueskill_rating_period (ts_in (m, s)) (map (fun '(mj, sj, o) => (ts_in (mj, sj), o)) games) ts_config_new = ts_in (m', u) /\ 0.69 <= u.
Proof. exact C124_ts_default_proof. Qed.
Print Assumptions C124_trueskill_default_floor.
(** Weng-Lin has no such floor: draws between equals drive the uncertainty below
    every positive bound. *)
Theorem C124_weng_lin_no_floor : forall m s s2 beta kappa eps, 0 < s -> 0 < s2 -> 0 < kappa <= 3 / 4 -> 0 < eps ->
  exists N, forall n, (N <= n)%nat -> exists u,
    weng_lin_rating_period (mkWL (Fin m) (Fin s)) (repeat (mkWL (Fin m) (Fin s2), DRAW) n) (mkWLConfig (Fin beta) (Fin kappa)) = mkWL (Fin m) (Fin u) /\ 0 < u < eps.
Proof. exact C124_wl_proof. Qed.
Print Assumptions C124_weng_lin_no_floor.

(* 63.2 per period and five games per period: no deviation below 89. *)
Example C124_glicko_case : 0 < 89 <= 350 /\ / Rmin (89 ^ 2 + 63.2 ^ 2) (350 ^ 2) + INR 5 * (gq ^ 2 / 4) <= / 89 ^ 2.
Proof. split; [lra|]. rewrite Rmin_left by lra. pose proof gq_rng as Q. assert (gq ^ 2 <= 0.00576 ^ 2) by (apply pow_incr; lra). replace (INR 5) with 5 by (simpl; lra). lra. Qed.
(* The floor of the default setting with one game per period meets the
   hypotheses of the sharpness theorem. *)
Example C124_sharp_case : exists F, 0 < F <= 350 /\ F ^ 2 + 63.2 ^ 2 <= 350 ^ 2 /\ / (F ^ 2 + 63.2 ^ 2) + INR 1 * (gq ^ 2 / 4) = / F ^ 2.
Proof.
  destruct (floor_value 63.2 1 ltac:(lra) (le_n 1)) as [P E]. cbv zeta in P, E. set (F := sqrt _) in *. exists F.
  assert (B : F ^ 2 + 63.2 ^ 2 <= 350 ^ 2).
  { apply Rnot_lt_le. intro C. assert (F2 : 0 < F ^ 2) by (apply pow_lt; auto). pose proof gq_rng as Q. assert (Q2 : 0.00575 ^ 2 <= gq ^ 2) by (apply pow_incr; lra). cbn [INR] in E.
    assert (E1 : / F ^ 2 - / (F ^ 2 + 63.2 ^ 2) = 63.2 ^ 2 * (/ F ^ 2 * / (F ^ 2 + 63.2 ^ 2))) by (field; lra).
    assert (I1 : / F ^ 2 <= / 118505) by (apply Rinv_le_contravar; lra). assert (I2 : / (F ^ 2 + 63.2 ^ 2) <= / 122500) by (apply Rinv_le_contravar; lra).
    assert (0 < / (F ^ 2 + 63.2 ^ 2)) by (apply Rinv_0_lt_compat; lra). assert (0 < / F ^ 2) by (apply Rinv_0_lt_compat; lra).
    assert (/ F ^ 2 * / (F ^ 2 + 63.2 ^ 2) <= / 118505 * / 122500) by (apply Rmult_le_compat; lra). lra. }
  split; [|split; [exact B|exact E]]. split; [exact P|]. apply Rnot_lt_le. intro C. assert (350 ^ 2 < F ^ 2) by (apply pow_lt_l || (replace (350 ^ 2) with (350 * 350) by ring; replace (F ^ 2) with (F * F) by ring; apply Rmult_le_0_lt_compat; lra)). lra.
Qed.
Example C124_default_case : 141 <= 350 /\ List.Forall (fun g : R * R * Outcomes => 0 < snd (fst g)) [(1500, 350, WIN); (1800, 60, DRAW)].
Proof. split; [lra|]. repeat constructor; cbn; lra. Qed.
Example C124_sticko_case : 0 <= 10 /\ 0 < 40 <= 350 /\ / (Rmin (40 ^ 2 + 10 ^ 2) (350 ^ 2) + 10) + INR 1 * (gq ^ 2 / 4) <= / 40 ^ 2 /\ 40 ^ 2 <= Rmin (40 ^ 2 + 10 ^ 2) (350 ^ 2).
Proof. rewrite Rmin_left by lra. pose proof gq_rng as Q. assert (gq ^ 2 <= 0.00576 ^ 2) by (apply pow_incr; lra). replace (INR 1) with 1 by (simpl; lra). repeat split; lra. Qed.
Example C124_trueskill_case : 0 < 0.69 <= 25 / 3 /\ (25 / 300) ^ 2 <= 2 * (25 / 6) ^ 2 /\ 0.69 ^ 2 * (0.69 ^ 2 + (25 / 300) ^ 2) <= (25 / 300) ^ 2 * (2 * (25 / 6) ^ 2 - (25 / 300) ^ 2).
Proof. repeat split; lra. Qed.
Example C124_weng_lin_case : 0 < 25 / 3 /\ 0 < 1 / 10000 <= 3 / 4 /\ 0 < 0.01.
Proof. repeat split; lra. Qed.
