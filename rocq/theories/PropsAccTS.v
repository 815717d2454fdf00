(** Property theorems in IEEE-754 double precision, continued (C103): how far
    the computed TrueSkill numbers are from the exact truncated Gaussian. *)
From Coq Require Import ZArith NArith List Bool Reals Lra Lia.
From Flocq Require Import Core.Raux IEEE754.BinarySingleNaN.
From Verif Require Import Arith B64 SpecB64 SpecAcc SpecNormal SpecTSN ModelLib Spec ModelTS
  MathB64 MathAcc ProofB64 ProofB64b ProofB64c MathAcc2 ProofAcc ProofAccTS3 ProofAccTS4.
Import ListNotations.
Local Open Scope R_scope.

(** C103: a decided game, a drawn game, and the expected scores. *)
Theorem C103_f64_ts_decided : forall L (r1 u1 r2 u2 dp beta tau : B64) o, exp_accurate L -> lnp_accurate L ->
  num_in (- 10 ^ 4) (10 ^ 4) r1 -> num_in (- 10 ^ 4) (10 ^ 4) r2 -> num_in (/ 1000) 100 u1 -> num_in (/ 1000) 100 u2 ->
  num_in 0.01 0.99 dp -> num_in 1 100 beta -> num_in 0 100 tau -> B2R tau <= B2R beta -> o <> DRAW ->
  let m1 := B2R r1 in let m2 := B2R r2 in let s1 := B2R u1 in let s2 := B2R u2 in let b := B2R beta in
  let c := sqrt (s1 ^ 2 + s2 ^ 2 + 2 * b ^ 2) in let t := (m1 - m2) / c in let S1 := s1 ^ 2 + B2R tau ^ 2 in let S2 := s2 ^ 2 + B2R tau ^ 2 in
  Rabs (m1 - m2) <= 22 * c ->
  let g := trueskill (A := B64A L) (mkTS r1 u1) (mkTS r2 u2) o (mkTSConfig dp beta tau) in
  exists x, 0 <= x /\ Rabs (Ncdf x - Ncdf (- x) - B2R dp) <= 0.0000121 /\
    let e := x * sqrt 2 * b in let v := tsN_v o t (e / c) in let w := tsN_w o t (e / c) in
    near (ts_rating (fst g)) (m1 + S1 / c * v) (0.0000105 * Rabs (S1 / c * v) + 3 / 10 ^ 12) /\
    near (ts_rating (snd g)) (m2 - S2 / c * v) (0.0000105 * Rabs (S2 / c * v) + 3 / 10 ^ 12) /\
    num_in (/ 10 ^ 6) 150 (ts_uncertainty (fst g)) /\ num_in (/ 10 ^ 6) 150 (ts_uncertainty (snd g)) /\
    Rabs (B2R (ts_uncertainty (fst g)) ^ 2 - S1 * (1 - w * S1 / c ^ 2)) <= 0.000203 * (S1 ^ 2 / c ^ 2) + 2 / 10 ^ 15 * S1 /\
    Rabs (B2R (ts_uncertainty (snd g)) ^ 2 - S2 * (1 - w * S2 / c ^ 2)) <= 0.000203 * (S2 ^ 2 / c ^ 2) + 2 / 10 ^ 15 * S2.
Proof. exact C103_decided_proof. Qed.
Print Assumptions C103_f64_ts_decided.
Theorem C103_f64_ts_draw : forall L (r1 u1 r2 u2 dp beta tau : B64), exp_accurate L -> lnp_accurate L ->
  num_in (- 10 ^ 4) (10 ^ 4) r1 -> num_in (- 10 ^ 4) (10 ^ 4) r2 -> num_in (/ 1000) 100 u1 -> num_in (/ 1000) 100 u2 ->
  num_in 0.01 0.99 dp -> num_in 1 100 beta -> num_in 0 100 tau -> B2R tau <= B2R beta ->
  let m1 := B2R r1 in let m2 := B2R r2 in let s1 := B2R u1 in let s2 := B2R u2 in let b := B2R beta in
  let c := sqrt (s1 ^ 2 + s2 ^ 2 + 2 * b ^ 2) in let t := (m1 - m2) / c in let S1 := s1 ^ 2 + B2R tau ^ 2 in let S2 := s2 ^ 2 + B2R tau ^ 2 in
  Rabs (m1 - m2) <= 10 * c -> s1 ^ 2 + s2 ^ 2 <= 2 * (1400 * B2R dp ^ 2 - 1) * b ^ 2 ->
  let g := trueskill (A := B64A L) (mkTS r1 u1) (mkTS r2 u2) DRAW (mkTSConfig dp beta tau) in
  exists x, 0 <= x /\ Rabs (Ncdf x - Ncdf (- x) - B2R dp) <= 0.0000121 /\
    let e := x * sqrt 2 * b in let v := vdrawN t (e / c) in let w := wdrawN t (e / c) in
    near (ts_rating (fst g)) (m1 + S1 / c * v) (S1 / c * (0.0000187 * Rabs v + 1 / 10 ^ 7) + 3 / 10 ^ 12) /\
    near (ts_rating (snd g)) (m2 - S2 / c * v) (S2 / c * (0.0000187 * Rabs v + 1 / 10 ^ 7) + 3 / 10 ^ 12) /\
    num_in (/ 10 ^ 6) 150 (ts_uncertainty (fst g)) /\ num_in (/ 10 ^ 6) 150 (ts_uncertainty (snd g)) /\
    Rabs (B2R (ts_uncertainty (fst g)) ^ 2 - S1 * (1 - w * S1 / c ^ 2)) <= 0.000203 * (S1 ^ 2 / c ^ 2) + 2 / 10 ^ 15 * S1 /\
    Rabs (B2R (ts_uncertainty (snd g)) ^ 2 - S2 * (1 - w * S2 / c ^ 2)) <= 0.000203 * (S2 ^ 2 / c ^ 2) + 2 / 10 ^ 15 * S2.
Proof. exact C103_draw_proof. Qed.
Print Assumptions C103_f64_ts_draw.
Theorem C103_f64_ts_expected : forall L (r1 u1 r2 u2 dp beta tau : B64), exp_accurate L ->
  num_in (- 10 ^ 4) (10 ^ 4) r1 -> num_in (- 10 ^ 4) (10 ^ 4) r2 -> num_in (/ 1000) 100 u1 -> num_in (/ 1000) 100 u2 -> num_in 1 100 beta ->
  let m1 := B2R r1 in let m2 := B2R r2 in let c := sqrt (B2R u1 ^ 2 + B2R u2 ^ 2 + 2 * B2R beta ^ 2) in let p := Ncdf ((m1 - m2) / c) in
  Rabs (m1 - m2) <= 22 * c ->
  let e := ts_expected_score (A := B64A L) (mkTS r1 u1) (mkTS r2 u2) (mkTSConfig dp beta tau) in
  near (fst e) p (0.0000104 * p) /\ near (snd e) (1 - p) (0.0000104 * (1 - p) + 5 / 10 ^ 12).
Proof. exact C103_expected_proof. Qed.
Print Assumptions C103_f64_ts_expected.

(** The correctly rounded libm meets the contracts. *)
Example C103_libm_case : exp_accurate libm_rounded /\ lnp_accurate libm_rounded.
Proof. exact (conj libm_exp_accurate libm_lnp_accurate). Qed.
(** Ratings 25 and 30, uncertainties 8 and 2, a draw probability of 0.1, beta 4 and tau 1: both games are covered. *)
Example C103_case : num_in (- 10 ^ 4) (10 ^ 4) (b64_of_Z 25) /\ num_in (- 10 ^ 4) (10 ^ 4) (b64_of_Z 30) /\
  num_in (/ 1000) 100 (b64_of_Z 8) /\ num_in (/ 1000) 100 (b64_of_Z 2) /\ num_in 0.01 0.99 (b64_lit 1 10) /\
  num_in 1 100 (b64_of_Z 4) /\ num_in 0 100 (b64_of_Z 1) /\ B2R (b64_of_Z 1) <= B2R (b64_of_Z 4) /\
  let c := sqrt (B2R (b64_of_Z 8) ^ 2 + B2R (b64_of_Z 2) ^ 2 + 2 * B2R (b64_of_Z 4) ^ 2) in
  Rabs (B2R (b64_of_Z 25) - B2R (b64_of_Z 30)) <= 10 * c /\ Rabs (B2R (b64_of_Z 25) - B2R (b64_of_Z 30)) <= 22 * c /\
  B2R (b64_of_Z 8) ^ 2 + B2R (b64_of_Z 2) ^ 2 <= 2 * (1400 * B2R (b64_lit 1 10) ^ 2 - 1) * B2R (b64_of_Z 4) ^ 2.
Proof.
  assert (E : forall z, (Z.abs z <= 2 ^ 53)%Z -> finite (b64_of_Z z) /\ B2R (b64_of_Z z) = IZR z).
  { intros z Hz. destruct (ext_ofZ z Hz) as [F E]. split; [exact F|]. rewrite <- (ext_fin _ F). exact E. }
  assert (H : forall z lo hi, (Z.abs z <= 2 ^ 53)%Z -> lo <= IZR z <= hi -> num_in lo hi (b64_of_Z z)) by (intros z lo hi Hz B; destruct (E z Hz) as [F G]; split; [exact F|rewrite G; exact B]).
  assert (D : num_in 0.099 0.101 (b64_lit 1 10)).
  { destruct (lit_ap 1 10 1 ltac:(discriminate) ltac:(reflexivity) ltac:(rewrite Rabs_pos_eq; lra) ltac:(okb)) as [F A].
    rewrite (ext_fin _ F) in A. apply Rabs_le_inv in A. assert (u0 <= / 10 ^ 9) by (unfold u0; simpl; lra). split; [exact F|lra]. }
  destruct D as [FD D]. rewrite (proj2 (E 25%Z ltac:(vm_compute; discriminate))), (proj2 (E 30%Z ltac:(vm_compute; discriminate))).
  rewrite (proj2 (E 8%Z ltac:(vm_compute; discriminate))), (proj2 (E 2%Z ltac:(vm_compute; discriminate))), (proj2 (E 4%Z ltac:(vm_compute; discriminate))), (proj2 (E 1%Z ltac:(vm_compute; discriminate))).
  assert (C : 10 <= sqrt (8 ^ 2 + 2 ^ 2 + 2 * 4 ^ 2)) by (rewrite <- (sqrt_square 10) by lra; apply sqrt_le_1; lra).
  repeat match goal with |- num_in _ _ (b64_of_Z _) => apply H; [vm_compute; discriminate|lra] | |- let _ := _ in _ => intro | |- _ /\ _ => split end;
    try lra; try (split; [exact FD|lra]); try (unfold c; apply Rabs_le; lra). assert (0.099 ^ 2 <= B2R (b64_lit 1 10) ^ 2) by (apply pow_incr; lra). lra.
Qed.
