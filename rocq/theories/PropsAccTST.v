(** Property theorems in IEEE-754 double precision, continued (C119): how far
    TrueSkill's updates, expected scores and match qualities of teams are from
    the exact truncated Gaussian. *)
From Coq Require Import ZArith NArith List Bool Reals Lra Lia.
From Flocq Require Import Core.Raux IEEE754.BinarySingleNaN.
From Verif Require Import Arith XR B64 SpecB64 SpecAcc SpecNormal SpecTSN SpecAcc6 ModelLib Spec ModelTS
  MathB64 MathAcc ProofB64 ProofB64b ProofB64c MathAcc2 ProofAcc ProofAccTST ProofAccTST2 ProofAccTST3.
Import ListNotations.
Local Open Scope R_scope.

(** C119: two teams (decided, drawn, expected scores), many teams, match quality. *)
Theorem C119_f64_ts_teams_decided : forall L (n : nat) M (t1 t2 : list (TrueSkillRating B64)) (dp beta tau : B64) o, exp_accurate L -> lnp_accurate L ->
  tst_size n M -> tst_usual n M t1 -> tst_usual n M t2 ->
  num_in 0.01 0.99 dp -> num_in 1 100 beta -> num_in 0 100 tau -> B2R tau <= B2R beta -> o <> DRAW ->
  let N := INR (length t1 + length t2) in let b := B2R beta in let c := tst_c N b t1 t2 in let t := (tst_sum t1 - tst_sum t2) / c in
  Rabs (tst_sum t1 - tst_sum t2) <= 22 * c ->
  let g := trueskill_two_teams (A := B64A L) t1 t2 o (mkTSConfig dp beta tau) in
  exists x, 0 <= x /\ Rabs (Ncdf x - Ncdf (- x) - B2R dp) <= 0.0000121 /\
    let e := x * sqrt N * b in let v := tsN_v o t (e / c) in let w := tsN_w o t (e / c) in
    tst_close (B2R tau) c v w 0.0000105 0 0.000203 t1 (fst g) /\ tst_close (B2R tau) c (- v) w 0.0000105 0 0.000203 t2 (snd g).
Proof. exact C119_decided_proof. Qed.
Print Assumptions C119_f64_ts_teams_decided.
Theorem C119_f64_ts_teams_draw : forall L (n : nat) M (t1 t2 : list (TrueSkillRating B64)) (dp beta tau : B64), exp_accurate L -> lnp_accurate L ->
  tst_size n M -> tst_usual n M t1 -> tst_usual n M t2 ->
  num_in 0.01 0.99 dp -> num_in 1 100 beta -> num_in 0 100 tau -> B2R tau <= B2R beta ->
  let N := INR (length t1 + length t2) in let b := B2R beta in let c := tst_c N b t1 t2 in let t := (tst_sum t1 - tst_sum t2) / c in
  Rabs (tst_sum t1 - tst_sum t2) <= 10 * c -> tst_var t1 + tst_var t2 <= N * (1400 * B2R dp ^ 2 - 1) * b ^ 2 ->
  let g := trueskill_two_teams (A := B64A L) t1 t2 DRAW (mkTSConfig dp beta tau) in
  exists x, 0 <= x /\ Rabs (Ncdf x - Ncdf (- x) - B2R dp) <= 0.0000121 /\
    let e := x * sqrt N * b in let v := vdrawN t (e / c) in let w := wdrawN t (e / c) in
    tst_close (B2R tau) c v w 0.0000187 (5 / 10 ^ 7) 0.00021 t1 (fst g) /\ tst_close (B2R tau) c (- v) w 0.0000187 (5 / 10 ^ 7) 0.00021 t2 (snd g).
Proof. exact C119_draw_proof. Qed.
Print Assumptions C119_f64_ts_teams_draw.
Theorem C119_f64_ts_teams_expected_two : forall L (n : nat) M (t1 t2 : list (TrueSkillRating B64)) (dp beta tau : B64), exp_accurate L ->
  tst_size n M -> tst_usual n M t1 -> tst_usual n M t2 -> num_in 1 100 beta ->
  let N := INR (length t1 + length t2) in let b := B2R beta in let c := tst_c N b t1 t2 in let p := tst_p N b t1 t2 in
  Rabs (tst_sum t1 - tst_sum t2) <= 22 * c ->
  let e := ts_expected_score_two_teams (A := B64A L) t1 t2 (mkTSConfig dp beta tau) in
  near (fst e) p (0.0000104 * p) /\ near (snd e) (1 - p) (0.0000104 * (1 - p) + 3 / 10 ^ 11).
Proof. exact C119_expected_two_proof. Qed.
Print Assumptions C119_f64_ts_teams_expected_two.
Theorem C119_f64_ts_teams_expected_multi : forall L (n : nat) M (ts : list (list (TrueSkillRating B64))) (dp beta tau : B64), exp_accurate L ->
  tst_size n M -> Forall (tst_usual n M) ts -> (2 <= length ts <= 30)%nat -> num_in 1 100 beta ->
  let b := B2R beta in let N := INR (list_sum (map (@length _) ts)) in let k := INR (length ts) in
  (forall t t', In t ts -> In t' ts -> Rabs (tst_sum t - tst_sum t') <= 22 * tst_c N b t t') ->
  Forall2 (fun i e => let q := rowN b (map (map ts_re) ts) i / (k * (k - 1) / 2) in near e q (0.000021 * q))
    (seq 0 (length ts)) (ts_expected_score_multi_team (A := B64A L) ts (mkTSConfig dp beta tau)).
Proof. exact C119_expected_multi_proof. Qed.
Print Assumptions C119_f64_ts_teams_expected_multi.
Theorem C119_f64_ts_quality : forall L (r1 u1 r2 u2 dp beta tau : B64), exp_accurate L ->
  num_in (- 10 ^ 4) (10 ^ 4) r1 -> num_in (- 10 ^ 4) (10 ^ 4) r2 -> num_in (/ 1000) 100 u1 -> num_in (/ 1000) 100 u2 -> num_in 1 100 beta ->
  let d := B2R r1 - B2R r2 in let b := B2R beta in let c2 := 2 * b ^ 2 + B2R u1 ^ 2 + B2R u2 ^ 2 in
  d ^ 2 <= 484 * c2 -> let q := sqrt (2 * b ^ 2 / c2) * exp (- d ^ 2 / (2 * c2)) in
  near (match_quality (A := B64A L) (mkTS r1 u1) (mkTS r2 u2) (mkTSConfig dp beta tau)) q (1 / 10 ^ 9 * q).
Proof. exact C119_quality_proof. Qed.
Print Assumptions C119_f64_ts_quality.
Theorem C119_f64_ts_quality_two : forall L (n : nat) M (t1 t2 : list (TrueSkillRating B64)) (dp beta tau : B64), exp_accurate L ->
  tst_size n M -> tst_usual n M t1 -> tst_usual n M t2 -> num_in 1 100 beta ->
  let N := INR (length t1 + length t2) in let b := B2R beta in let c := tst_c N b t1 t2 in
  Rabs (tst_sum t1 - tst_sum t2) <= 22 * c ->
  let q := sqrt (N * b ^ 2 / c ^ 2) * exp (- (tst_sum t1 - tst_sum t2) ^ 2 / (2 * c ^ 2)) in
  near (match_quality_two_teams (A := B64A L) t1 t2 (mkTSConfig dp beta tau)) q (1 / 10 ^ 9 * q).
Proof. exact C119_quality_two_proof. Qed.
Print Assumptions C119_f64_ts_quality_two.

(** Two players with ratings 25 and 30, uncertainties 8 and 2, against one with rating 20 and uncertainty 4; draw probability 0.1, beta 4 and tau 1. *)
Example C119_case : let t1 := [mkTS (b64_of_Z 25) (b64_of_Z 8); mkTS (b64_of_Z 30) (b64_of_Z 2)] in let t2 := [mkTS (b64_of_Z 20) (b64_of_Z 4)] in
  tst_size 2 100 /\ tst_usual 2 100 t1 /\ tst_usual 2 100 t2 /\ num_in 0.01 0.99 (b64_lit 1 10) /\
  num_in 1 100 (b64_of_Z 4) /\ num_in 0 100 (b64_of_Z 1) /\ B2R (b64_of_Z 1) <= B2R (b64_of_Z 4) /\
  let N := INR (length t1 + length t2) in let c := tst_c N (B2R (b64_of_Z 4)) t1 t2 in
  Rabs (tst_sum t1 - tst_sum t2) <= 10 * c /\ Rabs (tst_sum t1 - tst_sum t2) <= 22 * c /\
  tst_var t1 + tst_var t2 <= N * (1400 * B2R (b64_lit 1 10) ^ 2 - 1) * B2R (b64_of_Z 4) ^ 2.
Proof.
  assert (E : forall z, (Z.abs z <= 2 ^ 53)%Z -> finite (b64_of_Z z) /\ B2R (b64_of_Z z) = IZR z).
  { intros z Hz. destruct (ext_ofZ z Hz) as [F E]. split; [exact F|]. rewrite <- (ext_fin _ F). exact E. }
  assert (H : forall z lo hi, (Z.abs z <= 2 ^ 53)%Z -> lo <= IZR z <= hi -> num_in lo hi (b64_of_Z z)) by (intros z lo hi Hz B; destruct (E z Hz) as [F G]; split; [exact F|rewrite G; exact B]).
  assert (D : num_in 0.099 0.101 (b64_lit 1 10)).
  { destruct (lit_ap 1 10 1 ltac:(discriminate) ltac:(reflexivity) ltac:(rewrite Rabs_pos_eq; lra) ltac:(okb)) as [F A].
    rewrite (ext_fin _ F) in A. apply Rabs_le_inv in A. assert (u0 <= / 10 ^ 9) by (unfold u0; simpl; lra). split; [exact F|lra]. }
  destruct D as [FD D]. intros t1 t2.
  assert (ES : tst_sum t1 - tst_sum t2 = 35 /\ tst_var t1 = 68 /\ tst_var t2 = 16).
  { unfold tst_sum, tst_var, t1, t2, Rsum. cbn [map fold_right ts_rating ts_uncertainty].
    rewrite (proj2 (E 25%Z ltac:(vm_compute; discriminate))), (proj2 (E 30%Z ltac:(vm_compute; discriminate))), (proj2 (E 20%Z ltac:(vm_compute; discriminate))).
    rewrite (proj2 (E 8%Z ltac:(vm_compute; discriminate))), (proj2 (E 2%Z ltac:(vm_compute; discriminate))), (proj2 (E 4%Z ltac:(vm_compute; discriminate))). lra. }
  destruct ES as (ES & EV1 & EV2).
  assert (C : 10 <= sqrt (3 * 4 ^ 2 + 68 + 16)) by (rewrite <- (sqrt_square 10) by lra; apply sqrt_le_1; lra).
  split; [split; [lia|]; simpl; lra|]. split; [split; [discriminate|]; split; [simpl; lia|]; unfold t1; apply Forall_cons; [split; apply H; try lra; vm_compute; discriminate|]; apply Forall_cons; [split; apply H; try lra; vm_compute; discriminate|]; apply Forall_nil|].
  split; [split; [discriminate|]; split; [simpl; lia|]; unfold t2; apply Forall_cons; [split; apply H; try lra; vm_compute; discriminate|]; apply Forall_nil|].
  split; [split; [exact FD|lra]|]. split; [apply H; [vm_compute; discriminate|lra]|]. split; [apply H; [vm_compute; discriminate|lra]|].
  rewrite (proj2 (E 4%Z ltac:(vm_compute; discriminate))), (proj2 (E 1%Z ltac:(vm_compute; discriminate))). split; [lra|]. intros N c.
  assert (EN : N = 3) by (unfold N, t1, t2; simpl; lra). assert (Ec : c = sqrt (3 * 4 ^ 2 + 68 + 16)) by (unfold c, tst_c; rewrite EN, EV1, EV2; reflexivity). rewrite Ec, ES, EV1, EV2, EN.
  split; [apply Rabs_le; lra|]. split; [apply Rabs_le; lra|]. assert (0.099 ^ 2 <= B2R (b64_lit 1 10) ^ 2) by (apply pow_incr; lra). lra.
Qed.
