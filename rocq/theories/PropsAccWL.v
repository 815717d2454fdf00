(** Property theorems in IEEE-754 double precision, continued (C118): how far the
    computed Weng-Lin updates of teams are from the published formulas. *)
From Coq Require Import ZArith NArith List Bool Reals Lra Lia.
From Flocq Require Import IEEE754.BinarySingleNaN.
From Verif Require Import Arith XR B64 SpecB64 SpecAcc SpecAcc5 ModelLib ModelWengLin MathB64 ProofB64 ProofB64b ProofB64c MathAcc ProofAcc ProofAcc2 MathAccWL ProofAccWL ProofAccWL2 Spec.
Import ListNotations.
Local Open Scope R_scope.

(** C118: two teams. *)
Theorem C118_f64_weng_lin_two : forall (L : Libm) (n : nat) (t1 t2 : list (WengLinRating B64)) (o : Outcomes) (cfg : WengLinConfig B64),
  exp_accurate L -> (n <= 50)%nat -> wl_usual n t1 -> wl_usual n t2 -> num_in 1 100 (wl_beta cfg) -> num_in (9 / 10 ^ 7) 1 (wl_uncertainty_tolerance cfg) ->
  let T1 := map wl_re t1 in let T2 := map wl_re t2 in let beta := B2R (wl_beta cfg) in let kappa := B2R (wl_uncertainty_tolerance cfg) in
  wl_small beta T1 T2 ->
  let new := weng_lin_two_teams (A := B64A L) t1 t2 o cfg in
  wl_close n 1 t1 (map (wl_player kappa (wl_s2 T1) (wls_delta beta (wl_theta T1) (wl_s2 T1) (wl_theta T2) (wl_s2 T2) (points o))
    (wls_eta beta (wl_theta T1) (wl_s2 T1) (wl_theta T2) (wl_s2 T2))) T1) (fst new) /\
  wl_close n 1 t2 (map (wl_player kappa (wl_s2 T2) (wls_delta beta (wl_theta T2) (wl_s2 T2) (wl_theta T1) (wl_s2 T1) (points (invert o)))
    (wls_eta beta (wl_theta T2) (wl_s2 T2) (wl_theta T1) (wl_s2 T1))) T2) (snd new).
Proof. exact C118_two_proof. Qed.
Print Assumptions C118_f64_weng_lin_two.
(** C118: the team in any position of a match of up to 51 teams. *)
Theorem C118_f64_weng_lin_multi : forall (L : Libm) (n : nat) (pre : list (list (WengLinRating B64) * MultiTeamOutcome)) t (r : N) post (cfg : WengLinConfig B64),
  let teams := pre ++ (t, mto_new r) :: post in let others := pre ++ post in
  let T := map wl_re t in let beta := B2R (wl_beta cfg) in let kappa := B2R (wl_uncertainty_tolerance cfg) in
  exp_accurate L -> (n <= 50)%nat -> (length teams <= 51)%nat -> Forall (fun x => wl_usual n (fst x)) teams ->
  num_in 1 100 (wl_beta cfg) -> num_in (9 / 10 ^ 7) 1 (wl_uncertainty_tolerance cfg) ->
  Forall (fun x => wl_small beta T (map wl_re (fst x))) others ->
  exists t', nth_error (weng_lin_multi_team (A := B64A L) teams cfg) (length pre) = Some t' /\
    wl_close n (length others) t (wl_team' beta kappa T r (map (fun x => (map wl_re (fst x), mto_rank_field (snd x))) others)) t'.
Proof. exact C118_multi_proof. Qed.
Print Assumptions C118_f64_weng_lin_multi.
(** C118: expected scores of two players, two teams, many teams. *)
Theorem C118_f64_weng_lin_expected : forall (L : Libm) (p1 p2 : WengLinRating B64) (cfg : WengLinConfig B64), exp_accurate L ->
  num_in (- 500) 500 (wl_rating p1) -> num_in (/ 1000) 100 (wl_uncertainty p1) -> num_in (- 500) 500 (wl_rating p2) -> num_in (/ 1000) 100 (wl_uncertainty p2) ->
  num_in 1 100 (wl_beta cfg) ->
  let m1 := B2R (wl_rating p1) in let s1 := B2R (wl_uncertainty p1) in let m2 := B2R (wl_rating p2) in let s2 := B2R (wl_uncertainty p2) in
  let c := wlc (B2R (wl_beta cfg)) (s1 ^ 2) (s2 ^ 2) in let e := wl_expected_score (A := B64A L) p1 p2 cfg in
  near (fst e) (wlp m1 m2 c) (/ 10 ^ 12) /\ near (snd e) (wlp m2 m1 c) (/ 10 ^ 12).
Proof. exact C118_expected_proof. Qed.
Print Assumptions C118_f64_weng_lin_expected.
Theorem C118_f64_weng_lin_expected_two : forall (L : Libm) (n : nat) (t1 t2 : list (WengLinRating B64)) (cfg : WengLinConfig B64),
  exp_accurate L -> (n <= 50)%nat -> wl_usual n t1 -> wl_usual n t2 -> num_in 1 100 (wl_beta cfg) ->
  let T1 := map wl_re t1 in let T2 := map wl_re t2 in let beta := B2R (wl_beta cfg) in
  wl_small beta T1 T2 -> let e := wl_expected_score_two_teams (A := B64A L) t1 t2 cfg in let c := wlc beta (wl_s2 T1) (wl_s2 T2) in
  near (fst e) (wlp (wl_theta T1) (wl_theta T2) c) (3 * (INR n ^ 2 + 3) / 10 ^ 13) /\
  near (snd e) (wlp (wl_theta T2) (wl_theta T1) c) (3 * (INR n ^ 2 + 3) / 10 ^ 13).
Proof. exact C118_expected_two_proof. Qed.
Print Assumptions C118_f64_weng_lin_expected_two.
Theorem C118_f64_weng_lin_expected_multi : forall (L : Libm) (n : nat) (ts : list (list (WengLinRating B64))) (cfg : WengLinConfig B64),
  let Ts := map (map wl_re) ts in let c := sqrt (Rsum (map wl_s2 Ts) + 2 * B2R (wl_beta cfg) ^ 2) in
  exp_accurate L -> (n <= 50)%nat -> (length ts <= 50)%nat -> Forall (wl_usual n) ts -> num_in 1 100 (wl_beta cfg) -> Forall (fun t => Rabs (wl_theta t) <= 400 * c) Ts ->
  Forall2 (fun T x => near x (exp (wl_theta T / c) / Rsum (map (fun T' => exp (wl_theta T' / c)) Ts)) ((INR n ^ 2 + 120) / 10 ^ 13)) Ts (wl_expected_score_multi_team (A := B64A L) ts cfg).
Proof. exact C118_expected_multi_proof. Qed.
Print Assumptions C118_f64_weng_lin_expected_multi.

(** Two players rated 25 and 30 against one rated 40, beta = 4, tolerance 1. *)
Example C118_case : let p m s := mkWL (b64_of_Z m) (b64_of_Z s) in let t1 := [p 25%Z 8%Z; p 30%Z 4%Z] in let t2 := [p 40%Z 2%Z] in
  exp_accurate libm_rounded /\ wl_usual 2 t1 /\ wl_usual 2 t2 /\ num_in 1 100 (b64_of_Z 4) /\ num_in (9 / 10 ^ 7) 1 (b64_of_Z 1) /\
  wl_small 4 (map wl_re t1) (map wl_re t2).
Proof.
  assert (H : forall z lo hi, (Z.abs z <= 2 ^ 53)%Z -> lo <= IZR z <= hi -> num_in lo hi (b64_of_Z z)).
  { intros z lo hi Hz B. destruct (ext_ofZ z Hz) as [F E]. split; [exact F|]. rewrite <- (ext_fin _ F), E. exact B. }
  assert (E : forall z, (Z.abs z <= 2 ^ 53)%Z -> B2R (b64_of_Z z) = IZR z) by (intros z Hz; destruct (ext_ofZ z Hz) as [F E]; rewrite <- (ext_fin _ F); exact E).
  intros p t1 t2. split; [exact libm_exp_accurate|].
  assert (P : forall m s, (Z.abs m <= 2 ^ 53)%Z -> (Z.abs s <= 2 ^ 53)%Z -> -500 <= IZR m <= 500 -> / 1000 <= IZR s <= 100 -> num_in (- 500) 500 (wl_rating (p m s)) /\ num_in (/ 1000) 100 (wl_uncertainty (p m s)))
    by (intros m s H1 H2 H3 H4; split; apply H; auto).
  split; [split; [discriminate|split; [simpl; lia|unfold t1; apply Forall_cons; [|apply Forall_cons; [|constructor]]; (apply P; [vm_compute; discriminate|vm_compute; discriminate|lra|lra])]]|].
  split; [split; [discriminate|split; [simpl; lia|unfold t2; apply Forall_cons; [|constructor]; (apply P; [vm_compute; discriminate|vm_compute; discriminate|lra|lra])]]|].
  split; [apply H; [vm_compute; discriminate|lra]|]. split; [apply H; [vm_compute; discriminate|lra]|].
  assert (R1 : map wl_re t1 = [(25, 8); (30, 4)]) by (unfold t1, p, wl_re; cbn [map wl_rating wl_uncertainty]; rewrite !E by (vm_compute; discriminate); reflexivity).
  assert (R2 : map wl_re t2 = [(40, 2)]) by (unfold t2, p, wl_re; cbn [map wl_rating wl_uncertainty]; rewrite !E by (vm_compute; discriminate); reflexivity).
  rewrite R1, R2. unfold wl_small, wl_theta, wl_s2, wlc. cbn [map fst snd]. unfold Rsum. cbn [fold_right]. assert (C : 1 <= sqrt (8 ^ 2 + (4 ^ 2 + 0) + (2 ^ 2 + 0) + 2 * 4 ^ 2)) by (rewrite <- sqrt_1 at 1; apply sqrt_le_1_alt; lra).
  split; (rewrite Rabs_pos_eq by lra; lra).
Qed.
