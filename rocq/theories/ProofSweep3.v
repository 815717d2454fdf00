(** Proofs of C144, Glicko-2. *)
From Coq Require Import ZArith NArith List Bool Reals Lra Lia.
From Verif Require Import Arith XR Tac ModelLib ModelGlicko2 Spec SpecSettle ProofGlicko2 ProofLong ProofSweep.
Import ListNotations.
Local Open Scope R_scope.

Lemma g2_rep r ro RDo s n : (1 <= n)%nat -> let E := g2E (g2mu r) (g2mu ro) (g2phi RDo) in let W := g2g (g2phi RDo) ^ 2 * E * (1 - E) in let games := repeat (g2mu ro, g2phi RDo, s) n in
  0 < W /\ games <> [] /\ g2v (g2mu r) games = / (INR n * W) /\ g2M (g2mu r) games = INR n * (g2g (g2phi RDo) * (s - E)).
Proof.
  intros Hn E W games. pose proof (g2E_range (g2mu r) (g2mu ro) (g2phi RDo)) as HE. fold E in HE. pose proof (g2g_range (g2phi RDo)) as [G _].
  split; [unfold W; pose proof (pow_lt _ 2 G); do 2 (apply Rmult_lt_0_compat; [|lra]); lra|]. split; [now apply rep_ne|]. unfold g2v, g2M, games. rewrite !map_rep, !Rsum_rep. fold E. split; reflexivity.
Qed.
Lemma C144_glicko2_proof : forall fuel n r RD s ro RDo so o t tol p, 0 < RD -> 0 < s -> 0 < t -> 0 <= tol -> (1 <= n)%nat ->
  glicko2_rating_period fuel (mkGlicko2 (Fin r) (Fin RD) (Fin s)) (repeat (mkGlicko2 (Fin ro) (Fin RDo) (Fin so), o) n) (mkGlicko2Config (Fin t) (Fin tol)) = Some p ->
  let E := g2E (g2mu r) (g2mu ro) (g2phi RDo) in let l := r + g2s * (points o - E) / (g2g (g2phi RDo) * E * (1 - E)) in
  exists x d s', p = mkGlicko2 (Fin x) (Fin d) (Fin s') /\ (r < l -> r < x < l) /\ (l < r -> l < x < r) /\ (l = r -> x = r) /\
    Rabs (x - l) <= Rabs (l - r) / (1 + INR n * (g2phi RD ^ 2 * g2g (g2phi RDo) ^ 2 * E * (1 - E))) /\
    0 < d /\ d ^ 2 * (INR n * (g2g (g2phi RDo) ^ 2 * E * (1 - E))) < g2s ^ 2.
Proof.
  intros fuel n r RD s ro RDo so o t tol p HR Hs Ht Htol Hn HP E l. pose proof (C39_period_proof fuel r RD s t tol (repeat (ro, RDo, so, o) n) p Hs Ht Htol (rep_ne _ n Hn)) as F. rewrite !map_rep in F. specialize (F HP). cbv zeta in F. destruct F as (s' & -> & [Hs' _] & HD).
  destruct (g2_rep r ro RDo (points o) n Hn) as (HW & _ & EV & EM). fold E in HW, EM. set (W := g2g (g2phi RDo) ^ 2 * E * (1 - E)) in *. set (games := repeat (g2mu ro, g2phi RDo, points o) n) in *. fold E in EV. fold W in EV.
  exists (g2_new_r r RD s' games), (g2_new_rd r RD s' games), s'. split; [reflexivity|]. set (P := g2phi RD ^ 2 + s' ^ 2). assert (HF : 0 < g2phi RD ^ 2) by (apply pow_lt; unfold g2phi; apply Rdiv_lt_0_compat; [auto|apply g2s_pos]). pose proof (pow_lt _ 2 Hs') as HS. assert (P0 : g2phi RD ^ 2 < P) by (unfold P; lra).
  assert (PN : 1 <= INR n) by (apply le_INR in Hn; cbn [INR] in Hn; lra). assert (NW : 0 < INR n * W) by (apply Rmult_lt_0_compat; lra). pose proof (g2E_range (g2mu r) (g2mu ro) (g2phi RDo)) as HE. fold E in HE. pose proof (g2g_range (g2phi RDo)) as [G _]. pose proof g2s_pos as S0.
  assert (IP : 0 < / P) by (apply Rinv_0_lt_compat; lra). assert (QQ : g2_phi' (g2phi RD) s' (/ (INR n * W)) ^ 2 = / (/ P + INR n * W)). { unfold g2_phi'. fold P. rewrite Rinv_inv. rewrite pow_inv, pow2_sqrt by lra. reflexivity. }
  set (k := INR n * W / (/ P + INR n * W)). assert (K : 0 < k < 1). { unfold k. split; [apply Rdiv_lt_0_compat; lra|]. apply Rmult_lt_reg_r with (/ P + INR n * W); [lra|]. unfold Rdiv. rewrite Rmult_assoc, Rinv_l; lra. }
  assert (EM2 : INR n * (g2g (g2phi RDo) * (points o - E)) = INR n * W * ((l - r) / g2s)) by (unfold l, W; field; repeat split; lra).
  assert (EX : g2_new_r r RD s' games = r + (l - r) * k). { unfold g2_new_r. cbv zeta. rewrite EV, EM, QQ, EM2. unfold k, g2mu, Rdiv. set (z := / (/ P + INR n * W)). field. lra. }
  rewrite EX. split; [nra|]. split; [nra|]. split; [nra|]. split; [|split; [exact HD|]].
  - replace (r + (l - r) * k - l) with (- ((l - r) * (1 - k))) by ring. rewrite Rabs_Ropp, Rabs_mult, (Rabs_pos_eq (1 - k)) by lra. unfold Rdiv. apply Rmult_le_compat_l; [apply Rabs_pos|]. assert (NP : 0 < INR n * W * P) by (apply Rmult_lt_0_compat; lra). replace (1 - k) with (/ (1 + INR n * W * P)) by (unfold k; field; split; apply Rgt_not_eq; lra).
    replace (g2phi RD ^ 2 * g2g (g2phi RDo) ^ 2 * E * (1 - E)) with (W * g2phi RD ^ 2) by (unfold W; ring). apply Rinv_le_contravar; [nra|]. nra.
  - unfold g2_new_rd. rewrite EV, Rpow_mult_distr, QQ. rewrite Rmult_assoc. replace (/ (/ P + INR n * W) * (INR n * W)) with k by (unfold k, Rdiv; ring). pose proof (pow_lt _ 2 S0). nra.
Qed.
(** With enough iterations the period returns, for every number of games. *)
Lemma C144_glicko2_returns_proof : forall r RD s ro RDo so o t tol n, 0 < s -> 0 < t -> 0 < tol -> (1 <= n)%nat ->
  let E := g2E (g2mu r) (g2mu ro) (g2phi RDo) in ((points o - E) / (g2g (g2phi RDo) * E * (1 - E))) ^ 2 <= g2phi RD ^ 2 * (1 + 27 / (2 * t ^ 2)) ->
  exists N, forall fuel, (N <= fuel)%nat -> exists p,
  glicko2_rating_period fuel (mkGlicko2 (Fin r) (Fin RD) (Fin s)) (repeat (mkGlicko2 (Fin ro) (Fin RDo) (Fin so), o) n) (mkGlicko2Config (Fin t) (Fin tol)) = Some p.
Proof.
  intros r RD s ro RDo so o t tol n Hs Ht Htol Hn E H. pose proof (C40_period_proof r RD s t tol (repeat (ro, RDo, so, o) n) Hs Ht Htol (rep_ne _ n Hn)) as F. rewrite !map_rep in F. cbv zeta in F. apply F.
  destruct (g2_rep r ro RDo (points o) n Hn) as (HW & _ & EV & EM). rewrite EV, EM. fold E in HW, EV, EM |- *. pose proof (g2E_range (g2mu r) (g2mu ro) (g2phi RDo)) as HE. fold E in HE. pose proof (g2g_range (g2phi RDo)) as [G _]. assert (PN : 1 <= INR n) by (apply le_INR in Hn; cbn [INR] in Hn; lra).
  match goal with |- ?a ^ 2 < _ => replace a with ((points o - E) / (g2g (g2phi RDo) * E * (1 - E))) by (field; repeat split; lra) end. eapply Rle_lt_trans; [exact H|]. assert (0 < / (INR n * (g2g (g2phi RDo) ^ 2 * E * (1 - E)))) by (apply Rinv_0_lt_compat, Rmult_lt_0_compat; lra).
  assert (0 < 27 / (2 * t ^ 2)) by (apply Rdiv_lt_0_compat; [lra|]; pose proof (pow_lt t 2 Ht); lra). apply Rmult_lt_compat_r; lra.
Qed.
Lemma g2_draws_beyond r ro RDo : let E := g2E (g2mu r) (g2mu ro) (g2phi RDo) in let l := r + g2s * (points DRAW - E) / (g2g (g2phi RDo) * E * (1 - E)) in (r < ro -> ro < l) /\ (ro < r -> l < ro).
Proof.
  intros E l. pose proof (g2g_range (g2phi RDo)) as [G _]. pose proof g2s_pos as S0. set (K := g2g (g2phi RDo)) in *. set (v := K * ((ro - r) / g2s)).
  assert (EE : E = / (1 + exp v)) by (unfold E, g2E; do 3 f_equal; fold K; unfold v, g2mu; field; lra).
  assert (L : l - ro = ((exp v - exp (- v)) / 2 - v) * (g2s / K)). { unfold l. rewrite EE, exp_Ropp. pose proof (exp_pos v). replace ro with (r + v * g2s / K) by (unfold v; field; lra). cbn [points]. field. repeat split; lra. }
  assert (IK : 0 < g2s / K) by (now apply Rdiv_lt_0_compat). split; intros H.
  - assert (0 < v) by (unfold v; apply Rmult_lt_0_compat; [lra|]; apply Rdiv_lt_0_compat; lra). pose proof (sinh_gt v ltac:(auto)). assert (0 < ((exp v - exp (- v)) / 2 - v) * (g2s / K)) by (apply Rmult_lt_0_compat; lra). lra.
  - assert (0 < - v). { replace (- v) with (K * ((r - ro) / g2s)) by (unfold v; field; lra). apply Rmult_lt_0_compat; [lra|]. apply Rdiv_lt_0_compat; lra. } pose proof (sinh_gt (- v) ltac:(auto)) as X. rewrite Ropp_involutive in X. assert (0 < (v - (exp v - exp (- v)) / 2) * (g2s / K)) by (apply Rmult_lt_0_compat; lra). lra.
Qed.
Lemma C144_glicko2_pass_proof : forall r RD s ro RDo so t tol, 0 < RD -> 0 < s -> 0 < t -> 0 <= tol -> r <> ro -> exists N, forall n fuel p, (N <= n)%nat ->
  glicko2_rating_period fuel (mkGlicko2 (Fin r) (Fin RD) (Fin s)) (repeat (mkGlicko2 (Fin ro) (Fin RDo) (Fin so), DRAW) n) (mkGlicko2Config (Fin t) (Fin tol)) = Some p ->
  exists x d s', p = mkGlicko2 (Fin x) (Fin d) (Fin s') /\ (r < ro -> ro < x) /\ (ro < r -> x < ro).
Proof.
  intros r RD s ro RDo so t tol HR Hs Ht Htol NE. destruct (g2_draws_beyond r ro RDo) as [U V]. pose proof (C144_glicko2_proof) as F. set (E := g2E (g2mu r) (g2mu ro) (g2phi RDo)) in *. set (l := r + g2s * (points DRAW - E) / (g2g (g2phi RDo) * E * (1 - E))) in *.
  assert (D : 0 < Rabs (l - ro)). { apply Rabs_pos_lt. destruct (Rtotal_order r ro) as [L|[L|L]]; [specialize (U L); lra|contradiction|specialize (V L); lra]. }
  set (W := g2phi RD ^ 2 * g2g (g2phi RDo) ^ 2 * E * (1 - E)). destruct (g2_rep r ro RDo 0 1 (le_n 1)) as (HW & _). fold E in HW. assert (HF : 0 < g2phi RD ^ 2) by (apply pow_lt; unfold g2phi; apply Rdiv_lt_0_compat; [auto|apply g2s_pos]).
  assert (W0 : 0 < W) by (replace W with (g2phi RD ^ 2 * (g2g (g2phi RDo) ^ 2 * E * (1 - E))) by (unfold W; ring); now apply Rmult_lt_0_compat).
  destruct (INR_big (Rabs (l - r) / (Rabs (l - ro) * W))) as [n0 Hn0]. exists (S n0). intros n fuel p Hn HP. destruct (F fuel n r RD s ro RDo so DRAW t tol p HR Hs Ht Htol ltac:(lia) HP) as (x & d & s' & -> & _ & _ & _ & B & _). fold E in B. fold l in B. fold W in B.
  exists x, d, s'. split; [reflexivity|]. assert (PN : INR n0 <= INR n) by (apply le_INR; lia). assert (DW : 0 < Rabs (l - ro) * W) by (now apply Rmult_lt_0_compat). pose proof (Rabs_pos (l - r)) as A.
  assert (B' : Rabs (x - l) < Rabs (l - ro)). { eapply Rle_lt_trans; [exact B|]. assert (P1 : 0 <= INR n * W) by (apply Rmult_le_pos; [apply pos_INR|lra]). apply Rmult_lt_reg_r with (1 + INR n * W); [lra|]. unfold Rdiv. rewrite Rmult_assoc, Rinv_l, Rmult_1_r by lra. assert (L : Rabs (l - r) / (Rabs (l - ro) * W) < INR n) by lra. apply (Rmult_lt_compat_r (Rabs (l - ro) * W)) in L; [|auto]. unfold Rdiv in L. rewrite Rmult_assoc, Rinv_l in L by lra. nra. }
  split; intros K; [specialize (U K); rewrite (Rabs_pos_eq (l - ro)) in B' by lra|specialize (V K); rewrite (Rabs_left (l - ro)) in B' by lra]; apply Rabs_def2 in B'; lra.
Qed.
