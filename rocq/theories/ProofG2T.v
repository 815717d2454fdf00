(** Glicko-2 in double precision always returns when the result is no upset. *)
From Coq Require Import ZArith List Bool Reals Lra Lia Psatz.
From Flocq Require Import Core.Core IEEE754.BinarySingleNaN.
From Verif Require Import Arith XR B64 ModelLib ModelGlicko2 Spec SpecB64 SpecAcc SpecAcc3 SpecAcc4 Tac MathB64 ProofB64 ProofB64b ProofB64c MathB64b MathAcc MathAcc2 ProofBoost2 ProofAcc ProofAcc2 ProofAcc3 ProofAccUscf
  MathGlicko2 MathIllF MathG2F ProofAccG2 MathIllT MathG2T.
Import ListNotations.
Local Open Scope R_scope.
#[local] Opaque Bplus Bminus Bmult Bdiv Bfma Bsqrt Bopp Babs b64_max b64_min b64_of_Z b64_lit.

Lemma upd_total L f Ph S Sg m Mr n s t tol : exp_accurate L -> lnw_accurate L -> ap f Ph (8 / 10 ^ 16) -> / 200 <= Ph <= 2.1 ->
  1 <= n <= 100 -> ap S Sg (n * (48 / 10 ^ 15)) -> 0.004099 * n <= Sg <= n / 4 -> ap m Mr (n * (49 / 10 ^ 15)) ->
  num_in (/ 100) (3 / 10) s -> num_in (/ 10) (98 / 100) t -> finite tol -> 99 / 10 ^ 8 <= B2R tol ->
  let V := / Sg in let D := V * Mr in D ^ 2 + (Ph ^ 2 + V) / 10 ^ 7 <= Ph ^ 2 + V ->
  let v := Bdiv mode_NE one64 S in let delta := Bmult mode_NE v m in
  exists N z, forall k, g2_new_volatility (A := B64A L) (N + k) s (Bmult mode_NE delta delta) (Bmult mode_NE f f) v t tol = Some z.
Proof.
  intros HE HL Af Bf Hn AS BS AM [Fs Bs] [Ft Bt] Fo Bo V D U v delta.
  destruct (V_rng Sg n Hn BS) as (V1 & V2 & V3). fold V in V1, V2, V3. pose proof (v_rp S Sg n Hn AS BS) as Av. unfold rp in Av. fold V in Av. fold v in Av.
  assert (P2 : 25 / 10 ^ 6 <= Ph ^ 2 <= 5) by nra. assert (D0 : 0 <= D ^ 2) by apply pow2_ge_0.
  pose proof (d2_ap S m Sg Mr n Hn AS BS AM (Ph ^ 2) ltac:(lra) ltac:(fold V; fold D; lra)) as Ad. fold V in Ad. fold D in Ad. fold v in Ad. fold delta in Ad.
  pose proof (ap_mul _ _ _ _ _ _ 2.1 2.1 5 Af Af ltac:(bd) ltac:(bd) ltac:(lra) ltac:(okb)) as Ap.
  apply (vol_total L (Bmult mode_NE delta delta) (Bmult mode_NE f f) v s t (D ^ 2) (Ph ^ 2) V); try assumption; rewrite ?(ext_fin s Fs), ?(ext_fin t Ft), ?(ext_fin tol Fo); try lra.
  - replace (Ph ^ 2) with (Ph * Ph) in * by ring. apply (ap_weak _ _ _ _ Ap). ulra.
  - apply (ap_weak _ _ _ _ Av). lra.
Qed.
Lemma half_total L r RD s rj dj t tol o sc : exp_accurate L -> lnw_accurate L ->
  num_in (- 10 ^ 4) (10 ^ 4) r -> num_in 1 350 RD -> num_in (/ 100) (3 / 10) s -> num_in (- 10 ^ 4) (10 ^ 4) rj -> num_in 1 350 dj ->
  num_in (/ 10) (98 / 100) t -> finite tol -> 99 / 10 ^ 8 <= B2R tol -> Rabs (B2R r - B2R rj) <= 800 -> ap o sc 0 -> 0 <= sc <= 1 ->
  g2_calm (B2R r) (B2R RD) [(g2mu (B2R rj), g2phi (B2R dj), sc)] ->
  let g := gB L (phB dj) in let e := eB L (muB r) (muB rj) g in let v := Bdiv mode_NE one64 (t1B g e) in let delta := Bmult mode_NE v (t2B o g e) in let f := phB RD in
  exists N z, forall k, g2_new_volatility (A := B64A L) (N + k) s (Bmult mode_NE delta delta) (Bmult mode_NE f f) v t tol = Some z.
Proof.
  intros HE HL Nr Nd Ns Nj Ndj Nt Fo Bo GAP AO BO U g e v delta f. destruct (ph_ap RD Nd) as [Aph Bph].
  destruct (pair_ap L r rj dj HE Nr Nj Ndj GAP) as (AG & BG & AE & BE). fold g in AG, AE. fold e in AE. unfold g2_calm in U. cbv zeta in U.
  set (games := [_]) in U. set (G := g2g (g2phi (B2R dj))) in *. set (E := g2E (g2mu (B2R r)) (g2mu (B2R rj)) (g2phi (B2R dj))) in *.
  assert (EV : g2v (g2mu (B2R r)) games = / (G ^ 2 * E * (1 - E))) by (unfold g2v, games; simpl map; unfold Rsum; cbn [fold_right]; fold G E; f_equal; ring).
  assert (EM : g2M (g2mu (B2R r)) games = G * (sc - E)) by (unfold g2M, games; simpl map; unfold Rsum; cbn [fold_right]; fold G E; ring).
  rewrite EV, EM in U.
  destruct (t1_ap g G e E AG BG AE BE) as [A1 B1]. destruct (t2_ap o sc g G e E AO BO AG BG AE BE) as (A2 & B2 & A3).
  apply (ap_weak _ _ _ (1 * (48 / 10 ^ 15))) in A1; [|lra]. apply (ap_weak _ _ _ (1 * (49 / 10 ^ 15))) in A2; [|lra].
  apply (upd_total L f _ (t1B g e) _ (t2B o g e) _ 1 s t tol HE HL Aph Bph ltac:(lra) A1 ltac:(lra) A2 Ns Nt Fo Bo). exact U.
Qed.

(** calm is moderate *)
Lemma calm_moderate r RD t games : 0 < g2v (g2mu r) games -> 0 <= t <= 12 / 10 -> g2_calm r RD games -> g2_moderate r RD t games.
Proof.
  unfold g2_calm, g2_moderate. cbv zeta. intros V T H. pose proof (pow2_ge_0 (g2phi RD)) as P. set (v := g2v _ _) in *. set (d := v * _) in *. pose proof (pow2_ge_0 d) as D. set (dd := d ^ 2) in *. set (pp := g2phi RD ^ 2) in *.
  assert (T2 : 0 <= t ^ 2 <= 1.44) by nra. assert (t ^ 2 * dd <= 1.44 * dd) by (apply Rmult_le_compat_r; lra). split; [lra|]. split; [lra|]. rewrite Rabs_left1 by lra. lra.
Qed.
Lemma v_pos mu games : games <> [] -> 0 < g2v mu games.
Proof.
  intros N. unfold g2v. apply Rinv_0_lt_compat. destruct games as [|x l]; [congruence|]. clear N.
  assert (T : forall x : R * R * R, 0 < (let '(muj, phij, _) := x in g2g phij ^ 2 * g2E mu muj phij * (1 - g2E mu muj phij))).
  { intros [[muj phij] s]. assert (G : 0 < g2g phij). { unfold g2g. apply Rinv_0_lt_compat, sqrt_lt_R0.
      assert (0 <= phij ^ 2 * / PI ^ 2). { apply Rmult_le_pos; [apply pow2_ge_0|left; apply Rinv_0_lt_compat, pow_lt, PI_RGT_0]. } unfold Rdiv. rewrite ?Rmult_assoc. lra. }
    assert (E : 0 < g2E mu muj phij < 1). { unfold g2E. set (p := exp _). assert (0 < p) by apply exp_pos. split; [apply Rinv_0_lt_compat; lra|]. apply Rmult_lt_reg_r with (1 + p); [lra|]. rewrite Rinv_l; lra. }
    apply Rmult_lt_0_compat; [apply Rmult_lt_0_compat; [apply pow_lt, G|lra]|lra]. }
  assert (S : forall l, 0 <= Rsum (map (fun x : R * R * R => let '(muj, phij, _) := x in g2g phij ^ 2 * g2E mu muj phij * (1 - g2E mu muj phij)) l)).
  { induction l0 as [|y l0 IH]; [unfold Rsum; simpl; lra|]. simpl map. unfold Rsum in *. cbn [fold_right]. pose proof (T y) as Q. cbv beta in Q |- *. apply Rplus_le_le_0_compat; [left; exact Q|exact IH]. }
  simpl map. unfold Rsum in *. cbn [fold_right]. apply Rplus_lt_le_0_compat; [exact (T x)|exact (S l)].
Qed.

Lemma C116_game_proof : forall (L : Libm) (p1 p2 : Glicko2Rating B64) (o : Outcomes) (cfg : Glicko2Config B64),
  exp_accurate L -> lnw_accurate L -> hypots_accurate L ->
  num_in (- 10 ^ 4) (10 ^ 4) (g2_rating p1) -> num_in 1 350 (g2_deviation p1) -> num_in (/ 100) (3 / 10) (g2_volatility p1) ->
  num_in (- 10 ^ 4) (10 ^ 4) (g2_rating p2) -> num_in 1 350 (g2_deviation p2) -> num_in (/ 100) (3 / 10) (g2_volatility p2) ->
  num_in (/ 10) (98 / 100) (g2_tau cfg) -> finite (g2_convergence_tolerance cfg) -> 99 / 10 ^ 8 <= B2R (g2_convergence_tolerance cfg) ->
  let r1 := B2R (g2_rating p1) in let d1 := B2R (g2_deviation p1) in let r2 := B2R (g2_rating p2) in let d2 := B2R (g2_deviation p2) in
  let tau := B2R (g2_tau cfg) in let tol := B2R (g2_convergence_tolerance cfg) in
  let games1 := [(g2mu r2, g2phi d2, points o)] in let games2 := [(g2mu r1, g2phi d1, points (invert o))] in
  Rabs (r1 - r2) <= 800 -> g2_calm r1 d1 games1 -> g2_calm r2 d2 games2 ->
  exists N q1 q2, (forall k, glicko2 (A := B64A L) (N + k) p1 p2 o cfg = Some (q1, q2)) /\
  g2_updated q1 r1 d1 (B2R (g2_volatility p1)) tau tol games1 /\ g2_updated q2 r2 d2 (B2R (g2_volatility p2)) tau tol games2.
Proof.
  intros L p1 p2 o cfg HE HL HH N1 M1 V1 N2 M2 V2 Nt Fo Bo R1 D1 R2 D2 tau TOL games1 games2 GAP C1 C2.
  enough (K : exists N q1 q2, forall k, glicko2 (A := B64A L) (N + k) p1 p2 o cfg = Some (q1, q2)).
  { destruct K as (N & q1 & q2 & K). exists N, q1, q2. split; [exact K|].
    assert (Nt' : num_in (/ 10) (12 / 10) (g2_tau cfg)) by (destruct Nt as [F B]; split; [exact F|lra]).
    apply (C115_game_proof L (N + 0)%nat p1 p2 q1 q2 o cfg HE HL HH N1 M1 V1 N2 M2 V2 Nt' Fo Bo GAP); [| |apply K];
      (apply calm_moderate; [apply v_pos; discriminate|destruct Nt as [_ B]; lra|assumption]). }
  revert HH N1 M1 V1 N2 M2 V2 Nt Fo Bo R1 D1 R2 D2 tau TOL games1 games2 GAP C1 C2. destruct p1 as [r1 d1 s1], p2 as [r2 d2 s2], cfg as [t tol]. cbn [g2_rating g2_deviation g2_volatility g2_tau g2_convergence_tolerance].
  intros HH N1 M1 V1 N2 M2 V2 Nt Fo Bo GAP C1 C2.
  destruct (ext_points L o) as [Fp Ep]. destruct (ext_points2 L o) as [Fq Eq]. cbv zeta in Fq, Eq. pose proof (points_range o) as PR.
  assert (PI' : points (invert o) = 1 - points o) by (destruct o; simpl; lra). rewrite <- PI' in Eq.
  destruct (half_total L r1 d1 s1 r2 d2 t tol _ _ HE HL N1 M1 V1 N2 M2 Nt Fo Bo GAP (ap_exact _ _ Fp Ep) PR C1) as (n1 & z1 & Z1).
  destruct (half_total L r2 d2 s2 r1 d1 t tol _ _ HE HL N2 M2 V2 N1 M1 Nt Fo Bo ltac:(rewrite Rabs_minus_sym; exact GAP) (ap_exact _ _ Fq Eq) ltac:(lra) C2) as (n2 & z2 & Z2).
  exists (n1 + n2)%nat. eexists. eexists. intros k. unfold glicko2. cbn [g2_rating g2_deviation g2_volatility g2_tau g2_convergence_tolerance].
  match goal with |- match ?a with _ => _ end = _ => replace a with (Some z1) by (symmetry; rewrite <- Nat.add_assoc; exact (Z1 (n2 + k)%nat)) end.
  match goal with |- match ?a with _ => _ end = _ => replace a with (Some z2) by (symmetry; rewrite (Nat.add_comm n1 n2), <- Nat.add_assoc; exact (Z2 (n1 + k)%nat)) end.
  reflexivity.
Qed.

(** results that are not upsets are calm *)
Lemma no_upset_calm r1 d1 r2 d2 o : 1 <= d1 <= 350 -> 1 <= d2 <= 350 -> Rabs (r1 - r2) <= 800 -> no_upset r1 r2 o ->
  g2_calm r1 d1 [(g2mu r2, g2phi d2, points o)].
Proof.
  intros H1 H2 GAP U. assert (B : 0 <= g2phi d2 <= 2.1) by (unfold g2phi; rewrite (g2s_div d2); lra).
  pose proof (no_upset_moderate r1 d1 r2 d2 1 o H1 H2 ltac:(lra) GAP U) as (_ & _ & M3). pose proof (no_upset_sq r1 r2 d2 o U B) as SQ. cbv zeta in SQ, M3.
  pose proof (v_pos (g2mu r1) [(g2mu r2, g2phi d2, points o)] ltac:(discriminate)) as VP. unfold g2_calm. cbv zeta.
  set (games := [_]) in *. set (G := g2g (g2phi d2)) in *. set (E := g2E (g2mu r1) (g2mu r2) (g2phi d2)) in *.
  assert (EV : g2v (g2mu r1) games = / (G ^ 2 * (E * (1 - E)))) by (unfold g2v, games; simpl map; unfold Rsum; cbn [fold_right]; fold G E; f_equal; ring).
  assert (EM : g2M (g2mu r1) games = G * (points o - E)) by (unfold g2M, games; simpl map; unfold Rsum; cbn [fold_right]; fold G E; ring).
  assert (DD : (g2v (g2mu r1) games * g2M (g2mu r1) games) ^ 2 <= g2v (g2mu r1) games).
  { rewrite EM. assert (W : 0 < G ^ 2 * (E * (1 - E))) by (apply Rinv_0_lt_compat in VP; rewrite EV, Rinv_inv in VP; exact VP). rewrite EV. set (w := G ^ 2 * (E * (1 - E))) in *. assert (I : 0 < / w) by (apply Rinv_0_lt_compat, W).
    replace ((/ w * (G * (points o - E))) ^ 2) with (/ w * (/ w * (G ^ 2 * (points o - E) ^ 2))) by ring. rewrite <- (Rmult_1_r (/ w)) at 3. apply Rmult_le_compat_l; [lra|].
    apply Rmult_le_reg_l with w; [lra|]. rewrite <- Rmult_assoc, Rinv_r, Rmult_1_l, Rmult_1_r by lra. unfold w. apply Rmult_le_compat_l; [apply pow2_ge_0|exact SQ]. }
  set (dd := (g2v (g2mu r1) games * g2M (g2mu r1) games) ^ 2) in *. set (v := g2v (g2mu r1) games) in *. pose proof (pow2_ge_0 (g2phi d1)) as PP. rewrite Rabs_left1 in M3 by lra. lra.
Qed.
Lemma C116_usual_proof : forall (L : Libm) (p1 p2 : Glicko2Rating B64) (o : Outcomes) (cfg : Glicko2Config B64),
  exp_accurate L -> lnw_accurate L -> hypots_accurate L ->
  num_in (- 10 ^ 4) (10 ^ 4) (g2_rating p1) -> num_in 1 350 (g2_deviation p1) -> num_in (/ 100) (3 / 10) (g2_volatility p1) ->
  num_in (- 10 ^ 4) (10 ^ 4) (g2_rating p2) -> num_in 1 350 (g2_deviation p2) -> num_in (/ 100) (3 / 10) (g2_volatility p2) ->
  num_in (/ 10) (98 / 100) (g2_tau cfg) -> finite (g2_convergence_tolerance cfg) -> 99 / 10 ^ 8 <= B2R (g2_convergence_tolerance cfg) ->
  let r1 := B2R (g2_rating p1) in let d1 := B2R (g2_deviation p1) in let r2 := B2R (g2_rating p2) in let d2 := B2R (g2_deviation p2) in
  let tau := B2R (g2_tau cfg) in let tol := B2R (g2_convergence_tolerance cfg) in
  Rabs (r1 - r2) <= 800 -> (match o with WIN => r2 <= r1 | LOSS => r1 <= r2 | DRAW => Rabs (r1 - r2) <= 300 end) ->
  exists N q1 q2, (forall k, glicko2 (A := B64A L) (N + k) p1 p2 o cfg = Some (q1, q2)) /\
  g2_updated q1 r1 d1 (B2R (g2_volatility p1)) tau tol [(g2mu r2, g2phi d2, points o)] /\
  g2_updated q2 r2 d2 (B2R (g2_volatility p2)) tau tol [(g2mu r1, g2phi d1, points (invert o))].
Proof.
  intros L p1 p2 o cfg HE HL HH N1 M1 V1 N2 M2 V2 NT Fo Bo r1 d1 r2 d2 tau tol GAP U. destruct M1 as [F1 B1], M2 as [F2 B2].
  apply (C116_game_proof L p1 p2 o cfg); try assumption; try (split; assumption).
  - apply no_upset_calm; assumption.
  - apply no_upset_calm; try assumption; [rewrite Rabs_minus_sym; exact GAP|apply no_upset_inv; exact U].
Qed.
Lemma C116_period_proof : forall (L : Libm) (p : Glicko2Rating B64) (rs : list (Glicko2Rating B64 * Outcomes)) (cfg : Glicko2Config B64),
  exp_accurate L -> lnw_accurate L -> hypots_accurate L -> (1 <= length rs <= 100)%nat ->
  num_in (- 10 ^ 4) (10 ^ 4) (g2_rating p) -> num_in 1 350 (g2_deviation p) -> num_in (/ 100) (3 / 10) (g2_volatility p) ->
  num_in (/ 10) (98 / 100) (g2_tau cfg) -> finite (g2_convergence_tolerance cfg) -> 99 / 10 ^ 8 <= B2R (g2_convergence_tolerance cfg) ->
  let r := B2R (g2_rating p) in let d := B2R (g2_deviation p) in let tau := B2R (g2_tau cfg) in
  Forall (fun g => num_in (- 10 ^ 4) (10 ^ 4) (g2_rating (fst g)) /\ num_in 1 350 (g2_deviation (fst g)) /\ Rabs (r - B2R (g2_rating (fst g))) <= 800) rs ->
  let games := map (fun g => (g2mu (B2R (g2_rating (fst g))), g2phi (B2R (g2_deviation (fst g))), points (snd g))) rs in
  g2_calm r d games ->
  exists N q, (forall k, glicko2_rating_period (A := B64A L) (N + k) p rs cfg = Some q) /\
  g2_updated q r d (B2R (g2_volatility p)) tau (B2R (g2_convergence_tolerance cfg)) games.
Proof.
  intros L p rs cfg HE HL HH LEN Nr Nd Ns Nt Fo Bo R D T HF games MOD.
  assert (NN : games <> []) by (unfold games; destruct rs; [simpl in LEN; lia|discriminate]).
  enough (K : exists N q, forall k, glicko2_rating_period (A := B64A L) (N + k) p rs cfg = Some q).
  { destruct K as (N & q & K). exists N, q. split; [exact K|].
    assert (Nt' : num_in (/ 10) (12 / 10) (g2_tau cfg)) by (destruct Nt as [F B]; split; [exact F|lra]).
    apply (C115_period_proof L (N + 0)%nat p q rs cfg HE HL HH LEN Nr Nd Ns Nt' Fo Bo HF); [|apply K].
    apply calm_moderate; [apply v_pos, NN|destruct Nt as [_ B]; lra|assumption]. }
  clear HH. unfold R, D, T in *. clear R D T. destruct p as [r d s], cfg as [t tol].
  cbn [g2_rating g2_deviation g2_volatility g2_tau g2_convergence_tolerance] in *. pose (R := B2R r).
  set (g := fun x : Glicko2Rating B64 * Outcomes => gB L (phB (g2_deviation (fst x)))). set (e := fun x : Glicko2Rating B64 * Outcomes => eB L (muB r) (muB (g2_rating (fst x))) (g x)).
  set (G := fun x : Glicko2Rating B64 * Outcomes => g2g (g2phi (B2R (g2_deviation (fst x))))).
  set (E := fun x : Glicko2Rating B64 * Outcomes => g2E (g2mu R) (g2mu (B2R (g2_rating (fst x)))) (g2phi (B2R (g2_deviation (fst x))))).
  set (f1 := fun x => t1B (g x) (e x)). set (f2 := fun x : Glicko2Rating B64 * Outcomes => t2B (to_chess_points (A := B64A L) (snd x)) (g x) (e x)).
  set (F1 := fun x => G x ^ 2 * E x * (1 - E x)). set (F2 := fun x : Glicko2Rating B64 * Outcomes => G x * (points (snd x) - E x)).
  assert (P1 : Forall (fun x => (ap (f1 x) (F1 x) (35 / 10 ^ 15) /\ Rabs (F1 x) <= 1) /\ 0.004099 <= F1 x <= / 4) rs /\ Forall (fun x => ap (f2 x) (F2 x) (36 / 10 ^ 15) /\ Rabs (F2 x) <= 1) rs).
  { split; apply (Forall_impl _ (P := fun x => _)) with (2 := HF); intros x (Hr & Hd & GAP); destruct (pair_ap L r (g2_rating (fst x)) (g2_deviation (fst x)) HE Nr Hr Hd GAP) as (AG & BG & AE & BE).
    - destruct (t1_ap _ _ _ _ AG BG AE BE) as [A1 B1]. split; [split; [exact A1|]|exact B1]. unfold F1, G, E, R. rewrite Rabs_pos_eq; lra.
    - destruct (ext_points L (snd x)) as [Fp Ep]. destruct (t2_ap _ _ _ _ _ _ (ap_exact _ _ Fp Ep) (points_range (snd x)) AG BG AE BE) as (A2 & B2 & _). split; assumption. }
  destruct P1 as [P1 P2]. set (n := INR (length rs)).
  assert (Hn : 1 <= n <= 100). { unfold n. split; [apply (le_INR 1); lia|]. replace 100 with (INR 100) by (rewrite INR_IZR_INZ; reflexivity). apply le_INR; lia. }
  destruct (sum100 _ L f1 F1 (35 / 10 ^ 15) rs ltac:(lra) ltac:(apply (Forall_impl _) with (2 := P1); tauto) ltac:(lia)) as [S1 _]. fold n in S1.
  destruct (sum100 _ L f2 F2 (36 / 10 ^ 15) rs ltac:(lra) P2 ltac:(lia)) as [S2 BM]. fold n in S2, BM.
  assert (BS : 0.004099 * n <= Rsum (map F1 rs) <= n / 4).
  { unfold n. clear - P1. induction rs as [|x l IH]; [simpl; lra|]. apply Forall_cons_iff in P1 as [[_ B] P1]. specialize (IH P1). simpl length. rewrite S_INR. simpl map. unfold Rsum in *. cbn [fold_right]. lra. }
  assert (EV : g2v (g2mu R) games = / Rsum (map F1 rs)). { unfold g2v, games. rewrite map_map. reflexivity. }
  assert (EM : g2M (g2mu R) games = Rsum (map F2 rs)). { unfold g2M, games. rewrite map_map. reflexivity. }
  destruct (ph_ap d Nd) as [Aph Bph]. unfold g2_calm in MOD. cbv zeta in MOD. fold R in MOD. rewrite EV, EM in MOD.
  apply (ap_weak _ _ _ (n * (48 / 10 ^ 15))) in S1; [|unfold u0; nra]. apply (ap_weak _ _ _ (n * (49 / 10 ^ 15))) in S2; [|unfold u0; nra].
  destruct (upd_total L (phB d) _ _ _ _ _ n s t tol HE HL Aph Bph Hn S1 BS S2 Ns Nt Fo Bo MOD) as (N & z & Z).
  exists N. eexists. intros k. specialize (Z k). destruct rs as [|x l]; [simpl in LEN; lia|].
  unfold glicko2_rating_period. cbn [g2_rating g2_deviation g2_volatility g2_tau g2_convergence_tolerance].
  match goal with |- match ?a with _ => _ end = _ => replace a with (Some z) by (symmetry; exact Z) end. reflexivity.
Qed.
