(** Glicko-2 with a tiny tau never returns in double precision. *)
From Coq Require Import ZArith List Bool Reals Lra Lia Psatz.
From Flocq Require Import Core.Core IEEE754.BinarySingleNaN.
From Verif Require Import Arith XR B64 ModelLib ModelGlicko2 Spec SpecB64 SpecAcc SpecAcc3 SpecAcc4 Tac MathB64 ProofB64 ProofB64b ProofB64c MathB64b MathAcc MathAcc2 ProofBoost2 ProofAcc ProofAcc2 ProofAcc3 ProofAccUscf
  MathGlicko2 MathIllF MathG2F ProofAccG2 MathIllT MathG2T MathG2H ProofG2T.
Import ListNotations.
Local Open Scope R_scope.
#[local] Opaque Bplus Bminus Bmult Bdiv Bfma Bsqrt Bopp Babs b64_max b64_min b64_of_Z b64_lit.

Lemma upd_hangs L f Ph S Sg m Mr n s t tol : exp_accurate L -> lnw_accurate L -> ap f Ph (8 / 10 ^ 16) -> / 200 <= Ph <= 2.1 ->
  1 <= n <= 100 -> ap S Sg (n * (48 / 10 ^ 15)) -> 0.004099 * n <= Sg <= n / 4 -> ap m Mr (n * (49 / 10 ^ 15)) ->
  num_in (/ 100) (3 / 10) s -> num_in (/ 10 ^ 150) (/ 10 ^ 34) t ->
  let V := / Sg in let D := V * Mr in D ^ 2 + (Ph ^ 2 + V) / 10 ^ 7 <= Ph ^ 2 + V ->
  let v := Bdiv mode_NE one64 S in let delta := Bmult mode_NE v m in
  forall fuel, g2_new_volatility (A := B64A L) fuel s (Bmult mode_NE delta delta) (Bmult mode_NE f f) v t tol = None.
Proof.
  intros HE HL Af Bf Hn AS BS AM [Fs Bs] [Ft Bt] V D U v delta fuel.
  destruct (V_rng Sg n Hn BS) as (V1 & V2 & V3). fold V in V1, V2, V3. pose proof (v_rp S Sg n Hn AS BS) as Av. unfold rp in Av. fold V in Av. fold v in Av.
  assert (P2 : 25 / 10 ^ 6 <= Ph ^ 2 <= 5) by nra. assert (D0 : 0 <= D ^ 2) by apply pow2_ge_0.
  pose proof (d2_ap S m Sg Mr n Hn AS BS AM (Ph ^ 2) ltac:(lra) ltac:(fold V; fold D; lra)) as Ad. fold V in Ad. fold D in Ad. fold v in Ad. fold delta in Ad.
  pose proof (ap_mul _ _ _ _ _ _ 2.1 2.1 5 Af Af ltac:(bd) ltac:(bd) ltac:(lra) ltac:(okb)) as Ap.
  apply (vol_hangs L (Bmult mode_NE delta delta) (Bmult mode_NE f f) v s t (D ^ 2) (Ph ^ 2) V); try assumption; rewrite ?(ext_fin s Fs), ?(ext_fin t Ft); try lra.
  - replace (Ph ^ 2) with (Ph * Ph) in * by ring. apply (ap_weak _ _ _ _ Ap). ulra.
  - apply (ap_weak _ _ _ _ Av). lra.
Qed.
Lemma half_hangs L r RD s rj dj t tol o sc : exp_accurate L -> lnw_accurate L ->
  num_in (- 10 ^ 4) (10 ^ 4) r -> num_in 1 350 RD -> num_in (/ 100) (3 / 10) s -> num_in (- 10 ^ 4) (10 ^ 4) rj -> num_in 1 350 dj ->
  num_in (/ 10 ^ 150) (/ 10 ^ 34) t -> Rabs (B2R r - B2R rj) <= 800 -> ap o sc 0 -> 0 <= sc <= 1 ->
  g2_calm (B2R r) (B2R RD) [(g2mu (B2R rj), g2phi (B2R dj), sc)] ->
  let g := gB L (phB dj) in let e := eB L (muB r) (muB rj) g in let v := Bdiv mode_NE one64 (t1B g e) in let delta := Bmult mode_NE v (t2B o g e) in let f := phB RD in
  forall fuel, g2_new_volatility (A := B64A L) fuel s (Bmult mode_NE delta delta) (Bmult mode_NE f f) v t tol = None.
Proof.
  intros HE HL Nr Nd Ns Nj Ndj Nt GAP AO BO U g e v delta f. destruct (ph_ap RD Nd) as [Aph Bph].
  destruct (pair_ap L r rj dj HE Nr Nj Ndj GAP) as (AG & BG & AE & BE). fold g in AG, AE. fold e in AE. unfold g2_calm in U. cbv zeta in U.
  set (games := [_]) in U. set (G := g2g (g2phi (B2R dj))) in *. set (E := g2E (g2mu (B2R r)) (g2mu (B2R rj)) (g2phi (B2R dj))) in *.
  assert (EV : g2v (g2mu (B2R r)) games = / (G ^ 2 * E * (1 - E))) by (unfold g2v, games; simpl map; unfold Rsum; cbn [fold_right]; fold G E; f_equal; ring).
  assert (EM : g2M (g2mu (B2R r)) games = G * (sc - E)) by (unfold g2M, games; simpl map; unfold Rsum; cbn [fold_right]; fold G E; ring).
  rewrite EV, EM in U.
  destruct (t1_ap g G e E AG BG AE BE) as [A1 B1]. destruct (t2_ap o sc g G e E AO BO AG BG AE BE) as (A2 & B2 & A3).
  apply (ap_weak _ _ _ (1 * (48 / 10 ^ 15))) in A1; [|lra]. apply (ap_weak _ _ _ (1 * (49 / 10 ^ 15))) in A2; [|lra].
  apply (upd_hangs L f _ (t1B g e) _ (t2B o g e) _ 1 s t tol HE HL Aph Bph ltac:(lra) A1 ltac:(lra) A2 Ns Nt). exact U.
Qed.


Lemma C117_game_proof : forall (L : Libm) (fuel : nat) (p1 p2 : Glicko2Rating B64) (o : Outcomes) (cfg : Glicko2Config B64),
  exp_accurate L -> lnw_accurate L ->
  num_in (- 10 ^ 4) (10 ^ 4) (g2_rating p1) -> num_in 1 350 (g2_deviation p1) -> num_in (/ 100) (3 / 10) (g2_volatility p1) ->
  num_in (- 10 ^ 4) (10 ^ 4) (g2_rating p2) -> num_in 1 350 (g2_deviation p2) ->
  num_in (/ 10 ^ 150) (/ 10 ^ 34) (g2_tau cfg) ->
  let r1 := B2R (g2_rating p1) in let r2 := B2R (g2_rating p2) in
  Rabs (r1 - r2) <= 800 -> (match o with WIN => r2 <= r1 | LOSS => r1 <= r2 | DRAW => Rabs (r1 - r2) <= 300 end) ->
  glicko2 (A := B64A L) fuel p1 p2 o cfg = None.
Proof.
  intros L fuel [r1 d1 s1] [r2 d2 s2] o [t tol] HE HL. cbn [g2_rating g2_deviation g2_volatility g2_tau g2_convergence_tolerance].
  intros N1 M1 V1 N2 M2 Nt GAP U.
  destruct (ext_points L o) as [Fp Ep]. pose proof (points_range o) as PR.
  assert (C1 : g2_calm (B2R r1) (B2R d1) [(g2mu (B2R r2), g2phi (B2R d2), points o)]). { destruct M1 as [F1 B1], M2 as [F2 B2]. apply no_upset_calm; assumption. }
  pose proof (half_hangs L r1 d1 s1 r2 d2 t tol _ _ HE HL N1 M1 V1 N2 M2 Nt GAP (ap_exact _ _ Fp Ep) PR C1 fuel) as Z1.
  unfold glicko2. cbn [g2_rating g2_deviation g2_volatility g2_tau g2_convergence_tolerance].
  match goal with |- match ?a with _ => _ end = _ => replace a with (@None B64) by (symmetry; exact Z1) end. reflexivity.
Qed.

Lemma C117_period_proof : forall (L : Libm) (fuel : nat) (p : Glicko2Rating B64) (rs : list (Glicko2Rating B64 * Outcomes)) (cfg : Glicko2Config B64),
  exp_accurate L -> lnw_accurate L -> (1 <= length rs <= 100)%nat ->
  num_in (- 10 ^ 4) (10 ^ 4) (g2_rating p) -> num_in 1 350 (g2_deviation p) -> num_in (/ 100) (3 / 10) (g2_volatility p) ->
  num_in (/ 10 ^ 150) (/ 10 ^ 34) (g2_tau cfg) ->
  let r := B2R (g2_rating p) in let d := B2R (g2_deviation p) in
  Forall (fun g => num_in (- 10 ^ 4) (10 ^ 4) (g2_rating (fst g)) /\ num_in 1 350 (g2_deviation (fst g)) /\ Rabs (r - B2R (g2_rating (fst g))) <= 800) rs ->
  let games := map (fun g => (g2mu (B2R (g2_rating (fst g))), g2phi (B2R (g2_deviation (fst g))), points (snd g))) rs in
  g2_calm r d games -> glicko2_rating_period (A := B64A L) fuel p rs cfg = None.
Proof.
  intros L fuel [r d s] rs [t tol] HE HL LEN. cbn [g2_rating g2_deviation g2_volatility g2_tau g2_convergence_tolerance].
  intros Nr Nd Ns Nt HF MOD. pose (R := B2R r). set (games := map (fun g : Glicko2Rating B64 * Outcomes => (g2mu (B2R (g2_rating (fst g))), g2phi (B2R (g2_deviation (fst g))), points (snd g))) rs) in *. change (g2_calm R (B2R d) games) in MOD.
  set (g := fun x : Glicko2Rating B64 * Outcomes => gB L (phB (g2_deviation (fst x)))). set (e := fun x : Glicko2Rating B64 * Outcomes => eB L (muB r) (muB (g2_rating (fst x))) (g x)).
  set (G := fun x : Glicko2Rating B64 * Outcomes => g2g (g2phi (B2R (g2_deviation (fst x))))).
  set (E := fun x : Glicko2Rating B64 * Outcomes => g2E (g2mu R) (g2mu (B2R (g2_rating (fst x)))) (g2phi (B2R (g2_deviation (fst x))))).
  set (f1 := fun x => t1B (g x) (e x)). set (f2 := fun x : Glicko2Rating B64 * Outcomes => t2B (to_chess_points (A := B64A L) (snd x)) (g x) (e x)).
  set (F1 := fun x => G x ^ 2 * E x * (1 - E x)). set (F2 := fun x : Glicko2Rating B64 * Outcomes => G x * (points (snd x) - E x)).
  assert (P1 : Forall (fun x => (ap (f1 x) (F1 x) (35 / 10 ^ 15) /\ Rabs (F1 x) <= 1) /\ 0.004099 <= F1 x <= / 4) rs /\ Forall (fun x => ap (f2 x) (F2 x) (36 / 10 ^ 15) /\ Rabs (F2 x) <= 1) rs).
  { split; apply (Forall_impl _ (P := fun x => _)) with (2 := HF); intros x (Hr & Hd & GAP); destruct (pair_ap L r (g2_rating (fst x)) (g2_deviation (fst x)) HE Nr Hr Hd GAP) as (AG & BG & AE & BE).
    - destruct (t1_ap _ _ _ _ AG BG AE BE) as [A1 B1]. split; [split; [exact A1|]|exact B1]. unfold F1, G, E, R. rewrite Rabs_pos_eq; lra.
    - destruct (ext_points L (snd x)) as [Fp Ep]. destruct (t2_ap _ _ _ _ _ _ (ap_exact _ _ Fp Ep) (points_range (snd x)) AG BG AE BE) as (A2 & B2 & _). split; assumption. }
  destruct P1 as [P1 P2]. set (n := INR (length rs)).
  assert (Hn : 1 <= n <= 100). { unfold n. split; [apply (le_INR 1); lia|]. replace 100 with (INR 100) by (rewrite INR_IZR_INZ; reflexivity). apply le_INR; lia. }
  destruct (sum100 _ L f1 F1 (35 / 10 ^ 15) rs ltac:(lra) ltac:(apply (Forall_impl _) with (2 := P1); tauto) ltac:(lia)) as [S1 _]. fold n in S1.
  destruct (sum100 _ L f2 F2 (36 / 10 ^ 15) rs ltac:(lra) P2 ltac:(lia)) as [S2 BM]. fold n in S2, BM.
  assert (BS : 0.004099 * n <= Rsum (map F1 rs) <= n / 4).
  { unfold n. clear - P1. induction rs as [|x l IH]; [simpl; lra|]. apply Forall_cons_iff in P1 as [[_ B] P1]. specialize (IH P1). simpl length. rewrite S_INR. simpl map. unfold Rsum in *. cbn [fold_right]. lra. }
  assert (EV : g2v (g2mu R) games = / Rsum (map F1 rs)). { unfold g2v, games. rewrite map_map. reflexivity. }
  assert (EM : g2M (g2mu R) games = Rsum (map F2 rs)). { unfold g2M, games. rewrite map_map. reflexivity. }
  destruct (ph_ap d Nd) as [Aph Bph]. unfold g2_calm in MOD. cbv zeta in MOD. fold R in MOD. rewrite EV, EM in MOD.
  apply (ap_weak _ _ _ (n * (48 / 10 ^ 15))) in S1; [|unfold u0; nra]. apply (ap_weak _ _ _ (n * (49 / 10 ^ 15))) in S2; [|unfold u0; nra].
  pose proof (upd_hangs L (phB d) _ _ _ _ _ n s t tol HE HL Aph Bph Hn S1 BS S2 Ns Nt MOD fuel) as Z.
  destruct rs as [|x l]; [simpl in LEN; lia|].
  unfold glicko2_rating_period. cbn [g2_rating g2_deviation g2_volatility g2_tau g2_convergence_tolerance].
  match goal with |- match ?a with _ => _ end = _ => replace a with (@None B64) by (symmetry; exact Z) end. reflexivity.
Qed.
(** 2^-120 *)
Definition tau_tiny : B64 := @B754_finite 53 1024 false 4503599627370496 (-172) eq_refl.
