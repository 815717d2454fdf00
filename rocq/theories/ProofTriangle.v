(** Proofs of C130: the expected scores of three players fit together. *)
From Coq Require Import ZArith NArith List Bool Reals Lra Lia.
From Verif Require Import Arith XR Tac ModelLib ModelElo ModelFifa ModelIngo ModelUscf ModelEgf ModelDwz ModelGlicko ModelGlicko2 ModelWengLin ModelTS
  Spec SpecTS SpecInTS ProofElo ProofFifa ProofIngo ProofUscf ProofEgf ProofDwz ProofGlicko ProofGlicko2 ProofWengLin ProofTS MathTS.
Import Spec ListNotations.
Local Open Scope R_scope.

(** The odds multiply: e/(1-e) of a against c is that of a against b times that of b against c. *)
Lemma odds_mult y z : 0 < y -> 0 < z -> / (1 + y * z) * (1 - / (1 + y)) * (1 - / (1 + z)) = (1 - / (1 + y * z)) * / (1 + y) * / (1 + z).
Proof. intros Hy Hz. assert (0 < y * z) by (apply Rmult_lt_0_compat; auto). field. repeat split; lra. Qed.
Lemma elo_odds a b c : elo_E a c * (1 - elo_E a b) * (1 - elo_E b c) = (1 - elo_E a c) * elo_E a b * elo_E b c.
Proof.
  unfold elo_E, Rdiv. rewrite !Rmult_1_l. replace ((c - a) * / 400) with ((b - a) * / 400 + (c - b) * / 400) by field. rewrite Rpower_plus. apply odds_mult; apply exp_pos.
Qed.
Lemma fifa_odds a b c : fifa_We a c * (1 - fifa_We a b) * (1 - fifa_We b c) = (1 - fifa_We a c) * fifa_We a b * fifa_We b c.
Proof.
  rewrite !fifa_We_inv. replace (- (a - c) / 600) with (- (a - b) / 600 + - (b - c) / 600) by field. rewrite Rpower_plus. apply odds_mult; apply exp_pos.
Qed.
Lemma egf_odds a b c : egf_E a c * (1 - egf_E a b) * (1 - egf_E b c) = (1 - egf_E a c) * egf_E a b * egf_E b c.
Proof.
  rewrite !egf_E_inv. replace (egf_B c - egf_B a) with ((egf_B b - egf_B a) + (egf_B c - egf_B b)) by ring. rewrite exp_plus. apply odds_mult; apply exp_pos.
Qed.
Lemma C130_elo_proof : forall a b c, exists x y z,
  fst (elo_expected_score (mkElo (Fin a)) (mkElo (Fin b))) = Fin x /\ fst (elo_expected_score (mkElo (Fin b)) (mkElo (Fin c))) = Fin y /\
  fst (elo_expected_score (mkElo (Fin a)) (mkElo (Fin c))) = Fin z /\ 0 < x < 1 /\ 0 < y < 1 /\ 0 < z < 1 /\
  z / (1 - z) = x / (1 - x) * (y / (1 - y)).
Proof.
  intros a b c. rewrite !elo_expected_eval. cbn [fst]. exists (elo_E a b), (elo_E b c), (elo_E a c). pose proof (elo_E_range a b). pose proof (elo_E_range b c). pose proof (elo_E_range a c).
  repeat (split; [reflexivity || lra|]). pose proof (elo_odds a b c) as O. set (x := elo_E a b) in *. set (y := elo_E b c) in *. set (z := elo_E a c) in *.
  apply Rmult_eq_reg_r with ((1 - z) * (1 - x) * (1 - y)); [|apply Rgt_not_eq; assert (0 < (1 - z) * (1 - x)) by nra; nra].
  transitivity (z * (1 - x) * (1 - y)); [field; lra|]. rewrite O. field; lra.
Qed.
Lemma odds_form x y z : 0 < x < 1 -> 0 < y < 1 -> 0 < z < 1 -> z * (1 - x) * (1 - y) = (1 - z) * x * y -> z / (1 - z) = x / (1 - x) * (y / (1 - y)).
Proof.
  intros Hx Hy Hz O. apply Rmult_eq_reg_r with ((1 - z) * (1 - x) * (1 - y)); [|apply Rgt_not_eq; assert (0 < (1 - z) * (1 - x)) by nra; nra].
  transitivity (z * (1 - x) * (1 - y)); [field; lra|]. rewrite O. field; lra.
Qed.
Lemma C130_fifa_proof : forall a b c, exists x y z,
  fst (fifa_expected_score (mkFifa (Fin a)) (mkFifa (Fin b))) = Fin x /\ fst (fifa_expected_score (mkFifa (Fin b)) (mkFifa (Fin c))) = Fin y /\
  fst (fifa_expected_score (mkFifa (Fin a)) (mkFifa (Fin c))) = Fin z /\ 0 < x < 1 /\ 0 < y < 1 /\ 0 < z < 1 /\
  z / (1 - z) = x / (1 - x) * (y / (1 - y)).
Proof.
  intros a b c. rewrite !fifa_expected_eval. cbn [fst]. exists (fifa_We a b), (fifa_We b c), (fifa_We a c). pose proof (fifa_We_range a b). pose proof (fifa_We_range b c). pose proof (fifa_We_range a c).
  repeat (split; [reflexivity || lra|]). apply odds_form; auto. apply fifa_odds.
Qed.
Lemma uscf_exp_eval a n b n' : fst (uscf_expected_score (mkUscf (Fin a) n) (mkUscf (Fin b) n')) = Fin (elo_E a b).
Proof. unfold uscf_expected_score. cbn [fst uscf_rating]. apply uscf_e_eval. Qed.
Lemma C130_uscf_proof : forall a n b n' c n'', exists x y z,
  fst (uscf_expected_score (mkUscf (Fin a) n) (mkUscf (Fin b) n')) = Fin x /\ fst (uscf_expected_score (mkUscf (Fin b) n') (mkUscf (Fin c) n'')) = Fin y /\
  fst (uscf_expected_score (mkUscf (Fin a) n) (mkUscf (Fin c) n'')) = Fin z /\ 0 < x < 1 /\ 0 < y < 1 /\ 0 < z < 1 /\
  z / (1 - z) = x / (1 - x) * (y / (1 - y)).
Proof.
  intros a n b n' c n''. rewrite !uscf_exp_eval. exists (elo_E a b), (elo_E b c), (elo_E a c). pose proof (elo_E_range a b). pose proof (elo_E_range b c). pose proof (elo_E_range a c).
  repeat (split; [reflexivity || lra|]). apply odds_form; auto. apply elo_odds.
Qed.
Lemma C130_dwz_proof : forall a i k b i' k' c i'' k'', exists x y z,
  fst (dwz_expected_score (mkDwz (Fin a) i k) (mkDwz (Fin b) i' k')) = Fin x /\ fst (dwz_expected_score (mkDwz (Fin b) i' k') (mkDwz (Fin c) i'' k'')) = Fin y /\
  fst (dwz_expected_score (mkDwz (Fin a) i k) (mkDwz (Fin c) i'' k'')) = Fin z /\ 0 < x < 1 /\ 0 < y < 1 /\ 0 < z < 1 /\
  z / (1 - z) = x / (1 - x) * (y / (1 - y)).
Proof.
  intros. rewrite !dwz_expected_eval. cbn [fst]. exists (elo_E a b), (elo_E b c), (elo_E a c). pose proof (elo_E_range a b). pose proof (elo_E_range b c). pose proof (elo_E_range a c).
  repeat (split; [reflexivity || lra|]). apply odds_form; auto. apply elo_odds.
Qed.
Lemma egf_exp0 a b : a < 3300 -> b < 3300 -> fst (egf_expected_score (mkEgf (Fin a)) (mkEgf (Fin b)) egf_config_new) = Fin (egf_E a b).
Proof.
  intros Ha Hb. change (egf_config_new (F := XR)) with (mkEgfConfig (Fin 0)).
  assert (E1 : eff1 0 a = a) by (unfold eff1, egf_adj, egf_h1; destruct (Rlt_dec 0 0); [lra|]; destruct (Req_EM_T 0 0); lra).
  assert (E2 : eff2 0 b = b) by (unfold eff2, egf_adj, egf_h2; destruct (Rlt_dec 0 0); [lra|]; destruct (Req_EM_T 0 0); lra).
  rewrite egf_expected_eval; rewrite ?E1, ?E2; auto.
Qed.
Lemma C130_egf_proof : forall a b c, a < 3300 -> b < 3300 -> c < 3300 -> exists x y z,
  fst (egf_expected_score (mkEgf (Fin a)) (mkEgf (Fin b)) egf_config_new) = Fin x /\ fst (egf_expected_score (mkEgf (Fin b)) (mkEgf (Fin c)) egf_config_new) = Fin y /\
  fst (egf_expected_score (mkEgf (Fin a)) (mkEgf (Fin c)) egf_config_new) = Fin z /\ 0 < x < 1 /\ 0 < y < 1 /\ 0 < z < 1 /\
  z / (1 - z) = x / (1 - x) * (y / (1 - y)).
Proof.
  intros a b c Ha Hb Hc. rewrite !egf_exp0 by auto. exists (egf_E a b), (egf_E b c), (egf_E a c). pose proof (egf_E_range a b). pose proof (egf_E_range b c). pose proof (egf_E_range a c).
  repeat (split; [reflexivity || lra|]). apply odds_form; auto. apply egf_odds.
Qed.
(** Ingo: the advantages add up. *)
Lemma C130_ingo_proof : forall a k b k' c k'', exists x y z,
  fst (ingo_expected_score (mkIngo (Fin a) k) (mkIngo (Fin b) k')) = Fin x /\ fst (ingo_expected_score (mkIngo (Fin b) k') (mkIngo (Fin c) k'')) = Fin y /\
  fst (ingo_expected_score (mkIngo (Fin a) k) (mkIngo (Fin c) k'')) = Fin z /\ z - 1 / 2 = (x - 1 / 2) + (y - 1 / 2).
Proof.
  intros. destruct (C25_partial_proof a k b k') as (x & x' & -> & _ & _ & Ex & _). destruct (C25_partial_proof b k' c k'') as (y & y' & -> & _ & _ & Ey & _).
  destruct (C25_partial_proof a k c k'') as (z & z' & -> & _ & _ & Ez & _). exists x, y, z. cbn [fst]. repeat (split; [reflexivity|]). subst. lra.
Qed.
(** With uncertainties the favourites still form a chain. *)
Lemma half_cmp (f : R -> R) b : (forall u v, u < v -> f u < f v) -> f b = 1 / 2 -> forall a, (1 / 2 <= f a <-> b <= a) /\ (1 / 2 < f a <-> b < a).
Proof.
  intros M E a. destruct (Rtotal_order a b) as [h|[->|h]]; [apply M in h as h'|rewrite E|apply M in h as h']; split; split; intros; lra.
Qed.
Lemma chain3 (x y z a b c : R) : ((1 / 2 <= x <-> b <= a) /\ (1 / 2 < x <-> b < a)) -> ((1 / 2 <= y <-> c <= b) /\ (1 / 2 < y <-> c < b)) ->
  ((1 / 2 <= z <-> c <= a) /\ (1 / 2 < z <-> c < a)) ->
  (1 / 2 <= x -> 1 / 2 <= y -> 1 / 2 <= z) /\ (1 / 2 <= x -> 1 / 2 < y -> 1 / 2 < z) /\ (1 / 2 < x -> 1 / 2 <= y -> 1 / 2 < z).
Proof.
  intros [X1 X2] [Y1 Y2] [Z1 Z2]. repeat split; intros Hx Hy.
  - apply X1 in Hx. apply Y1 in Hy. apply Z1. lra.
  - apply X1 in Hx. apply Y2 in Hy. apply Z2. lra.
  - apply X2 in Hx. apply Y1 in Hy. apply Z2. lra.
Qed.
Lemma C130_glicko_proof : forall a RDa b RDb c RDc, exists x y z,
  fst (glicko_expected_score (mkGlicko (Fin a) (Fin RDa)) (mkGlicko (Fin b) (Fin RDb))) = Fin x /\
  fst (glicko_expected_score (mkGlicko (Fin b) (Fin RDb)) (mkGlicko (Fin c) (Fin RDc))) = Fin y /\
  fst (glicko_expected_score (mkGlicko (Fin a) (Fin RDa)) (mkGlicko (Fin c) (Fin RDc))) = Fin z /\
  (1 / 2 <= x -> 1 / 2 <= y -> 1 / 2 <= z) /\ (1 / 2 <= x -> 1 / 2 < y -> 1 / 2 < z) /\ (1 / 2 < x -> 1 / 2 <= y -> 1 / 2 < z).
Proof.
  intros. rewrite !glicko_expected_eval. cbn [fst]. do 3 eexists. do 3 (split; [reflexivity|]).
  apply (chain3 _ _ _ a b c); refine (half_cmp (fun u => gE u _ _) _ _ _ _); try apply gE_self; intros u v; apply gE_lt.
Qed.
Lemma C130_glicko2_proof : forall a RDa sa b RDb sb c RDc sc, exists x y z,
  fst (glicko2_expected_score (mkGlicko2 (Fin a) (Fin RDa) (Fin sa)) (mkGlicko2 (Fin b) (Fin RDb) (Fin sb))) = Fin x /\
  fst (glicko2_expected_score (mkGlicko2 (Fin b) (Fin RDb) (Fin sb)) (mkGlicko2 (Fin c) (Fin RDc) (Fin sc))) = Fin y /\
  fst (glicko2_expected_score (mkGlicko2 (Fin a) (Fin RDa) (Fin sa)) (mkGlicko2 (Fin c) (Fin RDc) (Fin sc))) = Fin z /\
  (1 / 2 <= x -> 1 / 2 <= y -> 1 / 2 <= z) /\ (1 / 2 <= x -> 1 / 2 < y -> 1 / 2 < z) /\ (1 / 2 < x -> 1 / 2 <= y -> 1 / 2 < z).
Proof.
  intros. rewrite !g2_expected_eval. cbv zeta. cbn [fst]. do 3 eexists. do 3 (split; [reflexivity|]).
  apply (chain3 _ _ _ (g2mu a) (g2mu b) (g2mu c)); refine (half_cmp (fun u => g2E u _ _) _ _ _ _); try apply g2E_self; intros u v; apply g2E_lt.
Qed.
Lemma wl_exp_eval m1 s1 m2 s2 beta kappa : 0 < beta -> fst (wl_expected_score (mkWL (Fin m1) (Fin s1)) (mkWL (Fin m2) (Fin s2)) (mkWLConfig (Fin beta) kappa)) = Fin (wlp m1 m2 (sqrt (s1 ^ 2 + s2 ^ 2 + 2 * beta ^ 2))).
Proof. intros Hb. destruct (C45_players_proof m1 s1 m2 s2 beta kappa Hb) as (e1 & e2 & -> & -> & _). reflexivity. Qed.
Lemma wl_c_pos s1 s2 beta : 0 < beta -> 0 < sqrt (s1 ^ 2 + s2 ^ 2 + 2 * beta ^ 2).
Proof. intros Hb. apply sqrt_lt_R0. pose proof (pow2_ge_0 s1). pose proof (pow2_ge_0 s2). assert (0 < beta ^ 2) by (apply pow_lt; auto). lra. Qed.
Lemma C130_wl_proof : forall a sa b sb c sc beta kappa, 0 < beta -> exists x y z,
  fst (wl_expected_score (mkWL (Fin a) (Fin sa)) (mkWL (Fin b) (Fin sb)) (mkWLConfig (Fin beta) kappa)) = Fin x /\
  fst (wl_expected_score (mkWL (Fin b) (Fin sb)) (mkWL (Fin c) (Fin sc)) (mkWLConfig (Fin beta) kappa)) = Fin y /\
  fst (wl_expected_score (mkWL (Fin a) (Fin sa)) (mkWL (Fin c) (Fin sc)) (mkWLConfig (Fin beta) kappa)) = Fin z /\
  (1 / 2 <= x -> 1 / 2 <= y -> 1 / 2 <= z) /\ (1 / 2 <= x -> 1 / 2 < y -> 1 / 2 < z) /\ (1 / 2 < x -> 1 / 2 <= y -> 1 / 2 < z).
Proof.
  intros a sa b sb c sc beta kappa Hb. rewrite !wl_exp_eval by auto. do 3 eexists. do 3 (split; [reflexivity|]).
  apply (chain3 _ _ _ a b c); refine (half_cmp (fun u => wlp u _ _) _ _ _ _); try apply wlp_self; intros u v; apply wlp_lt, wl_c_pos; auto.
Qed.
(** TrueSkill: the same up to the error of the approximated distribution function. *)
Lemma C130_ts_proof : forall a sa b sb c sc dp beta tau, 0 < beta -> exists x y z,
  fst (ts_expected_score (ts_in (a, sa)) (ts_in (b, sb)) (ts_cfg dp beta tau)) = Fin x /\
  fst (ts_expected_score (ts_in (b, sb)) (ts_in (c, sc)) (ts_cfg dp beta tau)) = Fin y /\
  fst (ts_expected_score (ts_in (a, sa)) (ts_in (c, sc)) (ts_cfg dp beta tau)) = Fin z /\
  (0.5000001 <= x -> 0.5000001 <= y -> 0.4999999 < z).
Proof.
  intros a sa b sb c sc dp beta tau Hb. destruct (C54_players_proof a sa b sb dp beta tau Hb) as (x & _ & _ & -> & _ & _ & X).
  destruct (C54_players_proof b sb c sc dp beta tau Hb) as (y & _ & _ & -> & _ & _ & Y). destruct (C54_players_proof a sa c sc dp beta tau Hb) as (z & _ & Ez & -> & _ & Z & _).
  exists x, y, z. cbn [fst]. do 3 (split; [reflexivity|]). intros Hx Hy. destruct (Rlt_dec a b) as [h|h]; [specialize (X h); lra|]. destruct (Rlt_dec b c) as [h'|h']; [specialize (Y h'); lra|].
  destruct (Req_dec a c) as [->|n]; [|apply Z; lra]. rewrite Ez. rewrite Rminus_diag_eq by auto. unfold Rdiv. rewrite Rmult_0_l. apply Phi_pos_ge. lra.
Qed.
(** But the expected score need not be the larger one: a weaker opponent with a larger uncertainty can be expected to score more. *)
Lemma C130_glicko_refuted_proof : forall a RDa b RDb, b < a -> 0 <= RDb < 350 -> exists c x z, c < b /\
  fst (glicko_expected_score (mkGlicko (Fin a) (Fin RDa)) (mkGlicko (Fin b) (Fin RDb))) = Fin x /\
  fst (glicko_expected_score (mkGlicko (Fin a) (Fin RDa)) (mkGlicko (Fin c) (Fin 350))) = Fin z /\ 1 / 2 < z < x.
Proof.
  intros a RDa b RDb Hab H. set (h := sqrt (RDa ^ 2 + RDb ^ 2)). set (h' := sqrt (RDa ^ 2 + 350 ^ 2)). pose proof (pow2_ge_0 RDa). pose proof (pow2_ge_0 RDb).
  assert (L : 0 <= h < h') by (split; [apply sqrt_pos|apply sqrt_lt_1_alt; split; [lra|nra]]). pose proof (gg_lt h h' L) as G. pose proof (gg_range h'). pose proof (gg_range h).
  set (d := (gg h - gg h') * (a - b)). assert (D : 0 < d) by (unfold d; nra). exists (b - d / 2). rewrite !glicko_expected_eval. cbn [fst]. fold h h'. do 2 eexists. split; [lra|].
  do 2 (split; [reflexivity|]). split.
  - rewrite <- (gE_self (b - d / 2) h') at 1. apply gE_lt. lra.
  - unfold gE. apply Rinv_lt_contravar; [apply Rmult_lt_0_compat; apply Rplus_lt_0_compat; try apply exp_pos; lra|]. apply Rplus_lt_compat_l. apply Rpower_lt; [lra|].
    assert (gg h' * (a - (b - d / 2)) < gg h * (a - b)) by (unfold d in *; nra). lra.
Qed.
Lemma C130_wl_refuted_proof : forall a sa b sb sc beta kappa, 0 < beta -> b < a -> 0 <= sb < sc -> exists c x z, c < b /\
  fst (wl_expected_score (mkWL (Fin a) (Fin sa)) (mkWL (Fin b) (Fin sb)) (mkWLConfig (Fin beta) kappa)) = Fin x /\
  fst (wl_expected_score (mkWL (Fin a) (Fin sa)) (mkWL (Fin c) (Fin sc)) (mkWLConfig (Fin beta) kappa)) = Fin z /\ 1 / 2 < z < x.
Proof.
  intros a sa b sb sc beta kappa Hb Hab H. pose proof (wl_c_pos sa sb beta Hb) as C. pose proof (wl_c_pos sa sc beta Hb) as C'.
  set (c := sqrt (sa ^ 2 + sb ^ 2 + 2 * beta ^ 2)) in *. set (c' := sqrt (sa ^ 2 + sc ^ 2 + 2 * beta ^ 2)) in *.
  assert (L : c < c'). { apply sqrt_lt_1_alt. pose proof (pow2_ge_0 sa). pose proof (pow2_ge_0 sb). pose proof (pow2_ge_0 beta). split; [lra|nra]. }
  set (d := (c' - c) * ((a - b) / c)). assert (D : 0 < d) by (unfold d; apply Rmult_lt_0_compat; [lra|apply Rdiv_lt_0_compat; lra]).
  exists (b - d / 2). rewrite !wl_exp_eval by auto. fold c c'. do 2 eexists. split; [lra|]. do 2 (split; [reflexivity|]). split.
  - rewrite <- (wlp_self (b - d / 2) c') at 1. apply wlp_lt; lra.
  - unfold wlp. apply Rinv_lt_contravar; [apply Rmult_lt_0_compat; apply Rplus_lt_0_compat; try apply exp_pos; lra|]. apply Rplus_lt_compat_l, exp_increasing.
    assert (Q : c' * ((a - b) / c) = (a - b) + d) by (unfold d; field; lra).
    assert ((b - d / 2 - a) / c' > (b - a) / c); [|lra]. apply Rmult_gt_reg_l with c'; [lra|]. replace (c' * ((b - d / 2 - a) / c')) with (b - d / 2 - a) by (field; lra).
    replace (c' * ((b - a) / c)) with (- (c' * ((a - b) / c))) by (field; lra). lra.
Qed.
