(** Proofs of C150: the same results in one rating period or in several. *)
From Coq Require Import ZArith NArith List Bool Reals Lra Lia.
From Verif Require Import Arith XR Tac ModelLib ModelElo ModelFifa ModelWengLin ModelTS ModelIngo ModelUscf ModelEgf Spec ProofElo ProofIngo ProofUscf ProofEgf ProofEgf2 ProofRank ProofPairs.
Import ListNotations.
Local Open Scope R_scope.

Lemma C150_sequential_proof : forall (F : Type) (A : Arith F),
  (forall p ps c, elo_rating_period p (concat ps) c = fold_left (fun p l => elo_rating_period p l c) ps p) /\
  (forall p ps, fifa_rating_period p (concat ps) = fold_left fifa_rating_period ps p) /\
  (forall p ps c, weng_lin_rating_period p (concat ps) c = fold_left (fun p l => weng_lin_rating_period p l c) ps p) /\
  (forall p ps c, trueskill_rating_period p (concat ps) c = fold_left (fun p l => trueskill_rating_period p l c) ps p).
Proof.
  intros F A. repeat split.
  - intros p ps c. revert p. induction ps as [|l ps IH]; intros p; cbn [concat fold_left]; [now destruct p|]. rewrite <- IH. unfold elo_rating_period. now rewrite fold_left_app.
  - intros p ps. revert p. induction ps as [|l ps IH]; intros p; cbn [concat fold_left]; [now destruct p|]. rewrite <- IH. unfold fifa_rating_period. now rewrite fold_left_app.
  - intros p ps c. revert p. induction ps as [|l ps IH]; intros p; cbn [concat fold_left]; [now destruct p|]. rewrite <- IH. unfold weng_lin_rating_period. rewrite fold_left_app. destruct (fold_left (wl_period_step c) l (wl_rating p, wl_uncertainty p)) as [r u]. reflexivity.
  - intros p ps c. revert p. induction ps as [|l ps IH]; intros p; cbn [concat fold_left]; [now destruct p|]. rewrite <- IH. unfold trueskill_rating_period. cbv zeta. rewrite fold_left_app. destruct (fold_left (ts_period_step c _) l (ts_rating p, ts_uncertainty p)) as [r u]. reflexivity.
Qed.

(** Provisional USCF players: the rating is an average over all games. *)
Lemma uscf_two_periods r n l1 l2 t : (n + N.of_nat (length l1) <= 8)%N -> (n + N.of_nat (length l1) + N.of_nat (length l2) < 2 ^ 64)%N ->
  uscf_rating_period (uscf_rating_period (mkUscf (Fin r) n) (uscf_results l1) (mkUscfConfig (Fin t))) (uscf_results l2) (mkUscfConfig (Fin t)) =
  uscf_rating_period (mkUscf (Fin r) n) (uscf_results (l1 ++ l2)) (mkUscfConfig (Fin t)).
Proof.
  intros H8 Hlt. destruct l1 as [|g1 l1']; [reflexivity|]. set (l1 := g1 :: l1') in *. assert (N1 : l1 <> []) by discriminate. assert (P1 : 0 < INR (length l1)) by (apply lt_0_INR; cbn; lia). clearbody l1.
  destruct l2 as [|g2 l2'].
  { rewrite app_nil_r. rewrite uscf_period_eval by (auto; lia). reflexivity. }
  set (l2 := g2 :: l2') in *. assert (N2 : l2 <> []) by discriminate. assert (P2 : 0 < INR (length l2)) by (apply lt_0_INR; cbn; lia). clearbody l2.
  rewrite uscf_period_eval by (auto; lia). rewrite uscf_period_eval by auto. rewrite uscf_period_eval; [|destruct l1; [congruence|discriminate]|rewrite app_length, Nat2N.inj_add; lia].
  f_equal; [|rewrite app_length, Nat2N.inj_add; lia]. f_equal. unfold uscf_period_val.
  replace (n <=? 8)%N with true by (symmetry; apply N.leb_le; lia). replace (n + N.of_nat (length l1) <=? 8)%N with true by (symmetry; apply N.leb_le; lia).
  pose proof (NR_nonneg n) as N0. assert (NA : NR (n + N.of_nat (length l1)) = NR n + INR (length l1)). { unfold NR. rewrite N2Z.inj_add, plus_IZR, nat_N_Z, <- INR_IZR_INZ. reflexivity. }
  rewrite NA. unfold opp_ratings, count_wins, count_losses. rewrite !map_app, !filter_app, !app_length, Rsum_app, !plus_INR. unfold uscf_prov. field. lra.
Qed.
Lemma C150_uscf_proof : forall r n (ps : list (list (R * N * Outcomes))) l t,
  let play := fun p rs => uscf_rating_period p (map (fun g => (mkUscf (Fin (fst (fst g))) (snd (fst g)), snd g)) rs) (mkUscfConfig (Fin t)) in
  (n + N.of_nat (length (concat ps)) <= 8)%N -> (n + N.of_nat (length (concat ps)) + N.of_nat (length l) < 2 ^ 64)%N ->
  fold_left play (ps ++ [l]) (mkUscf (Fin r) n) = play (mkUscf (Fin r) n) (concat ps ++ l).
Proof.
  intros r n ps l t play. assert (PE : forall p rs, play p rs = uscf_rating_period p (uscf_results rs) (mkUscfConfig (Fin t))) by (intros p rs; unfold play, uscf_results; f_equal; apply map_ext; now intros [[? ?] ?]). revert r n. induction ps as [|l1 ps IH]; intros r n H8 Hlt; [reflexivity|].
  cbn [concat app fold_left] in *. rewrite app_length, Nat2N.inj_add in H8, Hlt. destruct l1 as [|g1 l1'].
  { cbn [length] in *. change (play (mkUscf (Fin r) n) []) with (mkUscf (Fin r) n). apply IH; lia. }
  set (l1 := g1 :: l1') in *. assert (N1 : l1 <> []) by discriminate. clearbody l1. rewrite PE. rewrite uscf_period_eval by (auto; lia). rewrite IH by lia.
  rewrite <- (uscf_period_eval r n l1 t N1) by lia. rewrite !PE. rewrite uscf_two_periods; [now rewrite app_assoc|lia|rewrite app_length, Nat2N.inj_add; lia].
Qed.

(** Ingo: dividing a period pulls the rating towards the second part. *)
Lemma C150_ingo_proof : forall r a (l1 l2 : list (R * N * Outcomes)), l1 <> [] -> l2 <> [] -> exists x y,
  let play := fun p rs => ingo_rating_period p (map (fun g => (mkIngo (Fin (fst (fst g))) (snd (fst g)), snd g)) rs) in
  let n1 := INR (length l1) in let n2 := INR (length l2) in let D := ingo_D a in let w := n1 * n2 / ((D + n1) * (D + n2)) in
  let perf2 := Rsum (map (fun g => fst (fst g) - (100 * points (snd g) - 50)) l2) / n2 in
  play (mkIngo (Fin r) a) (l1 ++ l2) = mkIngo (Fin x) a /\ play (play (mkIngo (Fin r) a) l1) l2 = mkIngo (Fin y) a /\
  y = (1 - w) * x + w * perf2 /\ 0 < w < 1.
Proof.
  intros r a l1 l2 N1 N2. pose proof (ingo_D_range a) as HD. assert (P1 : 0 < INR (length l1)) by (destruct l1; [congruence|apply lt_0_INR; cbn; lia]). assert (P2 : 0 < INR (length l2)) by (destruct l2; [congruence|apply lt_0_INR; cbn; lia]).
  do 2 eexists. cbv zeta beta. assert (PE : forall rs, map (fun g : R * N * Outcomes => (mkIngo (Fin (fst (fst g))) (snd (fst g)), snd g)) rs = ingo_games rs) by (intros rs; unfold ingo_games; apply map_ext; now intros [[? ?] ?]).
  rewrite !PE. rewrite !ingo_period_eval; auto; [|destruct l1; [congruence|discriminate]]. split; [reflexivity|]. split; [reflexivity|].
  set (D := ingo_D a) in *. set (n1 := INR (length l1)) in *. set (n2 := INR (length l2)) in *. split.
  - unfold ingo_upd, ingo_perf, avg. rewrite !map_length, !map_app, !Rsum_app, app_length, plus_INR. fold n1 n2.
    assert (S : Rsum (map (fun g : R * N * Outcomes => fst (fst g) - (100 * points (snd g) - 50)) l2) = Rsum (map (fun g => fst (fst g)) l2) - (100 * Rsum (map (fun g => points (snd g)) l2) - 50 * n2)).
    { unfold n2. clear. induction l2 as [|g l IH]; [cbn [map length]; rewrite !Rsum_nil; cbn [INR]; lra|]. cbn [map length]. rewrite !Rsum_cons, S_INR, IH. lra. }
    rewrite S. field. lra.
  - assert (E : (D + n1) * (D + n2) = n1 * n2 + D * (D + n1 + n2)) by ring. assert (0 < n1 * n2) by nra. assert (0 < D * (D + n1 + n2)) by nra. rewrite E. split; [apply Rdiv_lt_0_compat; lra|]. apply (Rmult_lt_reg_r (n1 * n2 + D * (D + n1 + n2))); [lra|]. unfold Rdiv. rewrite Rmult_assoc, Rinv_l by lra. lra.
Qed.

(** EGF: wins are worth less if they are rated separately. *)
Lemma egf_C_dec a b : a <= b -> b < 3300 -> egf_C b <= egf_C a.
Proof. intros H L. unfold egf_C. apply Rle_Rpower_l; lra. Qed.
Lemma C150_egf_proof : forall r (l1 l2 : list R), -900 <= r < 3300 -> l1 <> [] -> l2 <> [] -> Forall (fun ro => ro < 3300) (l1 ++ l2) -> exists m x,
  let play := fun p l => egf_rating_period p (map (fun ro => (mkEgf (Fin ro), WIN, mkEgfConfig (Fin 0))) l) in
  play (mkEgf (Fin r)) l1 = mkEgf (Fin m) /\ play (mkEgf (Fin r)) (l1 ++ l2) = mkEgf (Fin x) /\
  (m < 3300 -> exists y, play (mkEgf (Fin m)) l2 = mkEgf (Fin y) /\ y < x).
Proof.
  intros r l1 l2 Hr N1 N2 HF. rewrite Forall_forall in HF.
  assert (h0 : egf_h1 0 = 0) by (unfold egf_h1; destruct (Rlt_dec 0 0); lra). assert (h0' : egf_h2 0 = 0) by (unfold egf_h2; destruct (Rlt_dec 0 0); lra). assert (ad : forall z, egf_adj 0 z = z) by (intros z; unfold egf_adj; destruct (Req_EM_T 0 0); lra).
  set (gain := fun z ro => egf_C z * (1 - egf_E z ro) + egf_bon z).
  assert (GP : forall z ro, 0 < gain z ro). { intros z ro. unfold gain. pose proof (egf_C_pos z). pose proof (egf_bon_pos z). pose proof (egf_E_range z ro). nra. }
  assert (PE : forall z l, -900 <= z < 3300 -> (forall ro, In ro l -> ro < 3300) -> egf_rating_period (mkEgf (Fin z)) (map (fun ro => (mkEgf (Fin ro), WIN, mkEgfConfig (Fin 0))) l) = mkEgf (Fin (z + Rsum (map (gain z) l)))).
  { intros z l Hz Hl. pose proof (C73_proof z (map (fun ro => (ro, WIN, 0)) l) (proj2 Hz)) as E. rewrite !map_map in E. rewrite E.
    - do 3 f_equal. apply Rsum_map_eq. intros ro _. cbn [points]. rewrite h0, h0', !ad. unfold egf_upd. pose proof (GP z ro) as G. unfold gain in *. rewrite Rmax_right by lra. ring.
    - intros opp o H I. apply in_map_iff in I. destruct I as (ro & [= <- <- <-] & I). rewrite h0, h0', !ad. split; [lra|now apply Hl]. }
  assert (F1 : forall ro, In ro l1 -> ro < 3300) by (intros; apply HF, in_or_app; auto). assert (F2 : forall ro, In ro l2 -> ro < 3300) by (intros; apply HF, in_or_app; auto).
  assert (SP : 0 < Rsum (map (gain r) l1)). { clear - N1 GP. destruct l1 as [|a l]; [congruence|]. cbn [map]. rewrite Rsum_cons. pose proof (GP r a). assert (0 <= Rsum (map (gain r) l)); [|lra]. clear - GP. induction l as [|b l IH]; cbn [map]; [rewrite Rsum_nil; lra|rewrite Rsum_cons; pose proof (GP r b); lra]. }
  exists (r + Rsum (map (gain r) l1)), (r + Rsum (map (gain r) (l1 ++ l2))). cbv zeta beta. split; [now apply PE|]. split; [now apply PE|]. intros Hm. set (m := r + Rsum (map (gain r) l1)) in *.
  exists (m + Rsum (map (gain m) l2)). split; [apply PE; [unfold m in *; lra|auto]|]. rewrite map_app, Rsum_app. assert (L : Rsum (map (gain m) l2) < Rsum (map (gain r) l2)); [|unfold m in *; lra].
  assert (GL : forall ro, In ro l2 -> gain m ro < gain r ro).
  { intros ro I. unfold gain. assert (RM : r < m) by (unfold m; lra). pose proof (egf_C_dec r m ltac:(lra) Hm). pose proof (egf_bon_dec r m ltac:(lra)). pose proof (egf_C_pos m). pose proof (egf_E_range r ro) as E1. pose proof (egf_E_range m ro) as E2.
    assert (E : egf_E r ro < egf_E m ro) by (rewrite (egf_E_swap ro r), (egf_E_swap ro m); pose proof (egf_E_opp ro r m RM Hm); lra). nra. }
  apply Rsum_lt_map; [intros x I; left; now apply GL|]. destruct l2 as [|a l]; [congruence|]. exists a. split; [now left|apply GL; now left].
Qed.
