From Coq Require Import ZArith NArith List Bool Reals Lra Lia Permutation.
From Verif Require Import Arith XR Tac ModelLib ModelElo ModelUscf Spec ProofElo.
Import ListNotations.
Local Open Scope R_scope.

Lemma uscf_e_eval a b : uscf_e_value (Fin a) (Fin b) = Fin (elo_E a b).
Proof.
  unfold uscf_e_value. xr. f_equal. unfold elo_E, Rdiv at 2. rewrite Rmult_1_l. f_equal.
  rewrite Rplus_comm. do 2 f_equal. field.
Qed.

Lemma usize_add_small a b : (a + b < 2 ^ 64)%N -> usize_add a b = (a + b)%N.
Proof. intros H. unfold usize_add, usize_max_plus1. now apply N.mod_small. Qed.

Lemma fofN_eval n : fofN n = Fin (IZR (Z.of_N n)).
Proof. reflexivity. Qed.
Definition NR (n : N) : R := IZR (Z.of_N n).
Lemma NR_add a b : NR (a + b) = NR a + NR b.
Proof. unfold NR. now rewrite N2Z.inj_add, plus_IZR. Qed.
Lemma NR_nonneg a : 0 <= NR a.
Proof. unfold NR. apply IZR_le. lia. Qed.
Lemma NR_pos a : (0 < a)%N -> 0 < NR a.
Proof. intros. unfold NR. apply IZR_lt. lia. Qed.
Lemma NR_of_nat n : NR (N.of_nat n) = INR n.
Proof. unfold NR. now rewrite nat_N_Z, <- INR_IZR_INZ. Qed.

Lemma uscf_Ne_arg r : 0 < 739 / 100000000 * ((2569 - r) * (2569 - r)) + 662 / 1000.
Proof. assert (0 <= (2569 - r) * (2569 - r)) by apply Rle_0_sqr. nra. Qed.

Lemma uscf_Ne_eval r n : uscf_effective_game_number (Fin r) n = Fin (uscf_Ne r (NR n)).
Proof.
  unfold uscf_effective_game_number, uscf_Ne. xr. rewrite fofN_eval. fold (NR n).
  pose proof (uscf_Ne_arg r).
  unfold Rltb. destruct (Rlt_dec r 2355).
  - xr. f_equal.
    rewrite Rmin_comm. do 3 f_equal. ring_simplify. cbn [pow]. lra.
  - xr. f_equal. rewrite Rmin_comm. apply Rmin_left, Rmin_r.
Qed.
Lemma uscf_Ne_nonneg r n : 0 <= uscf_Ne r (NR n).
Proof.
  pose proof (NR_nonneg n). unfold uscf_Ne. destruct (Rlt_dec r 2355).
  - apply Rmin_nonneg; [apply Rmin_nonneg; lra|]. pose proof (uscf_Ne_arg r).
    apply Rlt_le, Rdiv_lt_0_compat; [lra|]. apply sqrt_lt_R0. cbn [pow]. lra.
  - apply Rmin_nonneg; lra.
Qed.

Lemma NltbNat m k : (N.of_nat m <? N.of_nat k)%N = (m <? k)%nat.
Proof. destruct (Nat.ltb_spec m k), (N.ltb_spec (N.of_nat m) (N.of_nat k)); auto; lia. Qed.

Lemma uscf_bonus_eval m K E S t :
  uscf_get_boost_value (N.of_nat m) (Fin K) (Fin E) (Fin S) (Fin t) = Fin (uscf_bonus m K S E t).
Proof.
  unfold uscf_get_boost_value, uscf_bonus. change 3%N with (N.of_nat 3). rewrite NltbNat.
  destruct (m <? 3)%nat; [reflexivity|]. cbv zeta. rewrite fofN_eval.
  assert (Hm : IZR (Z.of_N (N.min (N.of_nat m) 4)) = INR (Nat.min m 4)).
  { change 4%N with (N.of_nat 4). rewrite <- Nat2N.inj_min. apply NR_of_nat. }
  rewrite Hm. assert (0 <= INR (Nat.min m 4)) by apply pos_INR. xr.
  unfold Rleb. destruct (Rle_dec (K * (S - E)) (t * sqrt (INR (Nat.min m 4)))).
  - rewrite Rmax_left; [reflexivity|lra].
  - rewrite Rmax_right; [reflexivity|lra].
Qed.

Lemma uscf_new_rating_eval r n m S E t : (0 < m)%nat ->
  uscf_new_rating (Fin r) n (N.of_nat m) (Fin S) (Fin E) (mkUscfConfig (Fin t)) =
  Fin (uscf_upd r (NR n) m S E t).
Proof.
  intros Hm. unfold uscf_new_rating; cbv zeta. rewrite uscf_Ne_eval, fofN_eval. fold (NR (N.of_nat m)).
  rewrite NR_of_nat. pose proof (uscf_Ne_nonneg r n). assert (0 < INR m) by now apply lt_0_INR.
  xr. cbn [uscf_t]. rewrite uscf_bonus_eval. xr. unfold uscf_upd, uscf_K. f_equal. ring.
Qed.

Lemma uscf_prov_eval r n m opp w l : (0 < m)%N -> (n + m < 2 ^ 64)%N ->
  uscf_new_rating_provisional (Fin r) n m (Fin opp) w l =
  Fin (uscf_prov (NR n) r (NR m) opp (IZR w) (IZR l)).
Proof.
  intros Hm Hn. unfold uscf_new_rating_provisional. rewrite !fofN_eval, usize_add_small by auto.
  fold (NR n) (NR m) (NR (n + m)). rewrite NR_add.
  pose proof (NR_nonneg n). pose proof (NR_pos m Hm). xr.
  unfold uscf_prov. rewrite minus_IZR. f_equal. unfold Rdiv. f_equal. ring.
Qed.

Definition uscf_one_game (r : R) (n : N) (opp : R) (o : Outcomes) (t : R) : R :=
  if (n <=? 8)%N
  then uscf_prov (NR n) r 1 opp (match o with WIN => 1 | _ => 0 end) (match o with LOSS => 1 | _ => 0 end)
  else uscf_upd r (NR n) 1 (points o) (elo_E r opp) t.

Lemma uscf_side_eval r n opp o t (sc : R) w l :
  sc = points o -> IZR w = (match o with WIN => 1 | _ => 0 end) -> IZR l = (match o with LOSS => 1 | _ => 0 end) ->
  fmax (if (n <=? 8)%N then uscf_new_rating_provisional (Fin r) n 1 (Fin opp) w l
        else uscf_new_rating (Fin r) n 1 (Fin sc) (Fin (elo_E r opp)) (mkUscfConfig (Fin t))) #100%flt =
  Fin (Rmax 100 (uscf_one_game r n opp o t)).
Proof.
  intros Hs Hw Hl. unfold uscf_one_game. destruct (n <=? 8)%N eqn:Hn.
  - apply N.leb_le in Hn. rewrite uscf_prov_eval by (cbn; lia). xr. rewrite Rmax_comm, Hw, Hl.
    reflexivity.
  - change 1%N with (N.of_nat 1). rewrite uscf_new_rating_eval by lia. xr. now rewrite Rmax_comm, Hs.
Qed.

Lemma uscf_eval r1 n1 r2 n2 o t :
  uscf (mkUscf (Fin r1) n1) (mkUscf (Fin r2) n2) o (mkUscfConfig (Fin t)) =
  (mkUscf (Fin (Rmax 100 (uscf_one_game r1 n1 r2 o t))) (usize_add n1 1),
   mkUscf (Fin (Rmax 100 (uscf_one_game r2 n2 r1 (invert o) t))) (usize_add n2 1)).
Proof.
  unfold uscf; cbn [uscf_rating uscf_games]; cbv zeta. rewrite points_eval, !uscf_e_eval.
  change (#1 - Fin (points o))%flt with (Fin (1 - points o)).
  f_equal; f_equal.
  - apply uscf_side_eval; destruct o; reflexivity.
  - apply uscf_side_eval; [symmetry; apply points_invert| |]; destruct o; reflexivity.
Qed.

Definition uscf_results (rs : list (R * N * Outcomes)) : list (USCFRating XR * Outcomes) :=
  map (fun g => let '(r, n, o) := g in (mkUscf (Fin r) n, o)) rs.

Lemma fold_add_count (f : Outcomes -> bool) l a :
  fold_left Z.add (map (fun o => Z_of_bool (f o)) l) a = (a + Z.of_nat (length (filter f l)))%Z.
Proof.
  revert a; induction l as [|o l IH]; intros a; cbn [map fold_left filter].
  - cbn; lia.
  - rewrite IH. destruct (f o); cbn [Z_of_bool length]; lia.
Qed.
Lemma uscf_count_win rs : uscf_count WIN (uscf_results rs) = Z.of_nat (count_wins (map snd rs)).
Proof.
  unfold uscf_count, uscf_results, count_wins. rewrite map_map.
  rewrite <- (Z.add_0_l (Z.of_nat _)), <- fold_add_count, map_map.
  f_equal. apply map_ext. intros [[? ?] o]; destruct o; reflexivity.
Qed.
Lemma uscf_count_loss rs : uscf_count LOSS (uscf_results rs) = Z.of_nat (count_losses (map snd rs)).
Proof.
  unfold uscf_count, uscf_results, count_losses. rewrite map_map.
  rewrite <- (Z.add_0_l (Z.of_nat _)), <- fold_add_count, map_map.
  f_equal. apply map_ext. intros [[? ?] o]; destruct o; reflexivity.
Qed.

Definition opp_ratings (rs : list (R * N * Outcomes)) : list R := map (fun g => fst (fst g)) rs.
Definition uscf_period_val (r : R) (n : N) (rs : list (R * N * Outcomes)) (t : R) : R :=
  if (n <=? 8)%N
  then uscf_prov (NR n) r (INR (length rs)) (Rsum (opp_ratings rs) / INR (length rs))
         (INR (count_wins (map snd rs))) (INR (count_losses (map snd rs)))
  else uscf_upd r (NR n) (length rs) (Rsum (map (fun g => points (snd g)) rs))
         (Rsum (map (elo_E r) (opp_ratings rs))) t.

Lemma uscf_period_eval r n rs t : rs <> [] -> (n + N.of_nat (length rs) < 2 ^ 64)%N ->
  uscf_rating_period (mkUscf (Fin r) n) (uscf_results rs) (mkUscfConfig (Fin t)) =
  mkUscf (Fin (uscf_period_val r n rs t)) (n + N.of_nat (length rs))%N.
Proof.
  intros Hne Hlt. assert (Hlen : (0 < length rs)%nat) by (destruct rs; [congruence|cbn; lia]).
  unfold uscf_rating_period. destruct (uscf_results rs) as [|x xs] eqn:E.
  { destruct rs; [congruence|discriminate]. }
  rewrite <- E. clear x xs E. cbn [uscf_rating uscf_games]. cbv zeta.
  assert (L : length (uscf_results rs) = length rs) by apply map_length.
  rewrite !L, usize_add_small by auto. unfold uscf_period_val.
  assert (HI : 0 < INR (length rs)) by now apply lt_0_INR.
  destruct (n <=? 8)%N.
  - f_equal. unfold flen. rewrite L, xr_ofZ, <- INR_IZR_INZ, uscf_count_win, uscf_count_loss.
    unfold uscf_results; rewrite map_map.
    rewrite (xr_sum_map _ (fun g : R * N * Outcomes => fst (fst g))) by (intros [[? ?] ?] _; reflexivity).
    rewrite xr_div by lra. rewrite uscf_prov_eval by (auto; lia).
    now rewrite NR_of_nat, <- !INR_IZR_INZ.
  - f_equal. unfold uscf_results; rewrite !map_map.
    rewrite (xr_sum_map _ (fun g : R * N * Outcomes => points (snd g))) by (intros [[? ?] ?] _; apply points_eval).
    rewrite (xr_sum_map _ (fun g : R * N * Outcomes => elo_E r (fst (fst g)))) by (intros [[? ?] ?] _; apply uscf_e_eval).
    rewrite uscf_new_rating_eval by auto. unfold opp_ratings. now rewrite map_map.
Qed.

(** ** Bundles *)
Lemma xmax_ge a b : fleb (Fin b) (fmax a (Fin b)) = true.
Proof.
  destruct a as [x|[]|]; cbn; auto.
  - destruct (Rleb_spec x b); cbn; apply Rleb_true; lra.
  - apply Rleb_true; lra.
  - apply Rleb_true; lra.
Qed.
Lemma C09_proof : forall (p1 p2 : USCFRating XR) o (c : USCFConfig XR),
  fleb (Fin 100) (uscf_rating (fst (uscf p1 p2 o c))) = true /\
  fleb (Fin 100) (uscf_rating (snd (uscf p1 p2 o c))) = true.
Proof. intros. unfold uscf; cbv zeta; cbn [fst snd uscf_rating]. split; apply xmax_ge. Qed.

Lemma C09_refuted_proof : exists (p opp : USCFRating XR),
  fleb (Fin 100) (uscf_rating p) = true /\ fleb (Fin 100) (uscf_rating opp) = true /\
  uscf_rating_period p [(opp, LOSS)] uscf_config_new = mkUscf (Fin (-100)) 2.
Proof.
  exists (mkUscf (Fin 100) 1), (mkUscf (Fin 100) 1). cbn [uscf_rating].
  split; [cbn; apply Rleb_true; lra|]. split; [cbn; apply Rleb_true; lra|].
  change [(mkUscf (Fin 100) 1, LOSS)] with (uscf_results [(100, 1%N, LOSS)]).
  change (@uscf_config_new XR XRA) with (mkUscfConfig (Fin 14)).
  rewrite uscf_period_eval; [|congruence|cbn; lia]. f_equal. f_equal.
  unfold uscf_period_val, uscf_prov, opp_ratings, count_wins, count_losses, NR.
  cbn [N.leb N.compare Pos.compare Pos.compare_cont map fst snd length filter Z.of_N]. rewrite Rsum_cons, Rsum_nil.
  cbn [INR]. lra.
Qed.

Lemma C10_proof : forall r1 n1 r2 n2 o t,
  uscf (mkUscf (Fin r1) n1) (mkUscf (Fin r2) n2) o (mkUscfConfig (Fin t)) =
  (mkUscf (Fin (Rmax 100
      (if (n1 <=? 8)%N
       then uscf_prov (IZR (Z.of_N n1)) r1 1 r2 (match o with WIN => 1 | _ => 0 end) (match o with LOSS => 1 | _ => 0 end)
       else uscf_upd r1 (IZR (Z.of_N n1)) 1 (points o) (elo_E r1 r2) t)))
     ((n1 + 1) mod 2 ^ 64)%N,
   mkUscf (Fin (Rmax 100
      (if (n2 <=? 8)%N
       then uscf_prov (IZR (Z.of_N n2)) r2 1 r1 (match o with LOSS => 1 | _ => 0 end) (match o with WIN => 1 | _ => 0 end)
       else uscf_upd r2 (IZR (Z.of_N n2)) 1 (1 - points o) (elo_E r2 r1) t)))
     ((n2 + 1) mod 2 ^ 64)%N).
Proof.
  intros. rewrite uscf_eval. unfold uscf_one_game. rewrite points_invert. destruct o; reflexivity.
Qed.

Lemma C10_period_proof : forall r n rs t, rs <> [] -> (n + N.of_nat (length rs) < 2 ^ 64)%N ->
  uscf_rating_period (mkUscf (Fin r) n) (map (fun g => (mkUscf (Fin (fst (fst g))) (snd (fst g)), snd g)) rs)
    (mkUscfConfig (Fin t)) =
  mkUscf (Fin
    (if (n <=? 8)%N
     then uscf_prov (IZR (Z.of_N n)) r (INR (length rs)) (Rsum (map (fun g => fst (fst g)) rs) / INR (length rs))
            (INR (count_wins (map snd rs))) (INR (count_losses (map snd rs)))
     else uscf_upd r (IZR (Z.of_N n)) (length rs) (Rsum (map (fun g => points (snd g)) rs))
            (Rsum (map (fun g => elo_E r (fst (fst g))) rs)) t)) (n + N.of_nat (length rs))%N.
Proof.
  intros r n rs t Hne Hlt.
  replace (map (fun g : R * N * Outcomes => (mkUscf (Fin (fst (fst g))) (snd (fst g)), snd g)) rs) with (uscf_results rs)
    by (unfold uscf_results; apply map_ext; intros [[? ?] ?]; reflexivity).
  rewrite uscf_period_eval by auto. unfold uscf_period_val, opp_ratings. now rewrite map_map.
Qed.

Lemma C11_proof : forall (F : Type) (A : Arith F) (p q : USCFRating F) o rs c,
  ((uscf_games p + 1 < 2 ^ 64)%N -> uscf_games (fst (uscf p q o c)) = (uscf_games p + 1)%N) /\
  ((uscf_games q + 1 < 2 ^ 64)%N -> uscf_games (snd (uscf p q o c)) = (uscf_games q + 1)%N) /\
  ((uscf_games p + N.of_nat (length rs) < 2 ^ 64)%N ->
     uscf_games (uscf_rating_period p rs c) = (uscf_games p + N.of_nat (length rs))%N) /\
  uscf_rating_period p [] c = p.
Proof.
  intros. split; [intros; cbn -[usize_add]; now apply usize_add_small|].
  split; [intros; cbn -[usize_add]; now apply usize_add_small|].
  split; [|reflexivity]. intros H. destruct rs as [|x rs]; [cbn; lia|].
  unfold uscf_rating_period. destruct (uscf_games p <=? 8)%N; cbn [uscf_games]; now apply usize_add_small.
Qed.

Lemma C12_proof : forall r n rs t, (8 < n)%N -> rs <> [] -> (n + N.of_nat (length rs) < 2 ^ 64)%N ->
  let K := 800 / (uscf_Ne r (IZR (Z.of_N n)) + INR (length rs)) in
  let D := K * (Rsum (map (fun g => points (snd g)) rs) - Rsum (map (fun g => elo_E r (fst (fst g))) rs)) in
  exists b,
    uscf_rating (uscf_rating_period (mkUscf (Fin r) n)
      (map (fun g => (mkUscf (Fin (fst (fst g))) (snd (fst g)), snd g)) rs) (mkUscfConfig (Fin t))) = Fin (r + D + b) /\
    0 <= b /\
    ((length rs < 3)%nat -> b = 0) /\
    ((3 <= length rs)%nat -> b = Rmax 0 (D - t * sqrt (INR (Nat.min (length rs) 4)))).
Proof.
  intros r n rs t Hn Hne Hlt K D. rewrite C10_period_proof by auto. cbn [uscf_rating].
  replace (n <=? 8)%N with false by (symmetry; apply N.leb_gt; auto).
  unfold uscf_upd, uscf_K. fold K. fold D. eexists. split; [reflexivity|].
  unfold uscf_bonus. fold D. destruct (Nat.ltb_spec (length rs) 3); repeat split; try lra; try lia.
  apply Rmax_l.
Qed.

Lemma uscf_K_pos r n m : 0 < m -> 0 < uscf_K r (NR n) m.
Proof. intros. unfold uscf_K. pose proof (uscf_Ne_nonneg r n). pos. Qed.

Lemma C72_proof : forall r1 n1 r2 n2 t, (8 < n1)%N ->
  exists w d l,
    uscf_rating (fst (uscf (mkUscf (Fin r1) n1) (mkUscf (Fin r2) n2) WIN (mkUscfConfig (Fin t)))) = Fin w /\
    uscf_rating (fst (uscf (mkUscf (Fin r1) n1) (mkUscf (Fin r2) n2) DRAW (mkUscfConfig (Fin t)))) = Fin d /\
    uscf_rating (fst (uscf (mkUscf (Fin r1) n1) (mkUscf (Fin r2) n2) LOSS (mkUscfConfig (Fin t)))) = Fin l /\
    l <= d <= w /\ r1 < w /\ (100 <= r1 -> d < w) /\ (100 <= r1 -> l <= r1) /\ (100 < r1 -> l < r1).
Proof.
  intros r1 n1 r2 n2 t Hn. rewrite !C10_proof. cbn [fst uscf_rating].
  replace (n1 <=? 8)%N with false by (symmetry; apply N.leb_gt; auto).
  do 3 eexists. repeat (split; [reflexivity|]).
  unfold uscf_upd, uscf_bonus; cbn [Nat.ltb Nat.leb points INR].
  pose proof (elo_E_range r1 r2) as HE. pose proof (uscf_K_pos r1 n1 1 ltac:(lra)) as HK. unfold NR in HK.
  set (K := uscf_K r1 (IZR (Z.of_N n1)) 1) in *. set (E := elo_E r1 r2) in *.
  repeat split.
  - apply Rle_max_compat_l. nra.
  - apply Rle_max_compat_l. nra.
  - apply Rlt_le_trans with (r1 + K * (1 - E) + 0); [nra|apply Rmax_r].
  - intros. unfold Rmax. destruct (Rle_dec 100 (r1 + K * (1 / 2 - E) + 0)), (Rle_dec 100 (r1 + K * (1 - E) + 0)); nra.
  - intros. apply Rmax_lub; nra.
  - intros. apply Rmax_lub_lt; nra.
Qed.
