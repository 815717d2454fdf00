From Coq Require Import ZArith NArith List Bool Reals Lra Lia Permutation.
From Flocq Require Import Core.Raux.
From Verif Require Import Arith XR Tac ModelLib ModelElo ModelDwz Spec ProofElo ProofUscf.
Import ListNotations.
Local Open Scope R_scope.

Lemma dwz_expected_eval r1 i1 a1 r2 i2 a2 :
  dwz_expected_score (mkDwz (Fin r1) i1 a1) (mkDwz (Fin r2) i2 a2) = (Fin (elo_E r1 r2), Fin (elo_E r2 r1)).
Proof.
  unfold dwz_expected_score; cbn [dwz_rating]; cbv zeta. xr. rewrite (elo_E_swap r1 r2).
  replace (- / 400 * (r1 - r2)) with ((r2 - r1) / 400) by field.
  unfold elo_E, Rdiv. now rewrite Rmult_1_l.
Qed.

Lemma NR_ge1 i : (1 <= i)%N -> 1 <= NR i.
Proof. intros. unfold NR. apply IZR_le. lia. Qed.

Lemma dwz_brake_pos r S We : r < 1300 -> S <= We -> 0 < dwz_brake r S We.
Proof.
  intros. unfold dwz_brake. destruct (Rlt_dec r 1300), (Rle_dec S We); try lra.
  enough (1 < exp ((1300 - r) / 150)) by lra. rewrite <- exp_0. apply exp_increasing. lra.
Qed.

Lemma dwz_e_eval r age S We i : (1 <= i)%N ->
  dwz_e_value (Fin r) age (Fin S) (Fin We) i = Fin (dwz_E r age S We (NR i)).
Proof.
  intros Hi. apply NR_ge1 in Hi.
  unfold dwz_e_value; cbv zeta.
  set (j := if (age <=? 20)%N then _ else _).
  assert (Hj : j = Fin (dwz_J age)) by (unfold j, dwz_J; destruct (age <=? 20)%N, (age <=? 25)%N; reflexivity).
  rewrite Hj. clear j Hj.
  set (a := if (age <? 20)%N && _ then _ else _).
  assert (Ha : a = Fin (dwz_acc r age S We)).
  { unfold a, dwz_acc. rewrite xr_leb. unfold Rleb.
    destruct (age <? 20)%N; cbn [andb]; [|reflexivity]. destruct (Rle_dec We S); [|reflexivity]. xr. reflexivity. }
  rewrite Ha. clear a Ha.
  set (b := if _ && _ then fexpm1 _ else _).
  assert (Hb : b = Fin (dwz_brake r S We)).
  { unfold b, dwz_brake. rewrite xr_ofZ, xr_ltb, xr_leb. unfold Rleb, Rltb.
    destruct (Rlt_dec r 1300); cbn [andb]; [|reflexivity]. destruct (Rle_dec S We); [|reflexivity]. xr. reflexivity. }
  rewrite Hb. clear b Hb. rewrite fofN_eval. fold (NR i). xr.
  replace (dwz_acc r age S We * (r / 1000 * (r / 1000) * (r / 1000 * (r / 1000)) + dwz_J age) + dwz_brake r S We)
    with (dwz_raw_E r age S We) by (unfold dwz_raw_E; ring).
  unfold dwz_E. set (e := dwz_raw_E r age S We).
  assert (H30 : 5 <= Rmin 30 (5 * NR i)) by (apply Rmin_glb; lra).
  set (cap := Rmin 30 (5 * NR i)) in *.
  unfold Rleb, Reqb.
  assert (Hb : r < 1300 /\ S <= We \/ dwz_brake r S We = 0 /\
     (if Rlt_dec r 1300 then if Rle_dec S We then 150 else cap else cap) = cap).
  { unfold dwz_brake. destruct (Rlt_dec r 1300); [destruct (Rle_dec S We)|]; auto. }
  destruct Hb as [[H1 H2]|[H1 H2]].
  - pose proof (dwz_brake_pos r S We H1 H2).
    destruct (Rlt_dec r 1300), (Rle_dec S We); try lra.
    destruct (Req_EM_T (dwz_brake r S We) 0); [lra|].
    destruct (Rle_dec e 5), (Rle_dec 150 e); f_equal; unfold Rmin; destruct (Rle_dec e 150);
      unfold Rmax; match goal with |- context [Rle_dec ?a ?b] => destruct (Rle_dec a b) end; lra.
  - rewrite H1, H2. destruct (Req_EM_T 0 0); [|lra].
    destruct (Rle_dec e 5), (Rle_dec cap e); f_equal; unfold Rmin; destruct (Rle_dec e cap);
      unfold Rmax; match goal with |- context [Rle_dec ?a ?b] => destruct (Rle_dec a b) end; lra.
Qed.

Lemma dwz_E_range r age S We i : 5 <= dwz_E r age S We i <= Rmax 5 150.
Proof.
  unfold dwz_E. split; [apply Rmax_l|].
  apply Rle_max_compat_l. eapply Rle_trans; [apply Rmin_r|].
  destruct (Rlt_dec r 1300); [destruct (Rle_dec S We)|]; try lra.
  all: eapply Rle_trans; [apply Rmin_l|lra].
Qed.
Lemma dwz_E_range' r age S We i : 5 <= dwz_E r age S We i <= 150.
Proof. pose proof (dwz_E_range r age S We i). rewrite Rmax_right in H by lra. auto. Qed.
Lemma dwz_E_cap r age S We i : 1 <= i -> ~ dwz_brakes r S We -> dwz_E r age S We i <= Rmin 30 (5 * i).
Proof.
  intros Hi Hb. unfold dwz_E, dwz_brakes in *. apply Rmax_lub.
  - apply Rmin_glb; lra.
  - eapply Rle_trans; [apply Rmin_r|]. destruct (Rlt_dec r 1300); [destruct (Rle_dec S We)|]; try lra.
Qed.

Lemma dwz_new_rating_eval r E S We : 0 < E ->
  dwz_new_rating (Fin r) (Fin E) (Fin S) (Fin We) #1%flt = Fin (dwz_upd r E 1 S We).
Proof. intros. unfold dwz_new_rating, dwz_upd. xr. f_equal. ring. Qed.

Lemma dwz_eval r1 i1 a1 r2 i2 a2 o : (1 <= i1)%N -> (1 <= i2)%N ->
  dwz (mkDwz (Fin r1) i1 a1) (mkDwz (Fin r2) i2 a2) o =
  (mkDwz (Fin (dwz_upd r1 (dwz_E r1 a1 (points o) (elo_E r1 r2) (NR i1)) 1 (points o) (elo_E r1 r2)))
     (usize_add i1 1) a1,
   mkDwz (Fin (dwz_upd r2 (dwz_E r2 a2 (points (invert o)) (elo_E r2 r1) (NR i2)) 1 (points (invert o)) (elo_E r2 r1)))
     (usize_add i2 1) a2).
Proof.
  intros H1 H2. unfold dwz. rewrite dwz_expected_eval, points_eval. cbv zeta. cbn [dwz_rating dwz_index dwz_age].
  change (#1 - Fin (points o))%flt with (Fin (1 - points o)). rewrite <- points_invert.
  rewrite !dwz_e_eval by auto.
  rewrite !dwz_new_rating_eval by (eapply Rlt_le_trans; [|apply dwz_E_range']; lra). reflexivity.
Qed.

Lemma C17_proof : forall r1 i1 a1 r2 i2 a2 o, (1 <= i1)%N -> (1 <= i2)%N ->
  exists E new,
    dwz_rating (fst (dwz (mkDwz (Fin r1) i1 a1) (mkDwz (Fin r2) i2 a2) o)) = Fin new /\
    new = r1 + 800 / (E + 1) * (points o - elo_E r1 r2) /\
    5 <= E <= 150 /\
    (~ (r1 < 1300 /\ points o <= elo_E r1 r2) -> E <= Rmin 30 (5 * IZR (Z.of_N i1))) /\
    Rabs (new - r1) < 800 / 6.
Proof.
  intros r1 i1 a1 r2 i2 a2 o H1 H2. rewrite dwz_eval by auto. cbn [fst dwz_rating].
  exists (dwz_E r1 a1 (points o) (elo_E r1 r2) (NR i1)). eexists. split; [reflexivity|]. split; [reflexivity|].
  pose proof (dwz_E_range' r1 a1 (points o) (elo_E r1 r2) (NR i1)) as HE. split; [auto|]. split.
  - intros. apply dwz_E_cap; auto. now apply NR_ge1.
  - unfold dwz_upd. set (E := dwz_E _ _ _ _ _) in *.
    replace (r1 + 800 / (E + 1) * (points o - elo_E r1 r2) - r1) with (800 / (E + 1) * (points o - elo_E r1 r2)) by ring.
    rewrite Rabs_mult. rewrite (Rabs_pos_eq (800 / (E + 1))) by pos.
    assert (HP : Rabs (points o - elo_E r1 r2) < 1).
    { pose proof (elo_E_range r1 r2). pose proof (points_range o).
      destruct o; cbn [points] in *; apply Rabs_def1; lra. }
    assert (HK : 0 < 800 / (E + 1) <= 800 / 6).
    { split; [pos|]. unfold Rdiv. apply Rmult_le_compat_l; [lra|]. apply Rinv_le_mono; lra. }
    pose proof (Rabs_pos (points o - elo_E r1 r2)). nra.
Qed.

Lemma C18_proof : forall r1 i1 a1 r2 i2 a2 o, (1 <= i1)%N -> (1 <= i2)%N ->
  dwz (mkDwz (Fin r1) i1 a1) (mkDwz (Fin r2) i2 a2) o =
  (mkDwz (Fin (dwz_upd r1 (dwz_E r1 a1 (points o) (elo_E r1 r2) (IZR (Z.of_N i1))) 1 (points o) (elo_E r1 r2)))
     ((i1 + 1) mod 2 ^ 64)%N a1,
   mkDwz (Fin (dwz_upd r2 (dwz_E r2 a2 (points (invert o)) (elo_E r2 r1) (IZR (Z.of_N i2))) 1
                 (points (invert o)) (elo_E r2 r1)))
     ((i2 + 1) mod 2 ^ 64)%N a2).
Proof. exact dwz_eval. Qed.

Lemma dwz_upd_dir r E n S We : 0 < E + n -> (We < S -> r < dwz_upd r E n S We) /\ (S < We -> dwz_upd r E n S We < r).
Proof.
  intros H. unfold dwz_upd. assert (0 < 800 / (E + n)) by pos. split; intros; nra.
Qed.

Lemma C18_direction_proof : forall r1 i1 a1 r2 i2 a2 p q, (1 <= i1)%N -> (1 <= i2)%N ->
  dwz (mkDwz (Fin r1) i1 a1) (mkDwz (Fin r2) i2 a2) WIN = (p, q) ->
  exists p' q', dwz_rating p = Fin p' /\ dwz_rating q = Fin q' /\ r1 < p' /\ q' < r2.
Proof.
  intros * H1 H2. rewrite dwz_eval by auto. intros [= <- <-]. cbn [dwz_rating points invert].
  do 2 eexists. split; [reflexivity|]. split; [reflexivity|].
  split; apply dwz_upd_dir.
  1,3: match goal with |- 0 < ?e + _ => assert (5 <= e) by apply dwz_E_range' end; lra.
  all: apply elo_E_range.
Qed.

Lemma C19_proof : forall (F : Type) (A : Arith F) (p q : DWZRating F) o rs,
  (dwz_index p + 1 < 2 ^ 64)%N -> (dwz_index q + 1 < 2 ^ 64)%N ->
  dwz_index (fst (dwz p q o)) = (dwz_index p + 1)%N /\ dwz_age (fst (dwz p q o)) = dwz_age p /\
  dwz_index (snd (dwz p q o)) = (dwz_index q + 1)%N /\ dwz_age (snd (dwz p q o)) = dwz_age q /\
  dwz_index (dwz_rating_period p rs) = (dwz_index p + 1)%N /\ dwz_age (dwz_rating_period p rs) = dwz_age p.
Proof.
  intros F A p q o rs H1 H2. unfold dwz. destruct (dwz_expected_score p q). cbv zeta.
  cbn [fst snd dwz_index dwz_age dwz_rating_period]. rewrite !usize_add_small by auto. auto 10.
Qed.

(** ** First rating *)
Definition dwz_results (rs : list (R * N * N * Outcomes)) : list (DWZRating XR * Outcomes) :=
  map (fun g => let '(r, i, a, o) := g in (mkDwz (Fin r) i a, o)) rs.

Definition psum (os : list Outcomes) : R := Rsum (map points os).
Lemma psum_bounds os : 0 <= psum os <= INR (length os).
Proof.
  unfold psum. induction os as [|o os IH]; cbn [map length]; rewrite ?Rsum_cons, ?Rsum_nil.
  - cbn; lra.
  - rewrite S_INR. pose proof (points_range o). lra.
Qed.
Lemma psum_all_wins os : psum os = INR (length os) <-> Forall (fun o => o = WIN) os.
Proof.
  unfold psum. induction os as [|o os IH]; cbn [map length]; rewrite ?Rsum_cons, ?Rsum_nil.
  - cbn; split; auto.
  - rewrite S_INR. pose proof (psum_bounds os) as B; unfold psum in B. split; intros H.
    + constructor; [destruct o; cbn [points] in H; auto; lra|]. apply IH. pose proof (points_range o). lra.
    + inversion H as [|? ? E1 E2]; subst. apply IH in E2. cbn [points]. lra.
Qed.
Lemma psum_not_all_wins os : psum os <> INR (length os) -> psum os <= INR (length os) - 1/2.
Proof.
  unfold psum. induction os as [|o os IH]; cbn [map length]; rewrite ?Rsum_cons, ?Rsum_nil.
  - cbn; lra.
  - rewrite S_INR. pose proof (psum_bounds os) as B; unfold psum in B. intros H.
    destruct (Req_EM_T (Rsum (map points os)) (INR (length os))) as [E|E].
    + destruct o; cbn [points] in *; lra.
    + apply IH in E. pose proof (points_range o). lra.
Qed.
Lemma psum_all_losses os : psum os = 0 <-> Forall (fun o => o = LOSS) os.
Proof.
  unfold psum. induction os as [|o os IH]; cbn [map length]; rewrite ?Rsum_cons, ?Rsum_nil.
  - split; auto.
  - pose proof (psum_bounds os) as B; unfold psum in B. split; intros H.
    + constructor; [destruct o; cbn [points] in H; auto; lra|]. apply IH. pose proof (points_range o). lra.
    + inversion H as [|? ? E1 E2]; subst. apply IH in E2. cbn [points]. lra.
Qed.
Lemma psum_not_all_losses os : psum os <> 0 -> 1/2 <= psum os.
Proof.
  unfold psum. induction os as [|o os IH]; cbn [map length]; rewrite ?Rsum_cons, ?Rsum_nil.
  - lra.
  - pose proof (psum_bounds os) as B; unfold psum in B. intros H.
    destruct (Req_EM_T (Rsum (map points os)) 0) as [E|E].
    + destruct o; cbn [points] in *; lra.
    + apply IH in E. pose proof (points_range o). lra.
Qed.

Lemma dwz_points_sum (rs : list (DWZRating XR * Outcomes)) :
  fsum (map (fun r => to_chess_points (snd r)) rs) = Fin (psum (map snd rs)).
Proof.
  unfold psum. rewrite map_map. apply xr_sum_map. intros; apply points_eval.
Qed.

Lemma Reqb_eq a b : Reqb a b = true <-> a = b.
Proof. destruct (Reqb_spec a b); split; congruence. Qed.
Lemma Rltb_lt a b : Rltb a b = true -> a < b.
Proof. destruct (Rltb_spec a b); congruence. Qed.
Definition all_same (rs : list (DWZRating XR * Outcomes)) : Prop :=
  Forall (fun r => snd r = WIN) rs \/ Forall (fun r => snd r = LOSS) rs.
Lemma eps_small : 0 < / 2 ^ 52 < 1 / 2.
Proof.
  split; [apply Rinv_0_lt_compat, pow_lt; lra|]. replace (1/2) with (/ 2) by lra.
  apply Rinv_lt_mono; [lra|]. apply Rlt_le_trans with (2 ^ 2); [cbn; lra|]. apply Rle_pow; [lra|lia].
Qed.
Lemma first_dwz_guard (rs : list (DWZRating XR * Outcomes)) :
  (fltb (fabs (fsub (Fin (psum (map snd rs))) (flen rs))) feps || feqb (Fin (psum (map snd rs))) #0%flt) = true
  <-> all_same rs.
Proof.
  unfold flen. rewrite !xr_ofZ, <- INR_IZR_INZ, xr_sub, xr_abs, xr_eqb.
  change (@feps XR XRA) with (Fin (/ 2 ^ 52)). rewrite xr_ltb.
  unfold all_same. pose proof (psum_bounds (map snd rs)) as B. pose proof eps_small as He.
  assert (W : Forall (fun r => snd r = WIN) rs <-> psum (map snd rs) = INR (length rs)).
  { rewrite <- (map_length snd rs), psum_all_wins, Forall_map. reflexivity. }
  assert (Lo : Forall (fun r => snd r = LOSS) rs <-> psum (map snd rs) = 0).
  { rewrite psum_all_losses, Forall_map. reflexivity. }
  rewrite W, Lo, orb_true_iff. rewrite map_length in B.
  rewrite Reqb_eq.
  assert (K : Rltb (Rabs (psum (map snd rs) - INR (length rs))) (/ 2 ^ 52) = true <-> psum (map snd rs) = INR (length rs)).
  { split; intros h.
    - apply Rltb_lt in h. destruct (Req_EM_T (psum (map snd rs)) (INR (length rs))) as [E|E]; auto.
      exfalso. pose proof (psum_not_all_wins (map snd rs)) as X. rewrite map_length in X. specialize (X E).
      rewrite Rabs_left in h by lra. lra.
    - rewrite h. replace (INR (length rs) - INR (length rs)) with 0 by ring. rewrite Rabs_R0. apply Rltb_true. lra. }
  rewrite K. reflexivity.
Qed.

Lemma C20_proof : forall age (rs : list (DWZRating XR * Outcomes)),
  (get_first_dwz age rs = Err NotEnoughGames <-> (length rs < 5)%nat) /\
  (get_first_dwz age rs = Err InvalidWinRate <->
     (5 <= length rs)%nat /\ (Forall (fun r => snd r = WIN) rs \/ Forall (fun r => snd r = LOSS) rs)) /\
  ((exists d, get_first_dwz age rs = Ok d) <->
     (5 <= length rs)%nat /\ ~ (Forall (fun r => snd r = WIN) rs \/ Forall (fun r => snd r = LOSS) rs)).
Proof.
  intros age rs. pose proof (first_dwz_guard rs) as G. unfold all_same in G.
  unfold get_first_dwz. destruct (Nat.ltb_spec (length rs) 5) as [h|h].
  - split; [intuition auto|]. split; split; try discriminate; intros X; try lia. destruct X; discriminate.
  - cbv zeta. rewrite dwz_points_sum.
    destruct (fltb _ feps || feqb _ #0%flt) eqn:E.
    + assert (X : Forall (fun r => snd r = WIN) rs \/ Forall (fun r => snd r = LOSS) rs) by (apply G; auto).
      split; [split; [discriminate|lia]|]. split; [intuition auto|]. split; [intros [? Y]; discriminate|intuition auto].
    + assert (X : ~ (Forall (fun r => snd r = WIN) rs \/ Forall (fun r => snd r = LOSS) rs)).
      { intros X. apply G in X. congruence. }
      split; [split; [discriminate|lia]|]. split; [split; [discriminate|tauto]|]. split; eauto.
Qed.

Lemma Rround_range x : 0 <= x <= 100 -> exists p, Rround x = IZR p /\ (0 <= p <= 100)%Z.
Proof.
  intros Hx. unfold Rround. rewrite Rleb_true by lra. exists (Zfloor (x + / 2)). split; auto. split.
  - apply Zfloor_lub. cbn. lra.
  - apply le_IZR. pose proof (Zfloor_lb (x + / 2)).
    assert (IZR (Zfloor (x + / 2)) < 101) by lra.
    apply lt_IZR in H0. apply IZR_le. lia.
Qed.

Lemma table_nth p : (0 <= p <= 50)%Z -> dwz_table_get p = Some (Fin (IZR (nth (Z.to_nat p) dwz_table 0%Z))).
Proof.
  intros Hp. unfold dwz_table_get. destruct (Z.ltb_spec p 0); [lia|].
  change (@dwz_probability_table) with dwz_table.
  assert (Z.to_nat p < length dwz_table)%nat by (cbn; lia).
  rewrite (nth_error_nth' dwz_table 0%Z) by auto. reflexivity.
Qed.
Lemma table_nonpos k : (nth k dwz_table 0 <= 0)%Z.
Proof.
  assert (H : Forall (fun z => (z <= 0)%Z) dwz_table) by (repeat constructor; lia).
  destruct (Nat.lt_ge_cases k (length dwz_table)).
  - rewrite Forall_forall in H. apply H. now apply nth_In.
  - rewrite nth_overflow by auto. lia.
Qed.

(** Rounded percentage of points. *)
Definition percent (os : list Outcomes) : R := psum os / INR (length os) * 100.
Lemma percent_range os : os <> [] -> 0 <= percent os <= 100.
Proof.
  intros H. pose proof (psum_bounds os). assert (0 < INR (length os)) by (apply lt_0_INR; destruct os; [congruence|cbn; lia]).
  unfold percent. assert (0 <= psum os / INR (length os)) by pos.
  assert (psum os / INR (length os) <= 1) by (apply Rdiv_le_1; lra). lra.
Qed.

Lemma C21_proof : forall age rs, (5 <= length rs)%nat ->
  ~ (Forall (fun g => snd g = WIN) rs \/ Forall (fun g => snd g = LOSS) rs) ->
  exists p : Z,
    IZR p = Rround (Rsum (map (fun g => points (snd g)) rs) / INR (length rs) * 100) /\ (0 <= p <= 100)%Z /\
    get_first_dwz age (map (fun g => let '(r, i, a, o) := g in (mkDwz (Fin r) i a, o)) rs) =
    Ok (mkDwz (Fin (dwz_revise (Rsum (map (fun g => let '(r, i, a, o) := g in r) rs) / INR (length rs) + IZR (dwz_T p)))) 1 age).
Proof.
  intros age rs Hlen Hns. fold (dwz_results rs).
  assert (Hne : rs <> []) by (destruct rs; [cbn in Hlen; lia|congruence]).
  assert (HL : length (dwz_results rs) = length rs) by apply map_length.
  assert (HI : 0 < INR (length rs)) by (apply lt_0_INR; lia).
  assert (Hout : map snd (dwz_results rs) = map snd rs).
  { unfold dwz_results. rewrite map_map. apply map_ext. intros [[[? ?] ?] ?]; reflexivity. }
  assert (Hns' : ~ all_same (dwz_results rs)).
  { unfold all_same, dwz_results. rewrite !Forall_map. intros [X|X]; apply Hns; [left|right];
      revert X; apply Forall_impl; intros [[[? ?] ?] ?]; auto. }
  assert (HS : psum (map snd rs) = Rsum (map (fun g => points (snd g)) rs)) by (unfold psum; now rewrite map_map).
  destruct (Rround_range (percent (map snd rs))) as (p & Ep & Hp).
  { apply percent_range. destruct rs; [congruence|discriminate]. }
  exists p. unfold percent in Ep. rewrite map_length, HS in Ep. split; [auto|]. split; [auto|].
  unfold get_first_dwz. rewrite HL. destruct (Nat.ltb_spec (length rs) 5); [lia|]. cbv zeta.
  rewrite dwz_points_sum.
  destruct (fltb _ feps || feqb _ #0%flt) eqn:E; [apply first_dwz_guard in E; contradiction|clear E].
  unfold flen. rewrite HL, Hout, HS, !xr_ofZ, <- INR_IZR_INZ. xr. rewrite Ep.
  replace (ftoZ (Fin (IZR p))) with p.
  2:{ cbn. rewrite Ztrunc_IZR. unfold i64_min, i64_max. lia. }
  assert (HR : fsum (map (fun r => dwz_rating (fst r)) (dwz_results rs)) =
               Fin (Rsum (map (fun g : R * N * N * Outcomes => let '(r, i, a, o) := g in r) rs))).
  { unfold dwz_results. rewrite map_map. apply xr_sum_map. intros [[[? ?] ?] ?] _. reflexivity. }
  rewrite HR. xr. set (av := _ / INR (length rs)).
  assert (V : (if (50 <? p)%Z
     then (fabs (match dwz_table_get (Z.abs (p - 100)) with Some v => v | None => Fin 0 end) + Fin av)%flt
     else ((match dwz_table_get p with Some v => v | None => Fin 0 end) + Fin av)%flt) = Fin (av + IZR (dwz_T p))).
  { unfold dwz_T. destruct (Z.ltb_spec 50 p), (Z.leb_spec p 50); try lia.
    - rewrite table_nth by lia. replace (Z.abs (p - 100)) with (100 - p)%Z by lia. xr. f_equal.
      pose proof (table_nonpos (Z.to_nat (100 - p))).
      rewrite Rabs_left1 by (apply IZR_le; auto). rewrite opp_IZR. ring.
    - rewrite table_nth by lia. xr. f_equal. ring. }
  rewrite V. unfold dwz_revise. rewrite xr_leb. unfold Rleb. destruct (Rle_dec (av + IZR (dwz_T p)) 800); xr; reflexivity.
Qed.

(** The table is strictly increasing and mirror symmetric. *)
Definition sorted_lt (l : list Z) : bool :=
  forallb (fun p => (fst p <? snd p)%Z) (combine l (tl l)).
Lemma sorted_lt_nth l : sorted_lt l = true ->
  forall i j, (i < j)%nat -> (j < length l)%nat -> (nth i l 0 < nth j l 0)%Z.
Proof.
  unfold sorted_lt. induction l as [|x l IH]; intros Hs i j Hij Hj; [cbn in Hj; lia|].
  destruct l as [|y l]; [cbn in Hj; lia|].
  cbn [tl combine forallb fst snd] in Hs. apply andb_true_iff in Hs as [H1 H2]. apply Z.ltb_lt in H1.
  specialize (IH H2). destruct j as [|j]; [lia|]. destruct i as [|i].
  - cbn [nth]. destruct j as [|j]; [cbn; lia|].
    assert (nth 0 (y :: l) 0 < nth (S j) (y :: l) 0)%Z by (apply IH; [lia|cbn in *; lia]). cbn [nth] in *. lia.
  - cbn [nth]. apply IH; cbn in *; lia.
Qed.
Lemma dwz_T_mono p q : (0 <= p)%Z -> (p < q)%Z -> (q <= 100)%Z -> (dwz_T p < dwz_T q)%Z.
Proof.
  intros H0 Hpq H1. pose proof (sorted_lt_nth dwz_table eq_refl) as HS.
  assert (HL : length dwz_table = 51%nat) by reflexivity. rewrite HL in HS.
  unfold dwz_T. destruct (Z.leb_spec p 50), (Z.leb_spec q 50); try lia.
  - apply HS; lia.
  - assert (nth (Z.to_nat (100 - q)) dwz_table 0 < nth 50 dwz_table 0)%Z by (apply HS; lia).
    change (nth 50 dwz_table 0%Z) with 0%Z in *. pose proof (table_nonpos (Z.to_nat p)). lia.
  - assert (nth (Z.to_nat (100 - q)) dwz_table 0 < nth (Z.to_nat (100 - p)) dwz_table 0)%Z by (apply HS; lia). lia.
Qed.
Lemma dwz_T_mirror p : (0 <= p <= 100)%Z -> dwz_T (100 - p) = (- dwz_T p)%Z.
Proof.
  intros H. unfold dwz_T. destruct (Z.leb_spec (100 - p) 50), (Z.leb_spec p 50); try lia.
  - replace p with 50%Z by lia. reflexivity.
  - now replace (100 - (100 - p))%Z with p by lia.
Qed.

(** ** Rating period *)
Definition dwz_games (rs : list (R * N * N * Outcomes)) := dwz_results rs.
Lemma dwz_period_eval r i a rs : (1 <= i)%N ->
  dwz_rating_period (mkDwz (Fin r) i a) (dwz_results rs) =
  let S := Rsum (map (fun g => points (snd g)) rs) in
  let We := Rsum (map (fun g => elo_E r (fst (fst (fst g)))) rs) in
  mkDwz (Fin (dwz_upd r (dwz_E r a S We (NR i)) (INR (length rs)) S We)) (usize_add i 1) a.
Proof.
  intros Hi. unfold dwz_rating_period. cbn [dwz_rating dwz_index dwz_age]. cbv zeta.
  unfold flen. replace (length (dwz_results rs)) with (length rs) by (symmetry; apply map_length).
  rewrite (xr_ofZ (Z.of_nat (length rs))), <- INR_IZR_INZ.
  unfold dwz_results. rewrite !map_map.
  rewrite (xr_sum_map _ (fun g : R * N * N * Outcomes => points (snd g))) by (intros [[[? ?] ?] ?] _; apply points_eval).
  rewrite (xr_sum_map _ (fun g : R * N * N * Outcomes => elo_E r (fst (fst (fst g)))))
    by (intros [[[? ?] ?] ?] _; cbn [fst snd]; now rewrite dwz_expected_eval).
  rewrite dwz_e_eval by auto.
  set (S := Rsum _). set (We := Rsum _).
  pose proof (dwz_E_range' r a S We (NR i)). assert (0 <= INR (length rs)) by apply pos_INR.
  xr. f_equal. f_equal. unfold dwz_upd. ring.
Qed.

Lemma C22_perm_proof : forall r i a rs rs', (1 <= i)%N -> Permutation rs rs' ->
  dwz_rating_period (mkDwz (Fin r) i a) (map (fun g => let '(x, j, b, o) := g in (mkDwz (Fin x) j b, o)) rs) =
  dwz_rating_period (mkDwz (Fin r) i a) (map (fun g => let '(x, j, b, o) := g in (mkDwz (Fin x) j b, o)) rs').
Proof.
  intros r i a rs rs' Hi HP. fold (dwz_results rs) (dwz_results rs'). rewrite !dwz_period_eval by auto. cbv zeta.
  rewrite (Permutation_length HP).
  rewrite (Rsum_perm (map (fun g => points (snd g)) rs) (map (fun g => points (snd g)) rs')) by now apply Permutation_map.
  rewrite (Rsum_perm (map (fun g => elo_E r (fst (fst (fst g)))) rs) (map (fun g => elo_E r (fst (fst (fst g)))) rs'))
    by now apply Permutation_map.
  reflexivity.
Qed.
Lemma C22_single_proof : forall r i a r2 i2 a2 o, (1 <= i)%N -> (1 <= i2)%N ->
  dwz_rating_period (mkDwz (Fin r) i a) [(mkDwz (Fin r2) i2 a2, o)] =
  fst (dwz (mkDwz (Fin r) i a) (mkDwz (Fin r2) i2 a2) o).
Proof.
  intros. rewrite dwz_eval by auto. cbn [fst].
  change [(mkDwz (Fin r2) i2 a2, o)] with (dwz_results [(r2, i2, a2, o)]). rewrite dwz_period_eval by auto. cbv zeta.
  cbn [map length fst snd]. rewrite !Rsum_cons, !Rsum_nil, !Rplus_0_r. reflexivity.
Qed.
Lemma C22_empty_proof : forall r i a, (1 <= i)%N ->
  dwz_rating (dwz_rating_period (mkDwz (Fin r) i a) []) = Fin r.
Proof.
  intros. change (@nil (DWZRating XR * Outcomes)) with (dwz_results []). rewrite dwz_period_eval by auto.
  cbn [map length dwz_rating]. cbv zeta. rewrite !Rsum_nil. unfold dwz_upd. f_equal. ring.
Qed.
Lemma C22_formula_proof : forall r i a rs, (1 <= i)%N ->
  let S := Rsum (map (fun g => points (snd g)) rs) in
  let We := Rsum (map (fun g => elo_E r (fst (fst (fst g)))) rs) in
  dwz_rating_period (mkDwz (Fin r) i a) (map (fun g => let '(x, j, b, o) := g in (mkDwz (Fin x) j b, o)) rs) =
  mkDwz (Fin (dwz_upd r (dwz_E r a S We (IZR (Z.of_N i))) (INR (length rs)) S We)) ((i + 1) mod 2 ^ 64)%N a.
Proof. exact dwz_period_eval. Qed.

(** Index 0: the coefficient is 0 and an empty period gives NaN. *)
Lemma C74_proof : forall r a, 1300 <= r -> (20 <= a)%N ->
  dwz_rating_period (mkDwz (Fin r) 0 a) [] = mkDwz NaN 1 a /\
  (forall r2 i2 a2 o, dwz_rating (fst (dwz (mkDwz (Fin r) 0 a) (mkDwz (Fin r2) i2 a2) o)) =
     Fin (r + 800 * (points o - elo_E r r2))).
Proof.
  intros r a Hr Ha.
  assert (HE : forall S We, dwz_e_value (Fin r) a (Fin S) (Fin We) 0 = Fin 0).
  { intros S We. unfold dwz_e_value; cbv zeta.
    set (j := if (a <=? 20)%N then _ else _).
    assert (Hj : exists x, 5 <= x /\ j = Fin x).
    { unfold j. destruct (a <=? 20)%N, (a <=? 25)%N; rewrite xr_ofZ; eexists; split; try reflexivity; lra. }
    destruct Hj as (x & Hx & Hj). rewrite Hj. clear j Hj.
    replace (a <? 20)%N with false by (symmetry; apply N.ltb_ge; auto). cbn [andb].
    rewrite !fofN_eval. cbn [Z.of_N]. xr. rewrite (Rltb_false r 1300) by auto. cbn [andb]. xr.
    assert (1 <= r / 1000 * (r / 1000)) by (assert (1.3 <= r / 1000) by lra; nra).
    rewrite Rleb_false by nra. rewrite Reqb_true by auto.
    replace (Rmin 30 (5 * 0)) with 0 by (rewrite Rmin_right; lra).
    rewrite Rleb_true by nra. reflexivity. }
  split.
  - unfold dwz_rating_period. cbn [dwz_rating dwz_index dwz_age map]. cbv zeta.
    change (fsum []) with (Fin 0). rewrite HE. unfold flen; cbn [length Z.of_nat]. xr.
    f_equal. cbn. rewrite (Reqb_true (0 + 0) 0) by lra. rewrite Reqb_false by lra. cbn.
    rewrite (Reqb_true (0 - 0) 0) by lra. reflexivity.
  - intros. unfold dwz. rewrite dwz_expected_eval, points_eval. cbv zeta. cbn [dwz_rating dwz_index dwz_age fst].
    rewrite HE. unfold dwz_new_rating. xr. f_equal. field.
Qed.

(** Mirroring fails at exact half percentages: 1 of 8 points. *)
Lemma Rround_half : Rround (25 / 2) = 13 /\ Rround (175 / 2) = 88.
Proof.
  unfold Rround. rewrite !Rleb_true by lra. split.
  - replace (Zfloor (25 / 2 + / 2)) with 13%Z; auto. symmetry. apply Zfloor_imp. cbn. lra.
  - replace (Zfloor (175 / 2 + / 2)) with 88%Z; auto. symmetry. apply Zfloor_imp. cbn. lra.
Qed.
Lemma Rround_mirror x p : 0 <= x <= 100 -> (forall k : Z, x <> IZR k + 1 / 2) ->
  Rround x = IZR p -> Rround (100 - x) = IZR (100 - p).
Proof.
  intros Hx Hk. unfold Rround. rewrite !Rleb_true by lra. intros E. apply eq_IZR in E. f_equal.
  apply Zfloor_imp. rewrite plus_IZR, minus_IZR. subst p.
  pose proof (Zfloor_lb (x + / 2)). pose proof (Zfloor_ub (x + / 2)).
  specialize (Hk (Zfloor (x + / 2) - 1)%Z). rewrite minus_IZR in Hk. cbn in *. lra.
Qed.

Lemma C21_mirror_proof : forall p, (0 <= p <= 100)%Z ->
  dwz_T (100 - p) = (- dwz_T p)%Z /\ (forall q, (p < q <= 100)%Z -> (dwz_T p < dwz_T q)%Z).
Proof. intros p H. split; [now apply dwz_T_mirror|]. intros; apply dwz_T_mono; lia. Qed.

Lemma C21_inverted_partial_proof : forall os p, os <> [] ->
  (forall k : Z, Rsum (map points os) / INR (length os) * 100 <> IZR k + 1 / 2) ->
  Rround (Rsum (map points os) / INR (length os) * 100) = IZR p ->
  Rround (Rsum (map (fun o => points (invert o)) os) / INR (length os) * 100) = IZR (100 - p).
Proof.
  intros os p Hne Hk Hp.
  assert (HI : 0 < INR (length os)) by (apply lt_0_INR; destruct os; [congruence|cbn; lia]).
  assert (ES : Rsum (map (fun o => points (invert o)) os) = INR (length os) - Rsum (map points os)).
  { clear. induction os as [|o os IH]; cbn [map length]; rewrite ?Rsum_cons, ?Rsum_nil; [cbn; ring|].
    rewrite IH, S_INR, points_invert. ring. }
  rewrite ES. replace ((INR (length os) - Rsum (map points os)) / INR (length os) * 100)
    with (100 - Rsum (map points os) / INR (length os) * 100) by (field; lra).
  apply Rround_mirror; auto. apply (percent_range os Hne).
Qed.

Lemma C21_inverted_refuted_proof : exists (rs : list (DWZRating XR * Outcomes)) r r',
  Forall (fun g => dwz_rating (fst g) = Fin 2000) rs /\
  get_first_dwz 30 rs = Ok (mkDwz (Fin r) 1 30) /\
  get_first_dwz 30 (map (fun g => (fst g, invert (snd g))) rs) = Ok (mkDwz (Fin r') 1 30) /\
  2000 - r <> r' - 2000.
Proof.
  set (L := (2000, 1%N, 30%N, LOSS)).
  set (raw := [(2000, 1%N, 30%N, WIN); L; L; L; L; L; L; L]).
  set (raw' := map (fun g => let '(r, i, a, o) := g in (r, i, a, invert o)) raw : list (R * N * N * Outcomes)).
  exists (dwz_results raw).
  assert (E1 : exists p, IZR p = 13 /\ get_first_dwz 30 (dwz_results raw) = Ok (mkDwz (Fin (dwz_revise (2000 + IZR (dwz_T p)))) 1 30)).
  { destruct (C21_proof 30 raw) as (p & Hp & _ & E).
    - cbn; lia.
    - intros [X|X]; inversion X as [|? ? X1 X2]; [inversion X2|]; discriminate.
    - exists p. split.
      + rewrite Hp, <- (proj1 Rround_half). f_equal. unfold raw, L; cbn [map snd points length INR].
        rewrite !Rsum_cons, Rsum_nil. lra.
      + unfold dwz_results. rewrite E. do 5 f_equal. unfold raw, L; cbn [map snd points length INR].
        rewrite !Rsum_cons, Rsum_nil. lra. }
  assert (E2 : exists p, IZR p = 88 /\ get_first_dwz 30 (dwz_results raw') = Ok (mkDwz (Fin (dwz_revise (2000 + IZR (dwz_T p)))) 1 30)).
  { destruct (C21_proof 30 raw') as (p & Hp & _ & E).
    - cbn; lia.
    - intros [X|X]; inversion X as [|? ? X1 X2]; [|inversion X2]; discriminate.
    - exists p. split.
      + rewrite Hp, <- (proj2 Rround_half). f_equal. unfold raw', raw, L; cbn [map snd points length INR invert].
        rewrite !Rsum_cons, Rsum_nil. lra.
      + unfold dwz_results. rewrite E. do 5 f_equal. unfold raw', raw, L; cbn [map snd points length INR invert].
        rewrite !Rsum_cons, Rsum_nil. lra. }
  destruct E1 as (p & Ep & E1), E2 as (q & Eq & E2). apply eq_IZR in Ep, Eq. subst p q.
  exists (dwz_revise (2000 + IZR (dwz_T 13))), (dwz_revise (2000 + IZR (dwz_T 88))).
  split; [unfold raw, L; repeat constructor|]. split; [exact E1|]. split.
  - replace (map (fun g : DWZRating XR * Outcomes => (fst g, invert (snd g))) (dwz_results raw)) with (dwz_results raw') by reflexivity.
    exact E2.
  - change (dwz_T 13) with (-312)%Z. change (dwz_T 88) with 326%Z. unfold dwz_revise.
    destruct (Rle_dec (2000 + -312) 800), (Rle_dec (2000 + 326) 800); lra.
Qed.
