(** Proofs of C138: the first DWZ. *)
From Coq Require Import ZArith NArith List Bool Reals Lra Lia Permutation.
From Flocq Require Import Core.
From Verif Require Import Arith XR Tac ModelLib ModelDwz Spec ProofDwz.
Import Spec ListNotations.
Local Open Scope R_scope.

Lemma out_dec (x y : Outcomes) : {x = y} + {x <> y}.
Proof. decide equality. Defined.
Notation fd_game := (R * N * N * Outcomes)%type.
Definition fd_in (rs : list fd_game) : list (DWZRating XR * Outcomes) := map (fun g => let '(r, i, a, o) := g in (mkDwz (Fin r) i a, o)) rs.
Definition fd_r (g : fd_game) : R := let '(r, i, a, o) := g in r.
Definition fd_ok (rs : list fd_game) : Prop := (5 <= length rs)%nat /\ ~ (Forall (fun g => snd g = WIN) rs \/ Forall (fun g => snd g = LOSS) rs).
Definition fd_pct (rs : list fd_game) : R := Rsum (map (fun g => points (snd g)) rs) / INR (length rs) * 100.
Definition fd_avg (rs : list fd_game) : R := Rsum (map fd_r rs) / INR (length rs).
Lemma fd_value age rs : fd_ok rs -> exists p, IZR p = Rround (fd_pct rs) /\ (0 <= p <= 100)%Z /\ get_first_dwz age (fd_in rs) = Ok (mkDwz (Fin (dwz_revise (fd_avg rs + IZR (dwz_T p)))) 1 age).
Proof. intros [H1 H2]. exact (C21_proof age rs H1 H2). Qed.
Lemma revise_lt x y : x < y -> dwz_revise x < dwz_revise y.
Proof. intros H. unfold dwz_revise. destruct (Rle_dec x 800), (Rle_dec y 800); lra. Qed.
Lemma revise_le x y : x <= y -> dwz_revise x <= dwz_revise y.
Proof. intros [H| ->]; [left; now apply revise_lt|lra]. Qed.
Lemma Rround_pos x : 0 <= x -> Rround x = IZR (Zfloor (x + / 2)).
Proof. intros H. unfold Rround. destruct (Rleb_spec 0 x); [reflexivity|lra]. Qed.
Lemma pct_nonneg rs : rs <> [] -> 0 <= fd_pct rs.
Proof.
  intros NE. unfold fd_pct. assert (0 < INR (length rs)) by (apply lt_0_INR; destruct rs; [congruence|cbn; lia]). apply Rmult_le_pos; [|lra]. apply Rmult_le_pos; [|left; now apply Rinv_0_lt_compat].
  apply Rsum_nonneg. intros z Hz. apply in_map_iff in Hz as (g & <- & _). destruct (snd g); cbn; lra.
Qed.
Lemma T_mono p q : (0 <= p <= 100)%Z -> (0 <= q <= 100)%Z -> (p <= q)%Z -> IZR (dwz_T p) <= IZR (dwz_T q).
Proof. intros Hp Hq H. apply IZR_le. destruct (Z.eq_dec p q) as [->|N]; [lia|]. destruct (C21_mirror_proof p Hp) as [_ M]. specialize (M q ltac:(lia)). lia. Qed.
Lemma T_lt p q : (0 <= p <= 100)%Z -> (0 <= q <= 100)%Z -> (p < q)%Z -> IZR (dwz_T p) < IZR (dwz_T q).
Proof. intros Hp Hq H. apply IZR_lt. destruct (C21_mirror_proof p Hp) as [_ M]. apply M. lia. Qed.
Lemma ok_ne rs : fd_ok rs -> rs <> [] /\ 5 <= INR (length rs).
Proof. intros [H _]. split; [destruct rs; [cbn in H; lia|discriminate]|]. change 5 with (IZR (Z.of_nat 5)). rewrite <- INR_IZR_INZ. now apply le_INR. Qed.
Lemma C138_order_proof : forall age (rs rs' : list (R * N * N * Outcomes)), Permutation rs rs' ->
  let first rs := get_first_dwz age (map (fun g => let '(r, i, a, o) := g in (mkDwz (Fin r) i a, o)) rs) in first rs = first rs'.
Proof.
  intros age rs rs' P first. unfold first. fold (fd_in rs) (fd_in rs'). pose proof (Permutation_length P) as EL.
  assert (PF : forall o, Forall (fun g : fd_game => snd g = o) rs <-> Forall (fun g : fd_game => snd g = o) rs').
  { intros o. rewrite !Forall_forall. split; intros H x Hx; apply H; [eapply Permutation_in; [apply Permutation_sym, P|exact Hx]|eapply Permutation_in; [exact P|exact Hx]]. }
  destruct (Nat.lt_ge_cases (length rs) 5) as [L|L].
  { assert (E : forall l : list fd_game, (length l < 5)%nat -> get_first_dwz age (fd_in l) = Err NotEnoughGames) by (intros l Hl; apply C20_proof; unfold fd_in; now rewrite map_length). rewrite !E by lia. reflexivity. }
  assert (FI : forall o l, Forall (fun g => snd g = o) (fd_in l) <-> Forall (fun g : fd_game => snd g = o) l).
  { intros o l. unfold fd_in. rewrite Forall_map. split; apply Forall_impl; intros [[[r i] a] x]; auto. }
  destruct (Forall_dec (fun g : fd_game => snd g = WIN) (fun g => out_dec (snd g) _) rs) as [W|W]; [|destruct (Forall_dec (fun g : fd_game => snd g = LOSS) (fun g => out_dec (snd g) _) rs) as [W'|W']].
  - assert (E : forall l : list fd_game, (5 <= length l)%nat -> Forall (fun g => snd g = WIN) l -> get_first_dwz age (fd_in l) = Err InvalidWinRate) by (intros l Hl HW; apply C20_proof; rewrite !FI; unfold fd_in; rewrite map_length; auto). rewrite !E; auto; [lia|now apply PF].
  - assert (E : forall l : list fd_game, (5 <= length l)%nat -> Forall (fun g => snd g = LOSS) l -> get_first_dwz age (fd_in l) = Err InvalidWinRate) by (intros l Hl HW; apply C20_proof; rewrite !FI; unfold fd_in; rewrite map_length; auto). rewrite !E; auto; [lia|now apply PF].
  - assert (O : fd_ok rs) by (split; [auto|tauto]). assert (O' : fd_ok rs') by (split; [lia|rewrite <- !PF; tauto]).
    destruct (fd_value age rs O) as (p & Ep & _ & ->). destruct (fd_value age rs' O') as (p' & Ep' & _ & ->).
    assert (A : fd_avg rs = fd_avg rs') by (unfold fd_avg; rewrite EL; f_equal; apply Rsum_perm; now apply Permutation_map). assert (B : fd_pct rs = fd_pct rs') by (unfold fd_pct; rewrite EL; do 2 f_equal; apply Rsum_perm; now apply Permutation_map).
    assert (p = p') by (apply eq_IZR; congruence). subst p'. now rewrite A.
Qed.
Lemma C138_better_proof : forall age (rs rs' : list (R * N * N * Outcomes)),
  let first rs := get_first_dwz age (map (fun g => let '(r, i, a, o) := g in (mkDwz (Fin r) i a, o)) rs) in
  let rating (g : R * N * N * Outcomes) := let '(r, i, a, o) := g in r in
  Forall2 (fun g g' => rating g <= rating g' /\ points (snd g) <= points (snd g')) rs rs' -> forall d d', first rs = Ok d -> first rs' = Ok d' -> exists x x',
  dwz_rating d = Fin x /\ dwz_rating d' = Fin x' /\ x <= x' /\
  ((exists k g g', nth_error rs k = Some g /\ nth_error rs' k = Some g' /\ (rating g < rating g' \/ points (snd g) < points (snd g') /\ (length rs <= 50)%nat)) -> x < x').
Proof.
  intros age rs rs' first rating H d d' E E'. unfold first in E, E'. fold (fd_in rs) in E. fold (fd_in rs') in E'. fold fd_r in rating.
  assert (OK : forall l dd, get_first_dwz age (fd_in l) = Ok dd -> fd_ok l).
  { intros l dd El. assert (X : exists d, get_first_dwz age (fd_in l) = Ok d) by eauto. apply C20_proof in X. unfold fd_in in X. rewrite map_length in X. destruct X as [X1 X2]. split; [auto|]. intros Y. apply X2. rewrite !Forall_map.
    destruct Y as [Y|Y]; [left|right]; (eapply Forall_impl; [|exact Y]; intros [[[r i] a] x]; auto). }
  pose proof (OK _ _ E) as O. pose proof (OK _ _ E') as O'. destruct (fd_value age rs O) as (p & Ep & Rp & Vp). destruct (fd_value age rs' O') as (p' & Ep' & Rp' & Vp').
  rewrite E in Vp. rewrite E' in Vp'. injection Vp as ->. injection Vp' as ->. cbn [dwz_rating]. do 2 eexists. do 2 (split; [reflexivity|]).
  destruct (ok_ne rs O) as [NE L5]. destruct (ok_ne rs' O') as [NE' _]. assert (EL : length rs' = length rs) by (clear - H; induction H; cbn; auto).
  assert (IN : 0 < / INR (length rs)) by (apply Rinv_0_lt_compat; lra).
  assert (SA : Rsum (map fd_r rs) <= Rsum (map fd_r rs')) by (clear - H; induction H as [|g g' l l' [A _] _ IH]; cbn [map]; [rewrite !Rsum_nil; lra|rewrite !Rsum_cons; change (rating g) with (fd_r g) in A; change (rating g') with (fd_r g') in A; lra]).
  assert (SP : Rsum (map (fun g => points (snd g)) rs) <= Rsum (map (fun g => points (snd g)) rs')) by (clear - H; induction H as [|g g' l l' [_ A] _ IH]; cbn [map]; [rewrite !Rsum_nil; lra|rewrite !Rsum_cons; lra]).
  assert (A : fd_avg rs <= fd_avg rs') by (unfold fd_avg, Rdiv; rewrite EL; apply Rmult_le_compat_r; lra). assert (B : fd_pct rs <= fd_pct rs') by (unfold fd_pct, Rdiv; rewrite EL; apply Rmult_le_compat_r; [lra|]; apply Rmult_le_compat_r; lra).
  rewrite (Rround_pos _ (pct_nonneg rs NE)) in Ep. rewrite (Rround_pos _ (pct_nonneg rs' NE')) in Ep'. apply eq_IZR in Ep. apply eq_IZR in Ep'.
  assert (PP : (p <= p')%Z) by (rewrite Ep, Ep'; apply Zfloor_le; lra). pose proof (T_mono p p' Rp Rp' PP) as T. split; [apply revise_le; lra|].
  intros (k & g & g' & Hk & Hk' & C). apply revise_lt.
  destruct (nth_error_split rs k Hk) as (l1 & l2 & S1 & K1). destruct (nth_error_split rs' k Hk') as (l1' & l2' & S2 & K2).
  assert (SPL : Forall2 (fun g g' => rating g <= rating g' /\ points (snd g) <= points (snd g')) l1 l1' /\ Forall2 (fun g g' => rating g <= rating g' /\ points (snd g) <= points (snd g')) l2 l2').
  { rewrite S1, S2 in H. clear - H K1 K2. assert (KL : length l1 = length l1') by lia. clear K1 K2 k. revert l1' KL H. induction l1 as [|x l1 IH]; intros [|y l1'] KL H; cbn in KL; try lia; cbn [app] in H; inversion H; subst; [split; [constructor|auto]|]. destruct (IH l1' ltac:(lia) H5) as [I1 I2]. split; [constructor; auto|auto]. }
  destruct SPL as [F1 F2].
  assert (MA : forall l l', Forall2 (fun g g' => rating g <= rating g' /\ points (snd g) <= points (snd g')) l l' -> Rsum (map fd_r l) <= Rsum (map fd_r l') /\ Rsum (map (fun g => points (snd g)) l) <= Rsum (map (fun g => points (snd g)) l')).
  { clear. induction 1 as [|x y l l' [U V] _ [I1 I2]]; cbn [map]; [rewrite !Rsum_nil; lra|rewrite !Rsum_cons; change (rating x) with (fd_r x) in U; change (rating y) with (fd_r y) in U; lra]. }
  destruct (MA _ _ F1) as [U1 U2]. destruct (MA _ _ F2) as [W1 W2].
  assert (HG : rating g <= rating g' /\ points (snd g) <= points (snd g')). { clear - H Hk Hk'. revert rs rs' H Hk Hk'. induction k as [|k IH]; intros rs rs' H Hk Hk'; inversion H; subst; cbn in Hk, Hk'; try discriminate; [injection Hk as <-; injection Hk' as <-; auto|eauto]. }
  change (rating g) with (fd_r g) in *. change (rating g') with (fd_r g') in *. destruct C as [C|[C L50]].
  - assert (ST : Rsum (map fd_r rs) < Rsum (map fd_r rs')) by (rewrite S1, S2, !map_app, !Rsum_app; cbn [map]; rewrite !Rsum_cons; lra).
    assert (fd_avg rs < fd_avg rs') by (unfold fd_avg, Rdiv; rewrite EL; apply Rmult_lt_compat_r; lra). lra.
  - assert (HALF : points (snd g) + 1 / 2 <= points (snd g')) by (destruct (snd g), (snd g'); cbn in *; lra).
    assert (ST : Rsum (map (fun g => points (snd g)) rs) + 1 / 2 <= Rsum (map (fun g => points (snd g)) rs')) by (rewrite S1, S2, !map_app, !Rsum_app; cbn [map]; rewrite !Rsum_cons; lra).
    assert (N50 : INR (length rs) <= 50). { apply le_INR in L50. replace (INR 50) with 50 in L50 by (rewrite INR_IZR_INZ; reflexivity). lra. }
    assert (I50 : / 50 <= / INR (length rs)) by (apply Rinv_le_contravar; lra).
    assert (ONE : fd_pct rs + 1 <= fd_pct rs'). { unfold fd_pct, Rdiv. rewrite EL. set (i := / INR (length rs)) in *. set (P := Rsum (map (fun g => points (snd g)) rs)) in *. set (P' := Rsum (map (fun g => points (snd g)) rs')) in *. assert ((P + 1 / 2) * i <= P' * i) by (apply Rmult_le_compat_r; lra). lra. }
    assert (PL : (p < p')%Z). { assert (Zfloor (fd_pct rs + / 2) + 1 <= p')%Z; [|lia]. rewrite Ep'. apply Zfloor_lub. rewrite plus_IZR. pose proof (Zfloor_lb (fd_pct rs + / 2)). lra. }
    pose proof (T_lt p p' Rp Rp' PL). lra.
Qed.
Lemma T_bound p : (0 <= p <= 100)%Z -> -1000 <= IZR (dwz_T p) <= 1000.
Proof. intros H. pose proof (T_mono 0 p ltac:(lia) H ltac:(lia)) as A. pose proof (T_mono p 100 H ltac:(lia) ltac:(lia)) as B. unfold dwz_T in A at 1. unfold dwz_T in B at 2. cbn in A, B. lra. Qed.
(** An additional win can cost points, an additional loss can bring some. *)
Lemma C138_one_more_refuted_proof : forall age (rs : list (R * N * N * Outcomes)) o,
  let first rs := get_first_dwz age (map (fun g => let '(r, i, a, o) := g in (mkDwz (Fin r) i a, o)) rs) in
  forall d, first rs = Ok d -> exists low high x xl xh i a, first rs = Ok (mkDwz (Fin x) 1 age) /\
  first (rs ++ [(low, i, a, o)]) = Ok (mkDwz (Fin xl) 1 age) /\ first (rs ++ [(high, i, a, o)]) = Ok (mkDwz (Fin xh) 1 age) /\ xl < x < xh.
Proof.
  intros age rs o first d E. unfold first in *. fold (fd_in rs) in *.
  assert (O : fd_ok rs).
  { assert (X : exists d, get_first_dwz age (fd_in rs) = Ok d) by eauto. apply C20_proof in X. unfold fd_in in X. rewrite map_length in X. destruct X as [X1 X2]. split; [auto|]. intros Y. apply X2. rewrite !Forall_map.
    destruct Y as [Y|Y]; [left|right]; (eapply Forall_impl; [|exact Y]; intros [[[r i] a] x]; auto). }
  assert (OA : forall g, fd_ok (rs ++ [g])) by (intros g; destruct O as [O1 O2]; split; [rewrite app_length; lia|]; rewrite !Forall_app; tauto).
  destruct (fd_value age rs O) as (p & _ & Rp & Vp). destruct (ok_ne rs O) as [_ L5]. set (n := INR (length rs)) in *.
  assert (V : forall r, exists q, (0 <= q <= 100)%Z /\ get_first_dwz age (fd_in (rs ++ [(r, 1%N, 1%N, o)])) = Ok (mkDwz (Fin (dwz_revise ((Rsum (map fd_r rs) + r) / (n + 1) + IZR (dwz_T q)))) 1 age)).
  { intros r. destruct (fd_value age _ (OA (r, 1%N, 1%N, o))) as (q & _ & Rq & Vq). exists q. split; [auto|]. rewrite Vq. unfold fd_avg. rewrite map_app, Rsum_app, app_length, plus_INR. cbn [map length INR fd_r]. rewrite Rsum_cons, Rsum_nil, Rplus_0_r. reflexivity. }
  set (S := Rsum (map fd_r rs)) in *. destruct (V ((n + 1) * (S / n - 3000) - S)) as (q1 & R1 & V1). destruct (V ((n + 1) * (S / n + 3000) - S)) as (q2 & R2 & V2). unfold fd_avg in Vp. fold S n in Vp.
  do 5 eexists. exists 1%N, 1%N. split; [exact Vp|]. split; [exact V1|]. split; [exact V2|]. pose proof (T_bound p Rp). pose proof (T_bound q1 R1). pose proof (T_bound q2 R2).
  assert (A1 : (S + ((n + 1) * (S / n - 3000) - S)) / (n + 1) = S / n - 3000) by (field; lra). assert (A2 : (S + ((n + 1) * (S / n + 3000) - S)) / (n + 1) = S / n + 3000) by (field; lra).
  rewrite A1, A2. split; apply revise_lt; lra.
Qed.
