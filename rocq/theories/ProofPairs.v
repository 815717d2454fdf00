(** Proofs of C146: a Weng-Lin game of many teams adds up its two-team games. *)
From Coq Require Import ZArith NArith List Bool Reals Lra Lia.
From Verif Require Import Arith XR Tac ModelLib ModelWengLin Spec SpecIn ProofElo ProofWengLin.
Import Spec ListNotations.
Local Open Scope R_scope.

Lemma eta_quarter beta a u b v : 0 < u -> 0 < v -> 0 <= wls_eta beta a u b v <= 1 / 4.
Proof.
  intros Hu Hv. split; [apply wls_eta_nonneg; lra|]. unfold wls_eta. set (c := wlc beta u v). assert (C : sqrt u < c) by (unfold c, wlc; pose proof (pow2_ge_0 beta); apply sqrt_lt_1_alt; lra). assert (S : 0 < sqrt u) by (now apply sqrt_lt_R0).
  set (k := sqrt u / c). assert (K : 0 < k <= 1) by (unfold k; split; [apply Rdiv_lt_0_compat; lra|apply Rmult_le_reg_r with c; [lra|]; unfold Rdiv; rewrite Rmult_assoc, Rinv_l; lra]).
  pose proof (wlp_compl a b c) as P. pose proof (wlp_range a b c) as P1. pose proof (wlp_range b a c) as P2. replace (wlp b a c) with (1 - wlp a b c) by lra. set (p := wlp a b c) in *. assert (Q : 0 <= p * (1 - p) <= 1 / 4) by (split; [apply Rmult_le_pos; lra|pose proof (pow2_ge_0 (p - 1 / 2)); cbn [pow] in *; lra]). assert (K2 : 0 <= k ^ 2 <= 1) by (split; [apply pow2_ge_0|cbn [pow]; nra]). assert (K3 : 0 <= k * k ^ 2 <= 1) by (split; [apply Rmult_le_pos; lra|nra]). rewrite Rmult_assoc. nra.
Qed.
Lemma points_rank r r' : points (match N.compare r r' with Lt => WIN | Eq => DRAW | Gt => LOSS end) = rank_score r r'.
Proof. unfold rank_score. destruct (N.compare r r'); reflexivity. Qed.
Lemma Rsum_map_eq {A} (f g : A -> R) l : (forall x, In x l -> f x = g x) -> Rsum (map f l) = Rsum (map g l).
Proof. intros H. f_equal. now apply map_ext_in. Qed.
Lemma Rsum_scale {A} (f : A -> R) k l : Rsum (map (fun x => k * f x) l) = k * Rsum (map f l).
Proof. induction l as [|a l IH]; [cbn; ring|]. cbn [map]. rewrite !Rsum_cons, IH. ring. Qed.
Lemma member_le t p : In p t -> Forall (fun q : R * R => 0 < snd q) t -> snd p ^ 2 <= wl_s2 t.
Proof.
  intros I H. unfold wl_s2. induction H as [|q l Hq Hl IH]; [destruct I|]. cbn [map]. rewrite Rsum_cons. assert (0 <= Rsum (map (fun p => snd p ^ 2) l)) by (apply Rsum_nonneg; intros x Hx; apply in_map_iff in Hx; destruct Hx as (z & <- & _); apply pow2_ge_0).
  destruct I as [<-|I]; [lra|]. pose proof (pow2_ge_0 (snd q)). specialize (IH I). lra.
Qed.
Lemma C146_proof : forall beta kappa pre t r post, 0 <= kappa <= 3 / 4 -> Forall (fun y => wl_ok (fst y)) (pre ++ (t, r) :: post) ->
  let cfg := mkWLConfig (Fin beta) (Fin kappa) in exists a d,
  nth_error (weng_lin_multi_team (map wlr_in (pre ++ (t, r) :: post)) cfg) (length pre) = Some (wlt_in a) /\ length a = length t /\
  (forall x, In x (pre ++ post) -> fst (weng_lin_two_teams (wlt_in t) (wlt_in (fst x)) (match N.compare r (snd x) with Lt => WIN | Eq => DRAW | Gt => LOSS end) cfg) = wlt_in (d x)) /\
  forall i p, nth_error t i = Some p -> exists q, nth_error a i = Some q /\
    fst q - fst p = Rsum (map (fun x => fst (nth i (d x) p) - fst p) (pre ++ post)) /\
    snd q ^ 2 = snd p ^ 2 * Rmax (1 - Rsum (map (fun x => 1 - (snd (nth i (d x) p) / snd p) ^ 2) (pre ++ post))) kappa.
Proof.
  intros beta kappa pre t r post Hk HF cfg. exists (wl_team' beta kappa t r (pre ++ post)), (fun x => wl_side beta kappa t (fst x) (rank_score r (snd x))).
  split; [apply C46_formula_proof; [lra|auto]|]. split; [unfold wl_team'; apply map_length|]. rewrite Forall_forall in HF. assert (Ht : wl_ok t) by (apply (HF (t, r)), in_elt).
  assert (HX : forall x, In x (pre ++ post) -> wl_ok (fst x)) by (intros x I; apply HF; rewrite in_app_iff in *; cbn; tauto). pose proof (wl_s2_pos t Ht) as U. split.
  - intros x I. unfold cfg. rewrite wl_two_teams_eval by (auto; lra). cbn [fst]. now rewrite points_rank.
  - intros i p E. unfold wl_team'. cbv zeta. rewrite nth_error_map, E. cbn [option_map]. eexists. split; [reflexivity|]. unfold wl_player. cbn [fst snd].
    pose proof (nth_error_In _ _ E) as I. destruct Ht as [_ Hf]. pose proof (member_le t p I Hf) as PV. rewrite Forall_forall in Hf. pose proof (Hf p I) as Hp. set (V := wl_s2 t) in *. set (k := snd p ^ 2 / V). assert (K : 0 < k <= 1) by (unfold k; split; [apply Rdiv_lt_0_compat; [now apply pow_lt|lra]|apply Rmult_le_reg_r with V; [lra|]; unfold Rdiv; rewrite Rmult_assoc, Rinv_l; lra]).
    assert (NX : forall x, nth i (wl_side beta kappa t (fst x) (rank_score r (snd x))) p = wl_player kappa V (wls_delta beta (wl_theta t) V (wl_theta (fst x)) (wl_s2 (fst x)) (rank_score r (snd x))) (wls_eta beta (wl_theta t) V (wl_theta (fst x)) (wl_s2 (fst x))) p).
    { intros x. apply nth_error_nth. unfold wl_side. now rewrite nth_error_map, E. } split.
    + transitivity (k * Rsum (map (fun x : list (R * R) * N => wls_delta beta (wl_theta t) V (wl_theta (fst x)) (wl_s2 (fst x)) (rank_score r (snd x))) (pre ++ post))).
      * replace (Rsum (map (fun '(t', r') => wls_delta beta (wl_theta t) V (wl_theta t') (wl_s2 t') (rank_score r r')) (pre ++ post))) with (Rsum (map (fun x : list (R * R) * N => wls_delta beta (wl_theta t) V (wl_theta (fst x)) (wl_s2 (fst x)) (rank_score r (snd x))) (pre ++ post))) by (apply Rsum_map_eq; intros [t' r'] _; reflexivity). fold k. ring.
      * rewrite <- Rsum_scale. apply Rsum_map_eq. intros x _. rewrite NX. unfold wl_player. cbn [fst]. fold k. ring.
    + assert (S : Rsum (map (fun x : list (R * R) * N => 1 - (snd (nth i (wl_side beta kappa t (fst x) (rank_score r (snd x))) p) / snd p) ^ 2) (pre ++ post)) = k * Rsum (map (fun '(t', r') => wls_eta beta (wl_theta t) V (wl_theta t') (wl_s2 t')) (pre ++ post))).
      { rewrite <- Rsum_scale. apply Rsum_map_eq. intros x Hx. rewrite NX. unfold wl_player. cbn [snd]. fold k. destruct x as [t' r']. cbn [fst snd]. pose proof (eta_quarter beta (wl_theta t) V (wl_theta t') (wl_s2 t') U (wl_s2_pos t' (HX (t', r') Hx))) as Q. set (e := wls_eta _ _ _ _ _) in *. assert (KE : 0 <= k * e <= 1 / 4) by nra.
        rewrite Rmax_left by lra. replace (snd p * sqrt (1 - k * e) / snd p) with (sqrt (1 - k * e)) by (field; lra). rewrite pow2_sqrt by lra. ring. }
      rewrite S. fold k. rewrite Rpow_mult_distr, pow2_sqrt by (eapply Rle_trans; [|apply Rmax_r]; lra). reflexivity.
Qed.
