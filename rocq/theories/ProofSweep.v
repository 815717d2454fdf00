(** Proofs of C144: n equal games against one opponent within one rating period. *)
From Coq Require Import ZArith NArith List Bool Reals Lra Lia.
From Verif Require Import Arith XR Tac ModelLib ModelIngo ModelDwz ModelUscf ModelEgf ModelGlicko ModelSticko Spec SpecSettle
  ProofElo ProofIngo ProofDwz ProofUscf ProofEgf ProofGlicko ProofSticko ProofRematch ProofEvenly ProofDraw ProofBoost2.
Import ListNotations.
Local Open Scope R_scope.

Lemma map_rep {A B} (f : A -> B) a n : map f (repeat a n) = repeat (f a) n.
Proof. induction n; cbn; congruence. Qed.
Lemma Rsum_rep x n : Rsum (repeat x n) = INR n * x.
Proof. induction n as [|n IH]; [cbn; ring|]. rewrite S_INR. cbn [repeat]. unfold Rsum in *. cbn [fold_right]. rewrite IH. ring. Qed.
Lemma rep_ne {A} (a : A) n : (1 <= n)%nat -> repeat a n <> [].
Proof. destruct n; [lia|discriminate]. Qed.
Lemma hyper_settles r l m : 0 < m -> settles (fun n => r + (l - r) * (INR n / (INR n + m))) l.
Proof.
  intros Hm. apply (settle _ l (1 + m) (fun e => e)); [lra|auto|]. intros n. pose proof (pos_INR n) as P. rewrite S_INR. exists (/ (INR n + 1 + m)).
  assert (I : 0 < / (INR n + 1 + m)) by (apply Rinv_0_lt_compat; lra). split; [split; [auto|rewrite <- Rinv_1 at 2; apply Rinv_lt_contravar; lra]|]. split; [field; lra|].
  intros e He L. replace (1 + m + INR n) with (INR n + 1 + m) by ring. rewrite Rmult_comm. apply Rmult_le_compat_l; lra.
Qed.
(** ** Glicko *)
Lemma glicko_rep r RD ro RDo s n : 0 < RD -> let E := gE r ro RDo in let m := / (RD ^ 2 * gq ^ 2 * gg RDo ^ 2 * E * (1 - E)) in
  0 < m /\ glicko_r r RD (repeat (ro, RDo, s) n) = r + (s - E) / (gq * gg RDo * E * (1 - E)) * (INR n / (INR n + m)) /\
  glicko_rd r RD (repeat (ro, RDo, s) n) = RD * sqrt (m / (INR n + m)).
Proof.
  intros HR E m. pose proof (gE_range r ro RDo) as HE. fold E in HE. pose proof (gg_pos RDo) as G. pose proof gq_pos as Q. pose proof (pos_INR n) as P.
  assert (W : 0 < RD ^ 2 * gq ^ 2 * gg RDo ^ 2 * E * (1 - E)) by (pose proof (pow_lt RD 2 HR); pose proof (pow_lt gq 2 Q); pose proof (pow_lt (gg RDo) 2 G); do 4 (apply Rmult_lt_0_compat; [|try lra]); lra). assert (Hm : 0 < m) by (now apply Rinv_0_lt_compat).
  assert (D : gd2inv r (repeat (ro, RDo, s) n) = INR n * (gq ^ 2 * gg RDo ^ 2 * E * (1 - E))) by (unfold gd2inv; rewrite map_rep, Rsum_rep; fold E; ring).
  assert (R2 : 0 < RD ^ 2) by (apply pow_lt; lra).
  assert (X : / (/ RD ^ 2 + gd2inv r (repeat (ro, RDo, s) n)) = RD ^ 2 * (m / (INR n + m))). { rewrite D. replace (gq ^ 2 * gg RDo ^ 2 * E * (1 - E)) with (/ m / RD ^ 2) by (unfold m; rewrite Rinv_inv; field; lra). field. repeat split; nra. }
  split; [auto|]. split.
  - unfold glicko_r, Rdiv at 1. rewrite X. unfold gM. rewrite map_rep, Rsum_rep. fold E. f_equal. unfold m. field. assert (0 <= INR n * ((RD * gq * gg RDo) ^ 2 * E * (1 - E))) by (apply Rmult_le_pos; [auto|]; apply Rmult_le_pos; [apply Rmult_le_pos; [apply pow2_ge_0|lra]|lra]). repeat split; lra.
  - unfold glicko_rd. rewrite X, sqrt_mult_alt by lra. now rewrite sqrt_pow2 by lra.
Qed.
Lemma C144_glicko_proof : forall r RD ro RDo o c, 0 < RD -> let E := gE r ro RDo in let l := r + (points o - E) / (gq * gg RDo * E * (1 - E)) in
  let m := / (gpre RD c ^ 2 * gq ^ 2 * gg RDo ^ 2 * E * (1 - E)) in let x n := r + (l - r) * (INR n / (INR n + m)) in
  0 < m /\ settles x l /\ forall n, glicko_rating_period (mkGlicko (Fin r) (Fin RD)) (repeat (mkGlicko (Fin ro) (Fin RDo), o) n) (mkGlickoConfig (Fin c)) = mkGlicko (Fin (x n)) (Fin (gpre RD c * sqrt (m / (INR n + m)))).
Proof.
  intros r RD ro RDo o c H E l m x. pose proof (gpre_pos RD c H) as HP. assert (Hm : 0 < m) by (apply (glicko_rep r (gpre RD c) ro RDo 0 0 HP)). split; [auto|]. split; [now apply hyper_settles|]. intros n.
  destruct n as [|n].
  - cbn [repeat]. rewrite C29_empty_proof. unfold glicko_decay_deviation. cbn [gl_rating gl_deviation gl_c]. rewrite gl_pre_eval. unfold x. cbn [INR]. rewrite Rplus_0_l. replace (m / m) with 1 by (field; lra). rewrite sqrt_1. replace (r + (l - r) * (0 / m)) with r by (unfold Rdiv; ring). now rewrite Rmult_1_r.
  - pose proof (C29_formula_proof r RD c (repeat (ro, RDo, o) (S n)) H ltac:(discriminate)) as F. rewrite !map_rep in F. rewrite F. cbv zeta.
    destruct (glicko_rep r (gpre RD c) ro RDo (points o) (S n) HP) as (_ & A & B). fold E in A, B. fold m in A, B. rewrite A, B. unfold x. replace (l - r) with ((points o - E) / (gq * gg RDo * E * (1 - E))) by (unfold l; ring). reflexivity.
Qed.

Lemma sinh_gt u : 0 < u -> 2 * u < exp u - exp (- u).
Proof.
  intros H. pose proof (sinh_ge (u / 2) ltac:(lra)) as S. set (a := exp (u / 2)) in *. set (b := exp (- (u / 2))) in *. assert (AB : a * b = 1) by (unfold a, b; rewrite <- exp_plus; replace (u / 2 + - (u / 2)) with 0 by ring; apply exp_0).
  assert (EA : exp u = a * a) by (unfold a; rewrite <- exp_plus; f_equal; field). assert (EB : exp (- u) = b * b) by (unfold b; rewrite <- exp_plus; f_equal; field). rewrite EA, EB. assert (0 < b) by apply exp_pos. assert (0 < a) by apply exp_pos. assert (2 < a + b) by nra. nra.
Qed.
(** The limit of a period of draws lies beyond the opponent. *)
Lemma draws_beyond r ro RDo : let E := gE r ro RDo in let l := r + (points DRAW - E) / (gq * gg RDo * E * (1 - E)) in (r < ro -> ro < l) /\ (ro < r -> l < ro).
Proof.
  intros E l. pose proof (gg_pos RDo) as G. pose proof gq_pos as Q. set (K := gq * gg RDo). assert (HK : 0 < K) by (now apply Rmult_lt_0_compat). set (v := K * (ro - r)). assert (EE : E = lg v) by apply gE_lg.
  assert (L : l - ro = ((exp v - exp (- v)) / 2 - v) * / K). { unfold l. fold K. rewrite EE. unfold lg. rewrite exp_Ropp. pose proof (exp_pos v). replace ro with (r + v / K) by (unfold v; field; lra). cbn [points]. field. repeat split; lra. }
  assert (IK : 0 < / K) by (now apply Rinv_0_lt_compat). split; intros H.
  - assert (0 < v) by (apply Rmult_lt_0_compat; lra). pose proof (sinh_gt v ltac:(auto)). assert (0 < ((exp v - exp (- v)) / 2 - v) * / K) by (apply Rmult_lt_0_compat; lra). lra.
  - assert (0 < - v) by (unfold v; nra). pose proof (sinh_gt (- v) ltac:(auto)) as X. rewrite Ropp_involutive in X. assert (0 < (v - (exp v - exp (- v)) / 2) * / K) by (apply Rmult_lt_0_compat; lra). lra.
Qed.
Lemma C144_glicko_pass_proof : forall r RD ro RDo c, 0 < RD -> r <> ro -> exists N, forall n, (N <= n)%nat -> exists x d,
  glicko_rating_period (mkGlicko (Fin r) (Fin RD)) (repeat (mkGlicko (Fin ro) (Fin RDo), DRAW) n) (mkGlickoConfig (Fin c)) = mkGlicko (Fin x) (Fin d) /\ (r < ro -> ro < x) /\ (ro < r -> x < ro).
Proof.
  intros r RD ro RDo c H N. destruct (C144_glicko_proof r RD ro RDo DRAW c H) as (_ & (C & _) & F). destruct (draws_beyond r ro RDo) as [U V]. set (E := gE r ro RDo) in *. set (l := r + (points DRAW - E) / (gq * gg RDo * E * (1 - E))) in *.
  assert (D : 0 < Rabs (l - ro)). { apply Rabs_pos_lt. destruct (Rtotal_order r ro) as [L|[L|L]]; [specialize (U L); lra|contradiction|specialize (V L); lra]. }
  destruct (C (Rabs (l - ro)) D) as [n0 Hn]. exists n0. intros n L. do 2 eexists. split; [apply F|]. specialize (Hn n L). unfold R_dist in Hn. split; intros K; [specialize (U K); rewrite (Rabs_pos_eq (l - ro)) in Hn by lra|specialize (V K); rewrite (Rabs_left (l - ro)) in Hn by lra]; apply Rabs_def2 in Hn; lra.
Qed.
(** ** Sticko *)
Lemma mean_rep x n : (1 <= n)%nat -> mean (repeat x n) = x.
Proof. intros H. unfold mean. rewrite Rsum_rep, repeat_length. apply le_INR in H. cbn [INR] in H. field. lra. Qed.
Lemma C144_sticko_proof : forall r RD ro RDo o w h beta lambda gamma c, 0 < RD -> 0 <= h -> let rj := ro - (if w : bool then gamma else - gamma) in
  let E := gE r rj RDo in let l := r + (points o + beta - E) / (gq * gg RDo * E * (1 - E)) in let m := / (gpre RD c ^ 2 * gq ^ 2 * gg RDo ^ 2 * E * (1 - E)) in let x n := r + (l - r) * (INR n / (INR n + m)) in
  0 < m /\ settles x l /\ forall n, (1 <= n)%nat -> exists d, sticko_rating_period (mkSticko (Fin r) (Fin RD)) (repeat (mkSticko (Fin ro) (Fin RDo), o, w) n) (mkStickoConfig (Fin h) (Fin beta) (Fin lambda) (Fin gamma) (Fin c)) =
    mkSticko (Fin (x n + lambda / 100 * (ro - r))) (Fin d).
Proof.
  intros r RD ro RDo o w h beta lambda gamma c H Hh rj E l m x. pose proof (gpre_pos RD c H) as HP. assert (Hm : 0 < m) by (apply (glicko_rep r (gpre RD c) rj RDo 0 0 HP)). split; [auto|]. split; [now apply hyper_settles|]. intros n Hn.
  pose proof (C33_period_proof r RD h beta lambda gamma c (repeat (ro, RDo, o, w) n) H Hh (rep_ne _ n Hn)) as F. rewrite map_rep in F. rewrite F. eexists. unfold sticko_r. rewrite !map_rep, mean_rep by auto. cbn [st_game]. fold rj.
  destruct (glicko_rep r (gpre RD c) rj RDo (points o + beta) n HP) as (_ & A & _). fold E in A. fold m in A. rewrite A. unfold x. replace (l - r) with ((points o + beta - E) / (gq * gg RDo * E * (1 - E))) by (unfold l; ring). reflexivity.
Qed.
(** ** DWZ *)
Lemma dwz_E_scale r a s we i k : 0 < k -> dwz_E r a (k * s) (k * we) i = dwz_E r a s we i.
Proof.
  intros Hk. unfold dwz_E, dwz_raw_E, dwz_acc, dwz_brake.
  destruct (Rle_dec (k * we) (k * s)) as [p|p], (Rle_dec we s) as [q|q]; try (exfalso; nra); destruct (Rle_dec (k * s) (k * we)) as [p'|p'], (Rle_dec s we) as [q'|q']; try (exfalso; nra); reflexivity.
Qed.
Lemma C144_dwz_proof : forall r i a ro io ao o, (1 <= i)%N -> let E := elo_E r ro in let l := r + 800 * (points o - E) in let m := dwz_E r a (points o) E (IZR (Z.of_N i)) in let x n := r + (l - r) * (INR n / (INR n + m)) in
  settles x l /\ forall n, (1 <= n)%nat -> dwz_rating_period (mkDwz (Fin r) i a) (repeat (mkDwz (Fin ro) io ao, o) n) = mkDwz (Fin (x n)) ((i + 1) mod 2 ^ 64)%N a.
Proof.
  intros r i a ro io ao o Hi E l m x. assert (Hm : 0 < m) by (pose proof (dwz_E_range' r a (points o) E (IZR (Z.of_N i))); unfold m; lra). split; [now apply hyper_settles|]. intros n Hn. assert (PN : 1 <= INR n) by (apply le_INR in Hn; cbn [INR] in Hn; lra).
  pose proof (C22_formula_proof r i a (repeat (ro, io, ao, o) n) Hi) as F. rewrite !map_rep, !Rsum_rep, repeat_length in F. cbn [fst snd] in F. rewrite F. fold E. rewrite dwz_E_scale by lra. fold m. unfold dwz_upd, x, l. do 2 f_equal. field. lra.
Qed.
(** ** Ingo *)
Lemma avg_rep x n : (1 <= n)%nat -> avg (repeat x n) = x.
Proof. intros H. unfold avg. rewrite Rsum_rep, repeat_length. apply le_INR in H. cbn [INR] in H. field. lra. Qed.
Lemma C144_ingo_proof : forall r a ro ao o, let D := ingo_D a in let l := ro - (100 * points o - 50) in let x n := r + (l - r) * (INR n / (INR n + D)) in
  settles x l /\ (forall n, (1 <= n)%nat -> ingo_rating_period (mkIngo (Fin r) a) (repeat (mkIngo (Fin ro) ao, o) n) = mkIngo (Fin (x n)) a) /\
  forall n, (2 <= n)%nat -> r <> l -> exists y, Nat.iter n (fun p => fst (ingo p (mkIngo (Fin ro) ao) o)) (mkIngo (Fin r) a) = mkIngo (Fin y) a /\ Rabs (x n - r) < Rabs (y - r) < Rabs (l - r).
Proof.
  intros r a ro ao o D l x. assert (HD : 10 <= D <= 20) by (unfold D; pose proof (ingo_D_range a); lra). split; [apply hyper_settles; lra|]. split.
  - intros n Hn. assert (PN : 1 <= INR n) by (apply le_INR in Hn; cbn [INR] in Hn; lra). pose proof (C24_formula_proof r a (repeat (ro, ao, o) n) (rep_ne _ n Hn)) as F. unfold ingo_games in F. rewrite !map_rep, !avg_rep, repeat_length in F by auto. cbn [fst snd] in F. rewrite F. unfold ingo_upd, ingo_perf, x. fold l. fold D. do 2 f_equal. field. lra.
  - intros n Hn N. destruct (C139_ingo_proof r a ro ao o) as (F & _). fold D in F. fold l in F. exists (l + (r - l) * (D / (D + 1)) ^ n). split; [apply F|]. clear F.
    assert (PN : 2 <= INR n) by (apply le_INR in Hn; cbn [INR] in Hn; lra).
    assert (B : 1 + INR n / D < (1 + / D) ^ n). { assert (I : 0 < / D) by (apply Rinv_0_lt_compat; lra). clear - Hn I. induction Hn as [|n Hn IH]; [cbn; unfold Rdiv; nra|]. rewrite S_INR. cbn [pow]. unfold Rdiv in *. apply (Rmult_lt_compat_l (1 + / D)) in IH; [|lra]. pose proof (pos_INR n). nra. }
    assert (Q : (D / (D + 1)) ^ n = / (1 + / D) ^ n). { rewrite <- pow_inv. f_equal. field. lra. }
    assert (B0 : 0 < 1 + INR n / D) by (assert (0 < INR n / D) by (apply Rdiv_lt_0_compat; lra); lra). assert (I : 0 < / (1 + / D) ^ n < / (1 + INR n / D)) by (split; [apply Rinv_0_lt_compat; lra|apply Rinv_lt_contravar; [apply Rmult_lt_0_compat; lra|auto]]).
    set (q := / (1 + / D) ^ n) in *. rewrite Q. replace (l + (r - l) * q - r) with ((l - r) * (1 - q)) by ring. assert (X : x n - r = (l - r) * (1 - / (1 + INR n / D))) by (unfold x; field; lra). rewrite X, !Rabs_mult. assert (LR : 0 < Rabs (l - r)) by (apply Rabs_pos_lt; lra).
    assert (/ (1 + INR n / D) < 1) by (rewrite <- Rinv_1; apply Rinv_lt_contravar; [lra|]; assert (0 < INR n / D) by (apply Rdiv_lt_0_compat; lra); lra). rewrite !(Rabs_pos_eq (1 - _)) by lra. split; nra.
Qed.
(** ** EGF *)
Lemma C144_egf_proof : forall r ro o H n, r < 3300 -> ro < 3300 -> egf_adj (egf_h1 H) r < 3300 -> egf_adj (egf_h2 H) ro < 3300 -> exists y, fst (egf (mkEgf (Fin r)) (mkEgf (Fin ro)) o (mkEgfConfig (Fin H))) = mkEgf (Fin y) /\
  egf_rating_period (mkEgf (Fin r)) (repeat (mkEgf (Fin ro), o, mkEgfConfig (Fin H)) n) = mkEgf (Fin (r + INR n * (y - r))).
Proof.
  intros r ro o H n Hr Ho H1 H2. destruct (C13_proof r ro o H Hr Ho H1 H2) as (_ & _ & E). rewrite E. eexists. split; [reflexivity|].
  pose proof (C73_proof r (repeat (ro, o, H) n) Hr) as F. rewrite !map_rep, Rsum_rep in F. apply F. intros opp o' H' HI. apply repeat_spec in HI. injection HI as -> -> ->. auto.
Qed.
(** ** USCF *)
Lemma count_rep_w o n : count_wins (repeat o n) = match o with WIN => n | _ => 0%nat end.
Proof. unfold count_wins. induction n as [|n IH]; [now destruct o|]. cbn [repeat filter]. destruct o; cbn [length] in *; lia. Qed.
Lemma count_rep_l o n : count_losses (repeat o n) = match o with LOSS => n | _ => 0%nat end.
Proof. unfold count_losses. induction n as [|n IH]; [now destruct o|]. cbn [repeat filter]. destruct o; cbn [length] in *; lia. Qed.
Lemma C144_uscf_prov_proof : forall r g ro go o t, (1 <= g <= 8)%N -> let N0 := IZR (Z.of_N g) in let l := ro + 400 * (2 * points o - 1) in let x n := r + (l - r) * (INR n / (INR n + N0)) in
  settles x l /\ (forall n, (1 <= n)%nat -> (g + N.of_nat n < 2 ^ 64)%N -> uscf_rating_period (mkUscf (Fin r) g) (repeat (mkUscf (Fin ro) go, o) n) (mkUscfConfig (Fin t)) = mkUscf (Fin (x n)) (g + N.of_nat n)%N) /\
  (100 <= r -> 100 <= l -> forall n, (g + N.of_nat n <= 9)%N -> Nat.iter n (fun p => fst (uscf p (mkUscf (Fin ro) go) o (mkUscfConfig (Fin t)))) (mkUscf (Fin r) g) = mkUscf (Fin (x n)) (g + N.of_nat n)%N).
Proof.
  intros r g ro go o t Hg N0 l x. assert (H0 : 1 <= N0) by (unfold N0; apply IZR_le; lia). split; [apply hyper_settles; lra|].
  assert (PP : forall m, 400 * (m * match o with WIN => 1 | _ => 0 end - m * match o with LOSS => 1 | _ => 0 end) = m * (l - ro)) by (intros m; unfold l; destruct o; cbn [points]; field). split.
  - intros n Hn HB. assert (PN : 1 <= INR n) by (apply le_INR in Hn; cbn [INR] in Hn; lra). pose proof (C10_period_proof r g (repeat (ro, go, o) n) t (rep_ne _ n Hn)) as F. rewrite repeat_length in F. specialize (F HB). rewrite !map_rep in F. cbn [fst snd] in F. rewrite F. clear F.
    destruct (N.leb_spec g 8) as [_|K]; [|lia]. rewrite Rsum_rep, count_rep_w, count_rep_l. unfold uscf_prov. fold N0. do 2 f_equal. replace (INR n * ro / INR n) with ro by (field; lra).
    assert (Q : 400 * (INR (match o with WIN => n | _ => 0%nat end) - INR (match o with LOSS => n | _ => 0%nat end)) = INR n * (l - ro)) by (rewrite <- PP; destruct o; cbn [INR]; ring). rewrite Q. unfold x. field. lra.
  - intros Hr Hl n. induction n as [|n IH]; intros HB; [cbn; unfold x; cbn [INR]; rewrite N.add_0_r; do 2 f_equal; unfold Rdiv; ring|]. rewrite iter_S, IH by lia. rewrite C10_proof. cbn [fst].
    destruct (N.leb_spec (g + N.of_nat n) 8) as [_|K]; [|lia]. assert (EN : IZR (Z.of_N (g + N.of_nat n)) = N0 + INR n) by (rewrite N2Z.inj_add, plus_IZR, nat_N_Z, <- INR_IZR_INZ; reflexivity). pose proof (pos_INR n) as P.
    assert (V : uscf_prov (IZR (Z.of_N (g + N.of_nat n))) (x n) 1 ro (match o with WIN => 1 | _ => 0 end) (match o with LOSS => 1 | _ => 0 end) = x (S n)). { unfold uscf_prov. rewrite EN. pose proof (PP 1) as Q. rewrite !Rmult_1_l in Q. rewrite Q. unfold x. rewrite S_INR. field. lra. }
    rewrite V. assert (XL : 100 <= x (S n)). { unfold x. rewrite S_INR. set (k := (INR n + 1) / (INR n + 1 + N0)). assert (0 <= k <= 1) by (unfold k; split; [apply Rmult_le_pos; [lra|left; apply Rinv_0_lt_compat; lra]|apply Rmult_le_reg_r with (INR n + 1 + N0); [lra|]; unfold Rdiv; rewrite Rmult_assoc, Rinv_l; lra]). nra. }
    rewrite Rmax_right by lra. f_equal. rewrite Nat2N.inj_succ, N.mod_small by lia. lia.
Qed.
Lemma uscf_Ne_five r n : 100 <= r -> 9 <= n -> 5 <= uscf_Ne r n.
Proof.
  intros Hr Hn. unfold uscf_Ne. destruct (Rlt_dec r 2355) as [L|L]; [|apply Rmin_glb; lra].
  assert (Q : 0 < 0.662 + 0.00000739 * (2569 - r) ^ 2 <= 10 ^ 2). { assert (0 <= (2569 - r) ^ 2 <= 2469 ^ 2) by (split; [apply pow2_ge_0|apply pow_incr; lra]). lra. }
  assert (S : sqrt (0.662 + 0.00000739 * (2569 - r) ^ 2) <= 10) by (rewrite <- (sqrt_pow2 10) by lra; apply sqrt_le_1_alt; lra). assert (S0 : 0 < sqrt (0.662 + 0.00000739 * (2569 - r) ^ 2)) by (apply sqrt_lt_R0; lra).
  assert (/ 10 <= / sqrt (0.662 + 0.00000739 * (2569 - r) ^ 2)) by (apply Rinv_le_contravar; lra). repeat apply Rmin_glb; try lra; unfold Rdiv; lra.
Qed.
Lemma uscf_rep r g ro go o t n : 100 <= r -> (9 <= g)%N -> (1 <= n)%nat -> (g + N.of_nat n < 2 ^ 64)%N -> let E := elo_E r ro in let Ne := uscf_Ne r (IZR (Z.of_N g)) in let h := 800 * (points o - E) * (INR n / (INR n + Ne)) in
  uscf_rating_period (mkUscf (Fin r) g) (repeat (mkUscf (Fin ro) go, o) n) (mkUscfConfig (Fin t)) =
  mkUscf (Fin (r + h + (if (n <? 3)%nat then 0 else Rmax 0 (h - t * sqrt (INR (Nat.min n 4)))))) (g + N.of_nat n)%N.
Proof.
  intros Hr Hg Hn HB E Ne h. assert (H5 : 5 <= Ne) by (apply uscf_Ne_five; [auto|apply IZR_le; lia]). pose proof (pos_INR n) as P. pose proof (C10_period_proof r g (repeat (ro, go, o) n) t (rep_ne _ n Hn)) as F. rewrite repeat_length in F. specialize (F HB). rewrite !map_rep in F. cbn [fst snd] in F. rewrite F. clear F.
  destruct (N.leb_spec g 8) as [K|_]; [lia|]. rewrite !Rsum_rep. fold E. unfold uscf_upd, uscf_bonus. assert (X : uscf_K r (IZR (Z.of_N g)) (INR n) * (INR n * points o - INR n * E) = h) by (unfold uscf_K, h; fold Ne; field; lra). rewrite X. reflexivity.
Qed.
Lemma C144_uscf_slow_proof : forall r g ro go o t, 100 <= r -> (9 <= g)%N -> 0 <= t -> points o <= elo_E r ro -> let l := r + 800 * (points o - elo_E r ro) in let x n := r + (l - r) * (INR n / (INR n + uscf_Ne r (IZR (Z.of_N g)))) in
  settles x l /\ forall n, (1 <= n)%nat -> (g + N.of_nat n < 2 ^ 64)%N -> uscf_rating_period (mkUscf (Fin r) g) (repeat (mkUscf (Fin ro) go, o) n) (mkUscfConfig (Fin t)) = mkUscf (Fin (x n)) (g + N.of_nat n)%N.
Proof.
  intros r g ro go o t Hr Hg Ht HE l x. assert (H5 : 5 <= uscf_Ne r (IZR (Z.of_N g))) by (apply uscf_Ne_five; [auto|apply IZR_le; lia]). split; [apply hyper_settles; lra|]. intros n Hn HB. rewrite uscf_rep by auto. cbv zeta.
  set (Ne := uscf_Ne r _) in *. set (E := elo_E r ro) in *. pose proof (pos_INR n) as P. assert (K : 0 <= INR n / (INR n + Ne)) by (apply Rmult_le_pos; [lra|left; apply Rinv_0_lt_compat; lra]).
  assert (B : 800 * (points o - E) * (INR n / (INR n + Ne)) <= 0) by nra. pose proof (sqrt_pos (INR (Nat.min n 4))) as S. assert (T : 0 <= t * sqrt (INR (Nat.min n 4))) by (now apply Rmult_le_pos).
  do 2 f_equal. destruct (n <? 3)%nat; [|rewrite Rmax_left by lra]; unfold x, l; ring.
Qed.
Lemma C144_uscf_wins_proof : forall r g ro go o t, 100 <= r -> (9 <= g)%N -> 0 <= t -> elo_E r ro < points o -> exists x,
  (forall n, (1 <= n)%nat -> (g + N.of_nat n < 2 ^ 64)%N -> uscf_rating_period (mkUscf (Fin r) g) (repeat (mkUscf (Fin ro) go, o) n) (mkUscfConfig (Fin t)) = mkUscf (Fin (x n)) (g + N.of_nat n)%N) /\
  x 0%nat = r /\ forall n, x n < x (S n) < r + 1600 * (points o - elo_E r ro).
Proof.
  intros r g ro go o t Hr Hg Ht HE. assert (H5 : 5 <= uscf_Ne r (IZR (Z.of_N g))) by (apply uscf_Ne_five; [auto|apply IZR_le; lia]). set (Ne := uscf_Ne r (IZR (Z.of_N g))) in *. set (A := points o - elo_E r ro). assert (HA : 0 < A) by (unfold A; lra).
  set (h := fun n => 800 * A * (INR n / (INR n + Ne))). exists (fun n => r + h n + (if (n <? 3)%nat then 0 else Rmax 0 (h n - t * sqrt (INR (Nat.min n 4))))). split; [intros n Hn HB; now rewrite uscf_rep by auto|]. split; [unfold h; cbn; unfold Rdiv; ring|].
  assert (HS : forall n, 0 <= h n < h (S n) /\ h (S n) < 800 * A). { intros n. pose proof (pos_INR n) as P. unfold h. rewrite S_INR. assert (K : 0 <= INR n / (INR n + Ne)) by (apply Rmult_le_pos; [lra|left; apply Rinv_0_lt_compat; lra]).
    assert (K1 : INR n / (INR n + Ne) < (INR n + 1) / (INR n + 1 + Ne)). { apply Rmult_lt_reg_r with ((INR n + Ne) * (INR n + 1 + Ne)); [nra|]. replace (INR n / (INR n + Ne) * ((INR n + Ne) * (INR n + 1 + Ne))) with (INR n * (INR n + 1 + Ne)) by (field; lra). replace ((INR n + 1) / (INR n + 1 + Ne) * ((INR n + Ne) * (INR n + 1 + Ne))) with ((INR n + 1) * (INR n + Ne)) by (field; lra). nra. }
    assert (K2 : (INR n + 1) / (INR n + 1 + Ne) < 1) by (apply Rmult_lt_reg_r with (INR n + 1 + Ne); [lra|]; unfold Rdiv; rewrite Rmult_assoc, Rinv_l; lra). split; [split; [nra|]|]; nra. }
  intros n. cbv beta. destruct (HS n) as [[P1 P2] P3]. pose proof (sqrt_pos (INR (Nat.min n 4))) as S0. pose proof (sqrt_pos (INR (Nat.min (S n) 4))) as S1. split.
  - destruct (Nat.ltb_spec (S n) 3) as [L|L].
    + destruct (Nat.ltb_spec n 3); [lra|lia].
    + destruct (Nat.ltb_spec n 3) as [M|M]; [pose proof (Rmax_l 0 (h (S n) - t * sqrt (INR (Nat.min (S n) 4)))); lra|]. destruct (Nat.eq_dec n 3) as [->|N].
      * cbn [Nat.min INR] in *. replace (1 + 1 + 1 + 1) with (2 ^ 2) by ring. rewrite sqrt_pow2 by lra. set (s := sqrt (1 + 1 + 1)) in *. assert (SQ : 1.7 <= s). { unfold s. rewrite <- (sqrt_pow2 1.7) by lra. apply sqrt_le_1_alt. lra. }
        assert (G : 7 / 6 * h 3%nat <= h 4%nat). { unfold h. cbn [INR]. apply Rmult_le_reg_r with ((3 + Ne) * (4 + Ne)); [nra|]. replace (7 / 6 * (800 * A * ((1 + 1 + 1) / (1 + 1 + 1 + Ne))) * ((3 + Ne) * (4 + Ne))) with (800 * A * (7 / 2 * (4 + Ne))) by (field; lra). replace (800 * A * ((1 + 1 + 1 + 1) / (1 + 1 + 1 + 1 + Ne)) * ((3 + Ne) * (4 + Ne))) with (800 * A * (4 * (3 + Ne))) by (field; lra). apply Rmult_le_compat_l; lra. }
        unfold Rmax at 1. destruct (Rle_dec 0 (h 3%nat - t * s)) as [Q|Q]; [|pose proof (Rmax_l 0 (h 4%nat - t * 2)); lra]. pose proof (Rmax_r 0 (h 4%nat - t * 2)). assert (1.7 * t <= t * s) by (rewrite (Rmult_comm t); apply Rmult_le_compat_r; lra). lra.
      * rewrite !Nat.min_r by lia. assert (Rmax 0 (h n - t * sqrt (INR 4)) <= Rmax 0 (h (S n) - t * sqrt (INR 4))) by (apply Rle_max_compat_l; lra). lra.
  - assert (T : 0 <= t * sqrt (INR (Nat.min (S n) 4))) by (now apply Rmult_le_pos). destruct (S n <? 3)%nat; [nra|]. assert (Rmax 0 (h (S n) - t * sqrt (INR (Nat.min (S n) 4))) < 800 * A) by (apply Rmax_lub_lt; nra). unfold A in *. lra.
Qed.
(** DWZ draws between players at most 50 points apart. *)
Lemma dwz_draw_up r ro : r < ro <= r + 50 -> ro < r + 800 * (1 / 2 - elo_E r ro).
Proof.
  intros H. rewrite elo_E_lg. unfold lg. pose proof ln10_close as L. set (d := ro - r). assert (Hd : 0 < d <= 50) by (unfold d; lra). set (v := ln 10 / 400 * d). assert (V : 2.3 / 400 * d <= v <= 0.288) by (unfold v; split; [apply Rmult_le_compat_r; lra|]; apply Rle_trans with (2.303 / 400 * d); [apply Rmult_le_compat_r; lra|lra]).
  pose proof (exp_ineq1_le v) as Q. replace ro with (r + d) by (unfold d; ring). apply Rplus_lt_compat_l. assert (E : v / (2 + v) <= 1 - 2 * / (1 + exp v)). { replace (v / (2 + v)) with (1 - 2 * / (2 + v)) by (field; lra). assert (/ (1 + exp v) <= / (2 + v)) by (apply Rinv_le_contravar; lra). lra. }
  apply Rlt_le_trans with (400 * (v / (2 + v))); [|lra]. apply Rmult_lt_reg_r with (2 + v); [lra|]. replace (400 * (v / (2 + v)) * (2 + v)) with (400 * v) by (field; lra). nra.
Qed.
Lemma C144_dwz_pass_proof : forall r i a ro io ao, (1 <= i)%N -> r <> ro -> Rabs (r - ro) <= 50 -> exists N, forall n, (N <= n)%nat -> exists x,
  dwz_rating (dwz_rating_period (mkDwz (Fin r) i a) (repeat (mkDwz (Fin ro) io ao, DRAW) n)) = Fin x /\ (r < ro -> ro < x) /\ (ro < r -> x < ro).
Proof.
  intros r i a ro io ao Hi N HB. destruct (C144_dwz_proof r i a ro io ao DRAW Hi) as ((C & _) & F). cbn [points] in *. set (l := r + 800 * (1 / 2 - elo_E r ro)) in *. assert (HB' : -50 <= r - ro <= 50) by (unfold Rabs in HB; destruct (Rcase_abs (r - ro)); lra).
  assert (U : r < ro -> ro < l) by (intros; apply dwz_draw_up; lra).
  assert (V : ro < r -> l < ro). { intros. pose proof (dwz_draw_up ro r ltac:(lra)) as X. assert (elo_E ro r + elo_E r ro = 1) by (rewrite !elo_E_lg; replace (ln 10 / 400 * (ro - r)) with (- (ln 10 / 400 * (r - ro))) by ring; rewrite lg_neg; ring). unfold l. lra. }
  assert (D : 0 < Rabs (l - ro)). { apply Rabs_pos_lt. destruct (Rtotal_order r ro) as [L|[L|L]]; [specialize (U L); lra|contradiction|specialize (V L); lra]. }
  destruct (C (Rabs (l - ro)) D) as [n0 Hn]. exists (S n0). intros n L. eexists. split; [rewrite F by lia; reflexivity|]. specialize (Hn n ltac:(lia)). unfold R_dist in Hn. split; intros K; [specialize (U K); rewrite (Rabs_pos_eq (l - ro)) in Hn by lra|specialize (V K); rewrite (Rabs_left (l - ro)) in Hn by lra]; apply Rabs_def2 in Hn; lra.
Qed.
