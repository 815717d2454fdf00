(** Proofs that the functions of a module never leave the set of sensible ratings. *)
From Coq Require Import ZArith NArith List Bool Reals Lra Lia Permutation.
From Verif Require Import Arith XR Tac ModelLib ModelElo ModelFifa ModelIngo ModelUscf ModelDwz ModelGlicko ModelSticko
  ModelBoost ModelGlicko2 ModelWengLin ModelTS Spec SpecIn SpecTS SpecInTS SpecReach ProofElo ProofFifa ProofIngo ProofUscf ProofDwz ProofGlicko
  ProofSticko ProofBoost ProofGlicko2 ProofWengLin ProofTS ProofTSUpset.
Import ListNotations.
Local Open Scope R_scope.

Lemma reach_inv {X} (V S : X -> Prop) (move : list X -> X -> Prop) :
  (forall x, S x -> V x) -> (forall l x, (forall y, In y l -> V y) -> move l x -> V x) -> forall x, reach S move x -> V x.
Proof. intros HS HM x H. induction H as [x H|l x _ IH H]; [now apply HS|]. now apply (HM l). Qed.
Lemma reach_inv' {X} (V : X -> Prop) (move : list X -> X -> Prop) :
  (forall l x, (forall y, In y l -> V y) -> move l x -> V x) -> forall x, reach V move x -> V x.
Proof. intros HM. apply reach_inv; auto. Qed.
(** A list of values that are all images is an image. *)
Lemma all_map {A B} (g : A -> B) l : (forall y, In y l -> exists a, y = g a) -> exists l', l = map g l'.
Proof.
  induction l as [|y l IH]; intros H; [now exists []|]. destruct (H y (or_introl eq_refl)) as [a ->]. destruct IH as [l' ->]; [intros z Hz; apply H; now right|].
  now exists (a :: l').
Qed.
Lemma all_map_P {A B} (g : A -> B) (P : A -> Prop) l : (forall y, In y l -> exists a, y = g a /\ P a) -> exists l', l = map g l' /\ Forall P l'.
Proof.
  induction l as [|y l IH]; intros H; [exists []; split; [auto|constructor]|]. destruct (H y (or_introl eq_refl)) as (a & -> & Ha). destruct IH as (l' & -> & Hl); [intros z Hz; apply H; now right|].
  exists (a :: l'). split; [auto|now constructor].
Qed.
Lemma fold_inv {A B} (V : A -> Prop) (f : A -> B -> A) l : (forall a b, In b l -> V a -> V (f a b)) -> forall a, V a -> V (fold_left f l a).
Proof. induction l as [|b l IH]; cbn; intros H a Ha; auto. Qed.
Ltac one H := let K := fresh in pose proof (H _ (or_introl eq_refl)) as K; hnf in K.
Ltac two H := let K := fresh in pose proof (H _ (or_introl eq_refl)) as K; let K' := fresh in pose proof (H _ (or_intror (or_introl eq_refl))) as K'; hnf in K, K'.

(** ** Elo *)
Lemma elo_valid_game p q o k : elo_valid p -> elo_valid q ->
  elo_valid (fst (elo p q o (mkEloConfig (Fin k)))) /\ elo_valid (snd (elo p q o (mkEloConfig (Fin k)))).
Proof. intros [r1 ->] [r2 ->]. rewrite elo_eval. split; eexists; reflexivity. Qed.
Lemma C92_elo_proof : forall p, reach elo_valid elo_move p -> elo_valid p.
Proof.
  apply reach_inv'. intros l x H M. destruct M as [p q o k|p q o k|p rs k].
  - two H. exact (proj1 (elo_valid_game _ _ _ _ H0 H1)).
  - two H. exact (proj2 (elo_valid_game _ _ _ _ H0 H1)).
  - destruct (C05_proof XR XRA p rs (mkEloConfig (Fin k))) as [E _]. rewrite E. apply fold_inv; [|apply H; now left].
    intros a b Hb Ha. apply elo_valid_game; auto. apply H. right. now apply in_map.
Qed.

(** ** FIFA *)
Lemma fifa_valid_game p q o i ko pen : fifa_valid p -> fifa_valid q ->
  fifa_valid (fst (fifa p q o (mkFifaConfig (Fin i) ko pen))) /\ fifa_valid (snd (fifa p q o (mkFifaConfig (Fin i) ko pen))).
Proof.
  intros [r1 ->] [r2 ->]. destruct (C07_proof r1 r2 i pen o) as (u1 & u2 & k1 & k2 & E1 & E2 & _). destruct ko; rewrite ?E1, ?E2; split; eexists; reflexivity.
Qed.
Lemma C92_fifa_proof : forall p, reach fifa_valid fifa_move p -> fifa_valid p.
Proof.
  apply reach_inv'. intros l x H M. destruct M as [p q o i ko pen|p q o i ko pen|p rs].
  - two H. exact (proj1 (fifa_valid_game _ _ _ _ _ _ H0 H1)).
  - two H. exact (proj2 (fifa_valid_game _ _ _ _ _ _ H0 H1)).
  - match goal with |- fifa_valid (fifa_rating_period p ?l) => destruct (C70_proof XR XRA p l) as [E _] end. rewrite E. apply fold_inv; [|apply H; now left].
    intros a b Hb Ha. apply in_map_iff in Hb as ([[[[q o] i] ko] pen] & <- & Hb). cbn [fst snd]. apply fifa_valid_game; auto. apply H. right.
    change q with (fst (fst (fst (fst (q, o, i, ko, pen))))). now apply (in_map (fun g => fst (fst (fst (fst g))))).
Qed.

(** ** Ingo *)
Lemma C92_ingo_proof : forall p, reach ingo_valid ingo_move p -> ingo_valid p.
Proof.
  apply reach_inv'. intros l x H M. destruct M as [p q o|p q o|p rs NE].
  - two H. destruct H0 as (r1 & a1 & ->), H1 as (r2 & a2 & ->). destruct (C23_proof r1 a1 r2 a2 o) as [E _]. rewrite E. do 2 eexists; reflexivity.
  - two H. destruct H0 as (r1 & a1 & ->), H1 as (r2 & a2 & ->). destruct (C23_proof r1 a1 r2 a2 o) as [E _]. rewrite E. do 2 eexists; reflexivity.
  - one H. destruct H0 as (r & a & ->). destruct (all_map (fun g : R * N * Outcomes => let '(r, a, o) := g in (mkIngo (Fin r) a, o)) rs) as [rs' E].
    { intros [q o] Hq. destruct (H q) as (r2 & a2 & E). { right. change q with (fst (q, o)). now apply in_map. } exists (r2, a2, o). cbn. now rewrite E. }
    assert (NE' : rs' <> []) by (intros ->; now apply NE). pose proof (C24_formula_proof r a rs' NE') as F. change (map _ rs') with (ingo_games rs') in E. rewrite E. rewrite F. do 2 eexists. reflexivity.
Qed.

(** ** USCF *)
Lemma C92_uscf_proof : forall p, reach uscf_valid uscf_move p -> uscf_valid p.
Proof.
  apply reach_inv'. intros l x H M. destruct M as [p q o t|p q o t]; two H; destruct H0 as (r1 & n1 & -> & _), H1 as (r2 & n2 & -> & _); rewrite C10_proof; do 2 eexists; (split; [reflexivity|apply Rmax_l]).
Qed.

(** ** DWZ *)
Lemma C92_dwz_proof : forall p, reach dwz_valid dwz_move p -> dwz_valid p.
Proof.
  apply reach_inv'. intros l x H M. destruct M as [p q o L|p q o L|p rs L].
  - two H. destruct H0 as (r1 & i1 & a1 & -> & I1), H1 as (r2 & i2 & a2 & -> & I2). rewrite C18_proof by auto. cbn [fst snd dwz_index] in *. do 3 eexists. split; [reflexivity|]. rewrite N.mod_small by auto. lia.
  - two H. destruct H0 as (r1 & i1 & a1 & -> & I1), H1 as (r2 & i2 & a2 & -> & I2). rewrite C18_proof by auto. cbn [fst snd dwz_index] in *. do 3 eexists. split; [reflexivity|]. rewrite N.mod_small by auto. lia.
  - one H. destruct H0 as (r & i & a & -> & I). cbn [dwz_index] in L. destruct (all_map (fun g : R * N * N * Outcomes => let '(x, j, b, o) := g in (mkDwz (Fin x) j b, o)) rs) as [rs' E].
    { intros [q o] Hq. destruct (H q) as (r2 & i2 & a2 & E & _). { right. change q with (fst (q, o)). now apply in_map. } exists (r2, i2, a2, o). now rewrite E. }
    rewrite E, C22_formula_proof by auto. do 3 eexists. split; [reflexivity|]. rewrite N.mod_small by auto. lia.
Qed.

(** ** Glicko *)
Lemma gl_eta (p : GlickoRating XR) : p = mkGlicko (gl_rating p) (gl_deviation p). Proof. now destruct p. Qed.
Lemma glicko_valid_decay p c : glicko_valid p -> glicko_valid (glicko_decay_deviation p (mkGlickoConfig (Fin c))).
Proof.
  intros (r & d & -> & D). destruct (C30_proof r d c 1 D) as (d' & E & _ & L). cbn in E. rewrite E. exists r, d'. split; [auto|lra].
Qed.
Lemma glicko_valid_game p q o c : glicko_valid p -> glicko_valid q ->
  glicko_valid (fst (glicko p q o (mkGlickoConfig (Fin c)))) /\ glicko_valid (snd (glicko p q o (mkGlickoConfig (Fin c)))).
Proof.
  intros (r1 & d1 & -> & D1) (r2 & d2 & -> & D2). assert (P1 : 0 < d1) by lra. assert (P2 : 0 < d2) by lra. pose proof (C26_proof r1 d1 r2 d2 c o P1 P2) as E.
  destruct (glicko _ _ o _) as [p q] eqn:E0. destruct (C27_proof _ _ _ _ _ _ _ _ P1 P2 E0) as (x & y & X & Y & RX & RY & _). injection E as -> ->. cbn in X, Y. injection X as <-. injection Y as <-.
  split; do 2 eexists; (split; [reflexivity|assumption]).
Qed.
Lemma C92_glicko_proof : forall p, reach glicko_valid glicko_move p -> glicko_valid p.
Proof.
  apply reach_inv'. intros l x H M. destruct M as [p q o c|p q o c|p rs c|p c].
  - two H. exact (proj1 (glicko_valid_game _ _ _ _ H0 H1)).
  - two H. exact (proj2 (glicko_valid_game _ _ _ _ H0 H1)).
  - one H. destruct (all_map (fun '(rj, RDj, o) => (mkGlicko (Fin rj) (Fin RDj), o)) rs) as [rs' E].
    { intros [q o] Hq. destruct (H q) as (r2 & d2 & E & _). { right. change q with (fst (q, o)). now apply in_map. } exists (r2, d2, o). now rewrite E. }
    destruct rs' as [|g rs']; [cbn in E; subst rs; rewrite C29_empty_proof; now apply glicko_valid_decay|].
    destruct H0 as (r & d & -> & D). assert (P : 0 < d) by lra. rewrite E. assert (N : g :: rs' <> []) by discriminate.
    destruct (C27_period_proof r d c (g :: rs') P N) as (d' & E1 & R1 & _). rewrite C29_formula_proof in * by auto. cbv zeta in *. cbn [gl_deviation] in E1. injection E1 as E1. rewrite <- E1 in R1.
    do 2 eexists. split; [reflexivity|exact R1].
  - one H. now apply glicko_valid_decay.
Qed.

(** ** Sticko *)
Lemma sticko_valid_decay p h b l g c : sticko_valid p -> sticko_valid (sticko_decay_deviation p (mkStickoConfig (Fin h) (Fin b) (Fin l) (Fin g) (Fin c))).
Proof.
  intros (r & d & -> & D). unfold sticko_decay_deviation. cbn [st_rating st_deviation st_c]. change (@st_pre_deviation XR XRA) with (@gl_pre_deviation XR XRA); rewrite gl_pre_eval by lra. do 2 eexists. split; [reflexivity|]. unfold gpre. split; [|apply Rmin_r].
  apply Rmin_pos; [|lra]. apply sqrt_lt_R0. pose proof (pow2_ge_0 c). assert (0 < d ^ 2) by (apply pow_lt; lra). lra.
Qed.
Lemma sticko_valid_game p q o h b l g c : 0 <= h -> sticko_valid p -> sticko_valid q ->
  let cfg := mkStickoConfig (Fin h) (Fin b) (Fin l) (Fin g) (Fin c) in
  sticko_valid (fst (sticko p q o cfg)) /\ sticko_valid (snd (sticko p q o cfg)).
Proof.
  intros Hh (r1 & d1 & -> & D1) (r2 & d2 & -> & D2) cfg. assert (P1 : 0 < d1) by lra. assert (P2 : 0 < d2) by lra.
  destruct (C33_range_proof r1 d1 r2 d2 h b l g c [(r1, d1, WIN, true)] P1 P2 Hh ltac:(discriminate)) as [R _]. destruct (R o) as (x & y & X & Y & RX & RY). clear R.
  unfold cfg. rewrite C33_game_proof in * by auto. cbn [fst snd st_deviation] in *. injection X as ->. injection Y as ->. split; do 2 eexists; (split; [reflexivity|assumption]).
Qed.
Lemma C92_sticko_proof : forall p, reach sticko_valid sticko_move p -> sticko_valid p.
Proof.
  apply reach_inv'. intros l x H M. destruct M as [p q o h b l0 g c Hh|p q o h b l0 g c Hh|p rs h b l0 g c Hh|p h b l0 g c].
  - two H. exact (proj1 (sticko_valid_game _ _ _ _ _ _ _ _ Hh H0 H1)).
  - two H. exact (proj2 (sticko_valid_game _ _ _ _ _ _ _ _ Hh H0 H1)).
  - one H. destruct (all_map (fun '(rj, RDj, o, white) => (mkSticko (Fin rj) (Fin RDj), o, white)) rs) as [rs' E].
    { intros [[q o] w] Hq. destruct (H q) as (r2 & d2 & E & _). { right. change q with (fst (fst (q, o, w))). now apply (in_map (fun x => fst (fst x))). } exists (r2, d2, o, w). now rewrite E. }
    destruct rs' as [|z rs']; [cbn in E; subst rs; cbn; now apply sticko_valid_decay|].
    destruct H0 as (r & d & -> & D). assert (P : 0 < d) by lra. rewrite E. assert (N : z :: rs' <> []) by discriminate.
    destruct (C33_range_proof r d r d h b l0 g c (z :: rs') P P Hh N) as [_ (d' & E1 & R1)]. rewrite C33_period_proof in * by auto. cbn [st_deviation] in E1. injection E1 as E1. rewrite <- E1 in R1.
    do 2 eexists. split; [reflexivity|exact R1].
  - one H. now apply sticko_valid_decay.
Qed.

(** ** Glicko-Boost *)
Lemma boost_valid_period r d c rs : 0 < d -> 0 <= bc_b0 c -> 0 <= bc_b1 c ->
  boost_valid (glicko_boost_rating_period (mkBoost (Fin r) (Fin d)) (map (fun '(rj, RDj, o, white) => (mkBoost (Fin rj) (Fin RDj), o, white)) rs) (boost_in c)).
Proof. intros D H0 H1. destruct (C35_period_range_proof r d c rs D H0 H1) as (r' & d' & E & R & _). unfold boost_in. rewrite E. exists r', d'. auto. Qed.
Lemma C92_boost_proof : forall p, reach boost_valid boost_move p -> boost_valid p.
Proof.
  apply reach_inv'. intros l x H M. destruct M as [p q o c H0 H1|p q o c H0 H1|p rs c H0 H1|p c H0 H1].
  - two H. destruct H2 as (r1 & d1 & -> & D1), H3 as (r2 & d2 & -> & D2). destruct (C35_range_proof r1 d1 r2 d2 o c ltac:(lra) ltac:(lra) H0 H1) as (r1' & d1' & r2' & d2' & E & A & B & _).
    unfold boost_in. rewrite E. do 2 eexists; (split; [reflexivity|assumption]).
  - two H. destruct H2 as (r1 & d1 & -> & D1), H3 as (r2 & d2 & -> & D2). destruct (C35_range_proof r1 d1 r2 d2 o c ltac:(lra) ltac:(lra) H0 H1) as (r1' & d1' & r2' & d2' & E & A & B & _).
    unfold boost_in. rewrite E. do 2 eexists; (split; [reflexivity|assumption]).
  - one H. destruct H2 as (r & d & -> & D). destruct (all_map (fun '(rj, RDj, o, white) => (mkBoost (Fin rj) (Fin RDj), o, white)) rs) as [rs' E].
    { intros [[q o] w] Hq. destruct (H q) as (r2 & d2 & E & _). { right. change q with (fst (fst (q, o, w))). now apply (in_map (fun x => fst (fst x))). } exists (r2, d2, o, w). now rewrite E. }
    rewrite E. apply boost_valid_period; auto; lra.
  - one H. destruct H2 as (r & d & -> & D). pose proof (boost_valid_period r d c [] ltac:(lra) H0 H1) as K. exact K.
Qed.

(** ** Glicko-2 *)
Lemma glicko2_valid_decay p : glicko2_valid p -> glicko2_valid (glicko2_decay_deviation p).
Proof.
  intros (r & d & s & -> & D & S). destruct (C41_decay_proof r d s ltac:(lra)) as (d' & E & _ & _ & L). rewrite E. exists r, d', s. split; auto. split; auto.
  assert (0 < Rmin d 350) by (apply Rmin_pos; lra). lra.
Qed.
Lemma C92_glicko2_proof : forall p, reach glicko2_valid glicko2_move p -> glicko2_valid p.
Proof.
  apply reach_inv'. intros l x H M. destruct M as [n p q o t tol p' q' Ht Htol E|n p q o t tol p' q' Ht Htol E|n p rs t tol p' Ht Htol E|p].
  - two H. destruct H0 as (r1 & d1 & s1 & -> & D1 & S1), H1 as (r2 & d2 & s2 & -> & D2 & S2).
    destruct (C39_proof _ _ _ _ _ _ _ _ _ _ _ _ S1 S2 Ht Htol E) as (s1' & s2' & -> & -> & [V1 _] & [V2 _] & P1 & P2 & _). do 3 eexists. split; [reflexivity|auto].
  - two H. destruct H0 as (r1 & d1 & s1 & -> & D1 & S1), H1 as (r2 & d2 & s2 & -> & D2 & S2).
    destruct (C39_proof _ _ _ _ _ _ _ _ _ _ _ _ S1 S2 Ht Htol E) as (s1' & s2' & -> & -> & [V1 _] & [V2 _] & P1 & P2 & _). do 3 eexists. split; [reflexivity|auto].
  - one H. destruct (all_map (fun '(rj, RDj, sj, o) => (mkGlicko2 (Fin rj) (Fin RDj) (Fin sj), o)) rs) as [rs' E'].
    { intros [q o] Hq. destruct (H q) as (r2 & d2 & s2 & E2 & _). { right. change q with (fst (q, o)). now apply in_map. } exists (r2, d2, s2, o). now rewrite E2. }
    destruct rs' as [|g rs']; [cbn in E'; subst rs; rewrite C41_empty_proof in E; injection E as <-; now apply glicko2_valid_decay|].
    destruct H0 as (r & d & s & -> & D & S). rewrite E' in E. destruct (C39_period_proof _ _ _ _ _ _ (g :: rs') _ S Ht Htol ltac:(discriminate) E) as (s' & -> & [V _] & P). do 3 eexists. split; [reflexivity|auto].
  - one H. now apply glicko2_valid_decay.
Qed.

(** ** Weng-Lin *)
Lemma wl_valid_game u0 p q o b k : 0 < k <= 1 -> wl_valid u0 p -> wl_valid u0 q ->
  wl_valid u0 (fst (weng_lin p q o (mkWLConfig (Fin b) (Fin k)))) /\ wl_valid u0 (snd (weng_lin p q o (mkWLConfig (Fin b) (Fin k)))).
Proof.
  intros Hk (m1 & s1 & -> & U1) (m2 & s2 & -> & U2). assert (S1 : 0 < s1) by lra. assert (S2 : 0 < s2) by lra.
  destruct (C42_proof m1 s1 m2 s2 o b k S1 S2 Hk) as (m1' & s1' & m2' & s2' & E & _ & _ & _ & _ & R1 & R2 & _). rewrite E. cbn [fst snd]. split; do 2 eexists; (split; [reflexivity|lra]).
Qed.
Lemma wl_valid_in u0 l : (forall y, In y l -> wl_valid u0 y) -> exists t, l = wlt_in t /\ Forall (fun p => 0 < snd p <= u0) t.
Proof.
  intros H. apply (all_map_P wl_in (fun p => 0 < snd p <= u0)). intros y Hy. destruct (H y Hy) as (r & u & -> & U). exists (r, u). auto.
Qed.
Lemma wl_valid_multi u0 ts b k : 0 < k <= 1 -> (forall y, In y (concat (map fst ts)) -> wl_valid u0 y) ->
  forall x, In x (concat (weng_lin_multi_team ts (mkWLConfig (Fin b) (Fin k)))) -> wl_valid u0 x.
Proof.
  intros Hk H x Hx. destruct (all_map_P wlr_in (fun y => Forall (fun p => 0 < snd p <= u0) (fst y)) ts) as (ts' & -> & HF).
  { intros [t [r]] Ht. destruct (wl_valid_in u0 t) as (t' & -> & F). { intros y Hy. apply H. apply in_concat. exists t. split; auto. change t with (fst (t, mkMTO r)). now apply in_map. }
    exists (t', r). auto. }
  destruct (Exists_dec (fun y => fst y = []) ts') as [D|D]; [intros [[|] ?]; [left; reflexivity|right; discriminate]| |].
  - destruct (C44_empty_proof XR XRA (map wlr_in ts') [] [] WIN (mkWLConfig (Fin b) (Fin k))) as [E _]. rewrite E in Hx; [now apply H|].
    right. apply Exists_exists in D as ([t r] & Ht & D). cbn in D. subst t. exists (mkMTO r). change ([], mkMTO r) with (wlr_in ([], r)). now apply in_map.
  - assert (OK : Forall (fun y => wl_ok (fst y)) ts').
    { apply Forall_forall. intros y Hy. rewrite Forall_forall in HF. specialize (HF y Hy). split; [|eapply Forall_impl; [|exact HF]; cbn; intros; lra].
      intros N. apply D. apply Exists_exists. exists y. auto. }
    apply in_concat in Hx as (t' & Ht' & Hx). apply In_nth_error in Ht' as [i Hi].
    assert (L : (i < length ts')%nat). { assert (Hl : (i < length (weng_lin_multi_team (map wlr_in ts') (mkWLConfig (Fin b) (Fin k))))%nat) by (apply nth_error_Some; now rewrite Hi). pose proof (f_equal (@length nat) (C44_shape_proof XR XRA (map wlr_in ts') (mkWLConfig (Fin b) (Fin k)))) as SH. rewrite !map_length in SH. lia. }
    destruct (nth_error ts' i) as [[t r]|] eqn:Ei; [|apply nth_error_None in Ei; lia]. apply nth_error_split in Ei as (pre & post & -> & Li).
    destruct (C46_proof b k pre t r post Hk OK) as (u & E & F2 & _). rewrite Li, Hi in E. injection E as ->. unfold wlt_in in Hx. apply in_map_iff in Hx as (p' & <- & Hp).
    rewrite Forall_forall in HF. specialize (HF (t, r) ltac:(apply in_or_app; right; now left)). cbn [fst] in HF.
    assert (K : 0 < snd p' <= u0). { clear - HF F2 Hp. induction F2 as [|a c l l' Hac F2 IH]; [easy|]. apply Forall_cons_iff in HF as [A B]. destruct Hp as [<-|Hp]; [lra|auto]. }
    exists (fst p'), (snd p'). split; [reflexivity|exact K].
Qed.
Lemma C92_wl_proof : forall u0 p, reach (wl_valid u0) wl_move p -> wl_valid u0 p.
Proof.
  intros u0. apply reach_inv'. intros l x H M. destruct M as [p q o b k Hk|p q o b k Hk|p rs b k Hk|t1 t2 o b k x Hk Hx|ts b k x Hk Hx].
  - two H. exact (proj1 (wl_valid_game _ _ _ _ _ _ Hk H0 H1)).
  - two H. exact (proj2 (wl_valid_game _ _ _ _ _ _ Hk H0 H1)).
  - destruct (C48_proof XR XRA p rs [] (mkWLConfig (Fin b) (Fin k))) as [E _]. rewrite E. apply fold_inv; [|apply H; now left].
    intros a g Hg Ha. apply wl_valid_game; auto. apply H. right. now apply in_map.
  - destruct (C44_empty_proof XR XRA [] t1 t2 o (mkWLConfig (Fin b) (Fin k))) as [_ EE].
    assert (D1 : t1 = [] \/ t1 <> []) by (destruct t1; [now left|right; discriminate]). assert (D2 : t2 = [] \/ t2 <> []) by (destruct t2; [now left|right; discriminate]).
    destruct D1 as [D1|D1]; [rewrite EE in Hx by auto; now apply H|]. destruct D2 as [D2|D2]; [rewrite EE in Hx by auto; now apply H|].
    destruct (wl_valid_in u0 t1) as (a & -> & Fa); [intros y Hy; apply H; apply in_or_app; auto|].
    destruct (wl_valid_in u0 t2) as (c & -> & Fc); [intros y Hy; apply H; apply in_or_app; auto|].
    assert (Oa : wl_ok a) by (split; [intros ->; now apply D1|eapply Forall_impl; [|exact Fa]; cbn; intros; lra]).
    assert (Oc : wl_ok c) by (split; [intros ->; now apply D2|eapply Forall_impl; [|exact Fc]; cbn; intros; lra]).
    pose (k1 := match o with WIN => 1%N | DRAW => 1%N | LOSS => 2%N end). pose (k2 := match o with WIN => 2%N | DRAW => 1%N | LOSS => 1%N end).
    pose proof (C43_multi_proof a c k1 k2 b k Oa Oc ltac:(lra)) as K. cbv zeta in K. replace (match N.compare k1 k2 with Lt => WIN | Eq => DRAW | Gt => LOSS end) with o in K by (now destruct o).
    apply (wl_valid_multi u0 [(wlt_in a, mto_new k1); (wlt_in c, mto_new k2)] b k Hk).
    + cbn [map fst concat]. rewrite app_nil_r. exact H.
    + destruct (weng_lin_two_teams _ _ _ _) as [x1 x2]. rewrite K. cbn [concat fst snd] in *. now rewrite app_nil_r.
  - now apply (wl_valid_multi u0 ts b k).
Qed.

(** ** TrueSkill *)
Lemma ts_valid_team t1 t2 o dp b t : o <> DRAW -> t ^ 2 <= 2 * b ^ 2 -> wl_ok t1 -> wl_ok t2 ->
  let r := trueskill_two_teams (tst_in t1) (tst_in t2) o (ts_cfg dp b t) in
  (forall x, In x (fst r) -> ts_valid x) /\ (forall x, In x (snd r) -> ts_valid x).
Proof.
  intros Ho Ht O1 O2 r. pose proof (C58_decided_proof t1 t2 o dp b t O1 O2 Ho) as K. cbv zeta in K. destruct (C51_formula_proof t1 t2 o dp b t O1 O2) as (e & _ & E). cbv zeta in E.
  unfold r. rewrite E in *. set (c := sqrt _) in *. set (C := INR (length t1 + length t2) * b ^ 2 + side_var t1 + side_var t2) in *. cbn [fst snd]. destruct K as [K1 K2].
  pose proof (side_var_pos _ O1) as V1. pose proof (side_var_pos _ O2) as V2.
  assert (L : 2 <= INR (length t1 + length t2)). { apply (le_INR 2). destruct O1 as [N1 _], O2 as [N2 _]. destruct t1, t2; try congruence. cbn. lia. }
  assert (SV : forall l p, Forall (fun q : R * R => 0 < snd q) l -> In p l -> snd p ^ 2 <= side_var l).
  { clear. intros l p F. unfold side_var. induction F as [|q l Hq F IH]; [easy|]. cbn [map]. rewrite Rsum_cons. intros [<-|Hp].
    - assert (0 <= Rsum (map (fun p0 : R * R => snd p0 ^ 2) l)); [|lra]. clear. induction l; cbn [map]; [rewrite Rsum_nil; lra|]. rewrite Rsum_cons. pose proof (pow2_ge_0 (snd a)). lra.
    - specialize (IH Hp). pose proof (pow2_ge_0 (snd q)). lra. }
  assert (G : forall v w l, Forall2 (fun p y => snd p ^ 2 + t ^ 2 <= C -> exists u, ts_uncertainty y = Fin u /\ 0 <= u <= sqrt (snd p ^ 2 + t ^ 2) /\ (snd p ^ 2 + t ^ 2 < C -> 0 < u)) l (map (ts_out t c v w) l) ->
     (forall p, In p l -> snd p ^ 2 + t ^ 2 < C) -> forall x, In x (map (ts_out t c v w) l) -> ts_valid x).
  { clear. intros v w l. induction l as [|p l IH]; cbn [map]; intros F HC x Hx; [easy|]. inversion F as [|? ? ? ? A B]; subst. destruct Hx as [<-|Hx].
    - specialize (HC p (or_introl eq_refl)). destruct (A ltac:(lra)) as (u & E & _ & P). unfold ts_out in *. cbn [ts_uncertainty] in E. rewrite E. do 2 eexists. split; [reflexivity|auto].
    - apply IH; auto. intros q Hq. apply HC. now right. }
  destruct O1 as [_ P1], O2 as [_ P2]. pose proof (pow2_ge_0 b). split; eapply G; eauto; intros p Hp; [pose proof (SV _ _ P1 Hp)|pose proof (SV _ _ P2 Hp)]; unfold C; nra.
Qed.
Lemma ts_valid_game p q o dp b t : o <> DRAW -> t ^ 2 <= 2 * b ^ 2 -> ts_valid p -> ts_valid q ->
  ts_valid (fst (trueskill p q o (ts_cfg dp b t))) /\ ts_valid (snd (trueskill p q o (ts_cfg dp b t))).
Proof.
  intros Ho Ht (m1 & s1 & -> & S1) (m2 & s2 & -> & S2). pose proof (C58_player_proof m1 s1 m2 s2 o dp b t S1 S2 Ho Ht) as K.
  pose proof (draw_margin_eval dp b 2 ltac:(lra)) as He. pose proof (trueskill_eval m1 s1 m2 s2 o dp b t _ S1 S2 He) as E. cbv zeta in E. change (mkTS (Fin m1) (Fin s1)) with (ts_in (m1, s1)). change (mkTS (Fin m2) (Fin s2)) with (ts_in (m2, s2)).
  rewrite E in *. destruct K as (u1 & u2 & U1 & U2 & A & B). cbn [fst snd]. unfold ts_out in *. cbn [ts_uncertainty] in *. rewrite U1, U2. split; do 2 eexists; (split; [reflexivity|lra]).
Qed.
Lemma ts_valid_in l : (forall y, In y l -> ts_valid y) -> exists t, l = tst_in t /\ Forall (fun p => 0 < snd p) t.
Proof. intros H. apply (all_map_P ts_in (fun p => 0 < snd p)). intros y Hy. destruct (H y Hy) as (r & u & -> & U). exists (r, u). auto. Qed.
Lemma C92_ts_proof : forall p, reach ts_valid ts_move p -> ts_valid p.
Proof.
  apply reach_inv'. intros l x H M. destruct M as [p q o dp b t Ho Ht|p q o dp b t Ho Ht|p rs dp b t Ho Ht|t1 t2 o dp b t x Ho Ht Hx].
  - two H. exact (proj1 (ts_valid_game _ _ _ _ _ _ Ho Ht H0 H1)).
  - two H. exact (proj2 (ts_valid_game _ _ _ _ _ _ Ho Ht H0 H1)).
  - destruct (C57_proof XR XRA p rs [] (ts_cfg dp b t)) as [E _]. rewrite E. apply fold_inv; [|apply H; now left].
    intros a g Hg Ha. apply ts_valid_game; auto; [rewrite Forall_forall in Ho; now apply Ho|]. apply H. right. now apply in_map.
  - assert (D1 : t1 = [] \/ t1 <> []) by (destruct t1; [now left|right; discriminate]). assert (D2 : t2 = [] \/ t2 <> []) by (destruct t2; [now left|right; discriminate]).
    destruct D1 as [->|D1]; [now apply H|]. destruct D2 as [->|D2]; [unfold trueskill_two_teams in Hx; rewrite orb_comm in Hx; cbn [is_empty orb fst snd] in Hx; now apply H|].
    destruct (ts_valid_in t1) as (a & -> & Fa); [intros y Hy; apply H; apply in_or_app; auto|].
    destruct (ts_valid_in t2) as (c & -> & Fc); [intros y Hy; apply H; apply in_or_app; auto|].
    assert (Oa : wl_ok a) by (split; [intros ->; now apply D1|exact Fa]). assert (Oc : wl_ok c) by (split; [intros ->; now apply D2|exact Fc]).
    destruct (ts_valid_team a c o dp b t Ho Ht Oa Oc) as [V1 V2]. apply in_app_or in Hx as [Hx|Hx]; auto.
Qed.
