(** Property theorems for Weng-Lin (weng_lin.rs).  [wlt_in]/[wlr_in] inject
    lists of (rating, uncertainty) reals into the model's teams. *)
From Coq Require Import ZArith NArith List Bool Reals Lra Lia Permutation.
From Verif Require Import Arith XR ModelLib ModelWengLin Spec SpecIn ProofWengLin.
Import ListNotations.
Local Open Scope R_scope.

(** C42: the 1v1 update. *)
Theorem C42_weng_lin_1v1 : forall m1 s1 m2 s2 o beta kappa, 0 < s1 -> 0 < s2 -> 0 < kappa <= 1 ->
  let c := sqrt (s1 ^ 2 + s2 ^ 2 + 2 * beta ^ 2) in
  let p1 := / (1 + exp ((m2 - m1) / c)) in
  let p2 := / (1 + exp ((m1 - m2) / c)) in
  exists m1' s1' m2' s2',
    weng_lin (mkWL (Fin m1) (Fin s1)) (mkWL (Fin m2) (Fin s2)) o (mkWLConfig (Fin beta) (Fin kappa)) =
      (mkWL (Fin m1') (Fin s1'), mkWL (Fin m2') (Fin s2')) /\
    m1' = m1 + s1 ^ 2 / c * (points o - p1) /\ m2' = m2 + s2 ^ 2 / c * (points (invert o) - p2) /\
    s1' = s1 * sqrt (Rmax (1 - (s1 / c) ^ 3 * p1 * p2) kappa) /\
    s2' = s2 * sqrt (Rmax (1 - (s2 / c) ^ 3 * p2 * p1) kappa) /\
    0 < s1' <= s1 /\ 0 < s2' <= s2 /\ s1 * sqrt kappa <= s1' /\ s2 * sqrt kappa <= s2' /\
    (m1' - m1) / s1 ^ 2 = - ((m2' - m2) / s2 ^ 2) /\
    (o = WIN -> m1 < m1' /\ m2' < m2) /\ (o = LOSS -> m1' < m1 /\ m2 < m2').
Proof. exact C42_proof. Qed.
Print Assumptions C42_weng_lin_1v1.
Example C42_case : 0 < 25/3 /\ 0 < 1/1000000 <= 1. Proof. lra. Qed.

(** C43: agreement of the three update functions. *)
Theorem C43_weng_lin_single : forall m1 s1 m2 s2 o beta kappa, 0 < s1 -> 0 < s2 -> 0 <= kappa ->
  let cfg := mkWLConfig (Fin beta) (Fin kappa) in
  let p := mkWL (Fin m1) (Fin s1) in let q := mkWL (Fin m2) (Fin s2) in
  weng_lin_two_teams [p] [q] o cfg = ([fst (weng_lin p q o cfg)], [snd (weng_lin p q o cfg)]).
Proof. exact C43_single_proof. Qed.
Print Assumptions C43_weng_lin_single.
Theorem C43_weng_lin_multi_two : forall t1 t2 r1 r2 beta kappa, wl_ok t1 -> wl_ok t2 -> 0 <= kappa ->
  let cfg := mkWLConfig (Fin beta) (Fin kappa) in
  let o := match N.compare r1 r2 with Lt => WIN | Eq => DRAW | Gt => LOSS end in
  let '(t1', t2') := weng_lin_two_teams (wlt_in t1) (wlt_in t2) o cfg in
  weng_lin_multi_team [(wlt_in t1, mto_new r1); (wlt_in t2, mto_new r2)] cfg = [t1'; t2'].
Proof. exact C43_multi_proof. Qed.
Print Assumptions C43_weng_lin_multi_two.
Example C43_case : wl_ok [(25, 25/3); (30, 4)]. Proof. split; [discriminate|]. repeat constructor; cbn; lra. Qed.

(** C44: shape, equivariance, empty teams, ranks. *)
Theorem C44_weng_lin_permutation : forall beta kappa xs ys, 0 <= kappa -> Forall (fun x => wl_ok (fst x)) xs -> Permutation xs ys ->
  Permutation (combine xs (weng_lin_multi_team (map wlr_in xs) (mkWLConfig (Fin beta) (Fin kappa))))
              (combine ys (weng_lin_multi_team (map wlr_in ys) (mkWLConfig (Fin beta) (Fin kappa)))).
Proof. exact C44_perm_proof. Qed.
Print Assumptions C44_weng_lin_permutation.
Theorem C44_weng_lin_shape : forall (F : Type) (A : Arith F) (ts : list (list (WengLinRating F) * MultiTeamOutcome)) c,
  map (@length _) (weng_lin_multi_team ts c) = map (fun t => length (fst t)) ts.
Proof. exact C44_shape_proof. Qed.
Print Assumptions C44_weng_lin_shape.
Theorem C44_weng_lin_two_shape : forall (F : Type) (A : Arith F) (t1 t2 : list (WengLinRating F)) o c,
  length (fst (weng_lin_two_teams t1 t2 o c)) = length t1 /\ length (snd (weng_lin_two_teams t1 t2 o c)) = length t2.
Proof. exact C44_shape_two_proof. Qed.
Print Assumptions C44_weng_lin_two_shape.
Theorem C44_weng_lin_empty : forall (F : Type) (A : Arith F) (ts : list (list (WengLinRating F) * MultiTeamOutcome)) t1 t2 o c,
  (ts = [] \/ (exists r, In ([], r) ts) -> weng_lin_multi_team ts c = map fst ts) /\
  (t1 = [] \/ t2 = [] -> weng_lin_two_teams t1 t2 o c = (t1, t2)).
Proof. exact C44_empty_proof. Qed.
Print Assumptions C44_weng_lin_empty.
Theorem C44_weng_lin_ranks : forall (F : Type) (A : Arith F) (g : N -> N) (ts : list (list (WengLinRating F) * N)) c,
  (forall a b, In a (map snd ts) -> In b (map snd ts) -> N.compare (g a) (g b) = N.compare a b) ->
  weng_lin_multi_team (map (fun t => (fst t, mkMTO (g (snd t)))) ts) c =
  weng_lin_multi_team (map (fun t => (fst t, mkMTO (snd t))) ts) c.
Proof. exact C44_ranks_proof. Qed.
Print Assumptions C44_weng_lin_ranks.
Example C44_case : forall a b, In a (map snd [(25, 1%N); (30, 7%N)]) -> In b (map snd [(25, 1%N); (30, 7%N)]) ->
  N.compare (a + 2) (b + 2) = N.compare a b.
Proof. cbn. intros a b [<-|[<-|[]]] [<-|[<-|[]]]; reflexivity. Qed.

(** C45: expected scores. *)
Theorem C45_weng_lin_expected : forall m1 s1 m2 s2 beta kappa, 0 < beta ->
  let cfg := mkWLConfig (Fin beta) kappa in
  exists e1 e2,
    wl_expected_score (mkWL (Fin m1) (Fin s1)) (mkWL (Fin m2) (Fin s2)) cfg = (Fin e1, Fin e2) /\
    e1 = / (1 + exp ((m2 - m1) / sqrt (s1 ^ 2 + s2 ^ 2 + 2 * beta ^ 2))) /\
    0 < e1 < 1 /\ 0 < e2 < 1 /\ e1 + e2 = 1 /\ (1 / 2 < e1 <-> m2 < m1) /\
    wl_expected_score (mkWL (Fin m2) (Fin s2)) (mkWL (Fin m1) (Fin s1)) cfg = (Fin e2, Fin e1).
Proof. exact C45_players_proof. Qed.
Print Assumptions C45_weng_lin_expected.
Theorem C45_weng_lin_expected_teams : forall t1 t2 beta kappa, 0 < beta ->
  let cfg := mkWLConfig (Fin beta) kappa in
  exists e1 e2,
    wl_expected_score_two_teams (wlt_in t1) (wlt_in t2) cfg = (Fin e1, Fin e2) /\
    e1 = / (1 + exp ((wl_theta t2 - wl_theta t1) / sqrt (wl_s2 t1 + wl_s2 t2 + 2 * beta ^ 2))) /\
    0 < e1 < 1 /\ 0 < e2 < 1 /\ e1 + e2 = 1 /\ (1 / 2 < e1 <-> wl_theta t2 < wl_theta t1) /\
    wl_expected_score_two_teams (wlt_in t2) (wlt_in t1) cfg = (Fin e2, Fin e1) /\
    wl_expected_score_multi_team [wlt_in t1; wlt_in t2] cfg = [Fin e1; Fin e2].
Proof. exact C45_teams_proof. Qed.
Print Assumptions C45_weng_lin_expected_teams.
Theorem C45_weng_lin_expected_multi : forall ts beta kappa, 0 < beta -> ts <> [] ->
  let cfg := mkWLConfig (Fin beta) kappa in
  exists f : R -> R,
    (forall x, 0 < f x) /\ (forall x y, x < y -> f x < f y) /\
    (forall ts', Permutation ts ts' ->
       wl_expected_score_multi_team (map wlt_in ts') cfg = map (fun t => Fin (f (wl_theta t))) ts') /\
    Rsum (map (fun t => f (wl_theta t)) ts) = 1 /\
    (forall t t' l1 l2 l3, ts = l1 ++ t :: l2 ++ t' :: l3 -> f (wl_theta t) < 1 /\ f (wl_theta t') < 1).
Proof. exact C45_multi_proof. Qed.
Print Assumptions C45_weng_lin_expected_multi.
Theorem C45_weng_lin_expected_single : forall m1 s1 m2 s2 beta kappa, 0 < beta ->
  wl_expected_score_two_teams [mkWL (Fin m1) (Fin s1)] [mkWL (Fin m2) (Fin s2)] (mkWLConfig (Fin beta) kappa) =
  wl_expected_score (mkWL (Fin m1) (Fin s1)) (mkWL (Fin m2) (Fin s2)) (mkWLConfig (Fin beta) kappa).
Proof. exact C45_single_proof. Qed.
Print Assumptions C45_weng_lin_expected_single.
Example C45_case : 0 < 25/6 /\ [[(25, 25/3)]; [(20, 2); (1, 1)]; []] <> []. Proof. split; [lra|discriminate]. Qed.

(** C46: multi-team formula, direction and uncertainties. *)
Theorem C46_weng_lin_formula : forall beta kappa pre t r post, 0 <= kappa ->
  Forall (fun x => wl_ok (fst x)) (pre ++ (t, r) :: post) ->
  nth_error (weng_lin_multi_team (map wlr_in (pre ++ (t, r) :: post)) (mkWLConfig (Fin beta) (Fin kappa))) (length pre) =
  Some (wlt_in (wl_team' beta kappa t r (pre ++ post))).
Proof. exact C46_formula_proof. Qed.
Print Assumptions C46_weng_lin_formula.
Theorem C46_weng_lin_direction : forall beta kappa pre t r post, 0 < kappa <= 1 ->
  Forall (fun x => wl_ok (fst x)) (pre ++ (t, r) :: post) ->
  exists t', nth_error (weng_lin_multi_team (map wlr_in (pre ++ (t, r) :: post)) (mkWLConfig (Fin beta) (Fin kappa))) (length pre) =
      Some (wlt_in t') /\
    Forall2 (fun p p' => 0 < snd p' <= snd p /\ snd p * sqrt kappa <= snd p') t t' /\
    (pre ++ post <> [] -> (forall x, In x (pre ++ post) -> (r < snd x)%N) -> Forall2 (fun p p' => fst p < fst p') t t') /\
    (pre ++ post <> [] -> (forall x, In x (pre ++ post) -> (snd x < r)%N) -> Forall2 (fun p p' => fst p' < fst p) t t').
Proof. exact C46_proof. Qed.
Print Assumptions C46_weng_lin_direction.
Example C46_case : Forall (fun x => wl_ok (fst x)) ([([(20, 3)], 2%N)] ++ ([(25, 25/3); (30, 4)], 1%N) :: [([(1, 1)], 3%N)]) /\
  (forall x, In x ([([(20, 3)], 2%N)] ++ [([(1, 1)], 3%N)]) -> (1 < snd x)%N).
Proof.
  split.
  - repeat constructor; cbn; try discriminate; lra.
  - cbn. intros x [<-|[<-|[]]]; cbn; lia.
Qed.

(** C48: rating periods. *)
Theorem C48_weng_lin_period : forall (F : Type) (A : Arith F) (p : WengLinRating F) rs rs' c,
  weng_lin_rating_period p rs c = fold_left (fun q x => fst (weng_lin q (fst x) (snd x) c)) rs p /\
  weng_lin_rating_period p [] c = p /\
  weng_lin_rating_period p (rs ++ rs') c = weng_lin_rating_period (weng_lin_rating_period p rs c) rs' c.
Proof. exact C48_proof. Qed.
Print Assumptions C48_weng_lin_period.
Example C48_case : weng_lin_rating_period (mkWL (Fin 25) (Fin 1)) [] (mkWLConfig (Fin 4) (Fin 1)) = mkWL (Fin 25) (Fin 1).
Proof. reflexivity. Qed.

(** C77: precision-weighted conservation. *)
Theorem C77_weng_lin_conservation : forall beta kappa xs, 0 <= kappa -> Forall (fun x => wl_ok (fst x)) xs ->
  exists w, length w = length xs /\ Rsum w = 0 /\
    map (map wl_rating) (weng_lin_multi_team (map wlr_in xs) (mkWLConfig (Fin beta) (Fin kappa))) =
    map (fun '(x, wi) => map (fun p => Fin (fst p + snd p ^ 2 * wi)) (fst x)) (combine xs w).
Proof. exact C77_proof. Qed.
Print Assumptions C77_weng_lin_conservation.
