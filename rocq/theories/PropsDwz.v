(** Property theorems for DWZ (dwz.rs). *)
From Coq Require Import ZArith NArith List Bool Reals Lra Lia Permutation.
From Verif Require Import Arith XR ModelLib ModelDwz Spec ProofDwz.
Import ListNotations.
Local Open Scope R_scope.

(** C17: one game moves a rating by 800/(E+1)*(S-We) with 5 <= E <= 150, so
    by less than 800/6 points. *)
Theorem C17_dwz_coefficient : forall r1 i1 a1 r2 i2 a2 o, (1 <= i1)%N -> (1 <= i2)%N ->
  exists E new,
    dwz_rating (fst (dwz (mkDwz (Fin r1) i1 a1) (mkDwz (Fin r2) i2 a2) o)) = Fin new /\
    new = r1 + 800 / (E + 1) * (points o - elo_E r1 r2) /\
    5 <= E <= 150 /\
    (~ (r1 < 1300 /\ points o <= elo_E r1 r2) -> E <= Rmin 30 (5 * IZR (Z.of_N i1))) /\
    Rabs (new - r1) < 800 / 6.
Proof. exact C17_proof. Qed.
Print Assumptions C17_dwz_coefficient.
Example C17_case : (1 <= 1)%N /\ (1 <= 12)%N /\ ~ (1900 < 1300 /\ points WIN <= elo_E 1900 1500).
Proof. repeat split; try lia. lra. Qed.

(** C18: the update, and winning raises the rating. *)
Theorem C18_dwz_update : forall r1 i1 a1 r2 i2 a2 o, (1 <= i1)%N -> (1 <= i2)%N ->
  dwz (mkDwz (Fin r1) i1 a1) (mkDwz (Fin r2) i2 a2) o =
  (mkDwz (Fin (dwz_upd r1 (dwz_E r1 a1 (points o) (elo_E r1 r2) (IZR (Z.of_N i1))) 1 (points o) (elo_E r1 r2)))
     ((i1 + 1) mod 2 ^ 64)%N a1,
   mkDwz (Fin (dwz_upd r2 (dwz_E r2 a2 (points (invert o)) (elo_E r2 r1) (IZR (Z.of_N i2))) 1
                 (points (invert o)) (elo_E r2 r1)))
     ((i2 + 1) mod 2 ^ 64)%N a2).
Proof. exact C18_proof. Qed.
Print Assumptions C18_dwz_update.
Theorem C18_dwz_direction : forall r1 i1 a1 r2 i2 a2 p q, (1 <= i1)%N -> (1 <= i2)%N ->
  dwz (mkDwz (Fin r1) i1 a1) (mkDwz (Fin r2) i2 a2) WIN = (p, q) ->
  exists p' q', dwz_rating p = Fin p' /\ dwz_rating q = Fin q' /\ r1 < p' /\ q' < r2.
Proof. exact C18_direction_proof. Qed.
Print Assumptions C18_dwz_direction.

(** C19: index and age, in any arithmetic. *)
Theorem C19_dwz_bookkeeping : forall (F : Type) (A : Arith F) (p q : DWZRating F) o rs,
  (dwz_index p + 1 < 2 ^ 64)%N -> (dwz_index q + 1 < 2 ^ 64)%N ->
  dwz_index (fst (dwz p q o)) = (dwz_index p + 1)%N /\ dwz_age (fst (dwz p q o)) = dwz_age p /\
  dwz_index (snd (dwz p q o)) = (dwz_index q + 1)%N /\ dwz_age (snd (dwz p q o)) = dwz_age q /\
  dwz_index (dwz_rating_period p rs) = (dwz_index p + 1)%N /\ dwz_age (dwz_rating_period p rs) = dwz_age p.
Proof. exact C19_proof. Qed.
Print Assumptions C19_dwz_bookkeeping.
Example C19_case : (dwz_index (mkDwz (Fin 1500) 7 30) + 1 < 2 ^ 64)%N.
Proof. reflexivity. Qed.

(** C20: the error conditions of [get_first_dwz], for every opponent rating
    including NaN and infinities. *)
Theorem C20_dwz_first_errors : forall age (rs : list (DWZRating XR * Outcomes)),
  (get_first_dwz age rs = Err NotEnoughGames <-> (length rs < 5)%nat) /\
  (get_first_dwz age rs = Err InvalidWinRate <->
     (5 <= length rs)%nat /\ (Forall (fun r => snd r = WIN) rs \/ Forall (fun r => snd r = LOSS) rs)) /\
  ((exists d, get_first_dwz age rs = Ok d) <->
     (5 <= length rs)%nat /\ ~ (Forall (fun r => snd r = WIN) rs \/ Forall (fun r => snd r = LOSS) rs)).
Proof. exact C20_proof. Qed.
Print Assumptions C20_dwz_first_errors.

(** C21: its value on success.  [Rround] rounds half away from zero. *)
Theorem C21_dwz_first_value : forall age rs, (5 <= length rs)%nat ->
  ~ (Forall (fun g => snd g = WIN) rs \/ Forall (fun g => snd g = LOSS) rs) ->
  exists p : Z,
    IZR p = Rround (Rsum (map (fun g => points (snd g)) rs) / INR (length rs) * 100) /\ (0 <= p <= 100)%Z /\
    get_first_dwz age (map (fun g => let '(r, i, a, o) := g in (mkDwz (Fin r) i a, o)) rs) =
    Ok (mkDwz (Fin (dwz_revise (Rsum (map (fun g => let '(r, i, a, o) := g in r) rs) / INR (length rs) + IZR (dwz_T p)))) 1 age).
Proof. exact C21_proof. Qed.
Print Assumptions C21_dwz_first_value.
Example C21_case :
  let rs := [(1300, 1%N, 30%N, WIN); (1300, 1%N, 30%N, LOSS); (1300, 1%N, 30%N, DRAW);
             (1400, 1%N, 30%N, WIN); (1500, 1%N, 30%N, LOSS)] in
  (5 <= length rs)%nat /\ ~ (Forall (fun g => snd g = WIN) rs \/ Forall (fun g => snd g = LOSS) rs).
Proof.
  split; [cbn; lia|]. intros [X|X]; inversion X as [|? ? X1 X2]; [inversion X2|]; discriminate.
Qed.
(** The table is mirror symmetric and strictly increasing. *)
Theorem C21_dwz_table : forall p, (0 <= p <= 100)%Z ->
  dwz_T (100 - p) = (- dwz_T p)%Z /\ (forall q, (p < q <= 100)%Z -> (dwz_T p < dwz_T q)%Z).
Proof. exact C21_mirror_proof. Qed.
Print Assumptions C21_dwz_table.
(** Inverting every outcome mirrors the percentage, unless the percentage
    lies exactly half-way between two whole numbers. *)
Theorem C21_dwz_inverted_partial : forall os p, os <> [] ->
  (forall k : Z, Rsum (map points os) / INR (length os) * 100 <> IZR k + 1 / 2) ->
  Rround (Rsum (map points os) / INR (length os) * 100) = IZR p ->
  Rround (Rsum (map (fun o => points (invert o)) os) / INR (length os) * 100) = IZR (100 - p).
Proof. exact C21_inverted_partial_proof. Qed.
Print Assumptions C21_dwz_inverted_partial.
Example C21_partial_case : forall k : Z, Rsum (map points [WIN; LOSS; LOSS; LOSS; LOSS]) / INR 5 * 100 <> IZR k + 1 / 2.
Proof.
  intros k E. cbn [map points INR] in E. rewrite !Rsum_cons, Rsum_nil in E.
  assert (2 * k + 1 = 40)%Z by (apply eq_IZR; rewrite plus_IZR, mult_IZR; lra). lia.
Qed.
(** With 1 point of 8 games it is not mirrored. *)
Theorem C21_dwz_inverted_refuted : exists (rs : list (DWZRating XR * Outcomes)) r r',
  Forall (fun g => dwz_rating (fst g) = Fin 2000) rs /\
  get_first_dwz 30 rs = Ok (mkDwz (Fin r) 1 30) /\
  get_first_dwz 30 (map (fun g => (fst g, invert (snd g))) rs) = Ok (mkDwz (Fin r') 1 30) /\
  2000 - r <> r' - 2000.
Proof. exact C21_inverted_refuted_proof. Qed.
Print Assumptions C21_dwz_inverted_refuted.

(** C22: rating periods. *)
Theorem C22_dwz_period_formula : forall r i a rs, (1 <= i)%N ->
  let S := Rsum (map (fun g => points (snd g)) rs) in
  let We := Rsum (map (fun g => elo_E r (fst (fst (fst g)))) rs) in
  dwz_rating_period (mkDwz (Fin r) i a) (map (fun g => let '(x, j, b, o) := g in (mkDwz (Fin x) j b, o)) rs) =
  mkDwz (Fin (dwz_upd r (dwz_E r a S We (IZR (Z.of_N i))) (INR (length rs)) S We)) ((i + 1) mod 2 ^ 64)%N a.
Proof. exact C22_formula_proof. Qed.
Print Assumptions C22_dwz_period_formula.
Theorem C22_dwz_period_order : forall r i a rs rs', (1 <= i)%N -> Permutation rs rs' ->
  dwz_rating_period (mkDwz (Fin r) i a) (map (fun g => let '(x, j, b, o) := g in (mkDwz (Fin x) j b, o)) rs) =
  dwz_rating_period (mkDwz (Fin r) i a) (map (fun g => let '(x, j, b, o) := g in (mkDwz (Fin x) j b, o)) rs').
Proof. exact C22_perm_proof. Qed.
Print Assumptions C22_dwz_period_order.
Theorem C22_dwz_period_single : forall r i a r2 i2 a2 o, (1 <= i)%N -> (1 <= i2)%N ->
  dwz_rating_period (mkDwz (Fin r) i a) [(mkDwz (Fin r2) i2 a2, o)] =
  fst (dwz (mkDwz (Fin r) i a) (mkDwz (Fin r2) i2 a2) o).
Proof. exact C22_single_proof. Qed.
Print Assumptions C22_dwz_period_single.
Theorem C22_dwz_period_empty : forall r i a, (1 <= i)%N ->
  dwz_rating (dwz_rating_period (mkDwz (Fin r) i a) []) = Fin r.
Proof. exact C22_empty_proof. Qed.
Print Assumptions C22_dwz_period_empty.
Example C22_case : Permutation [(1300, 1%N, 30%N, WIN); (1500, 1%N, 30%N, LOSS)] [(1500, 1%N, 30%N, LOSS); (1300, 1%N, 30%N, WIN)].
Proof. constructor. Qed.

(** C74 is false: with index 0 the coefficient drops to 0, below 5, and an
    empty rating period gives NaN. *)
Theorem C74_dwz_index_zero_refuted : forall r a, 1300 <= r -> (20 <= a)%N ->
  dwz_rating_period (mkDwz (Fin r) 0 a) [] = mkDwz NaN 1 a /\
  (forall r2 i2 a2 o, dwz_rating (fst (dwz (mkDwz (Fin r) 0 a) (mkDwz (Fin r2) i2 a2) o)) =
     Fin (r + 800 * (points o - elo_E r r2))).
Proof. exact C74_proof. Qed.
Print Assumptions C74_dwz_index_zero_refuted.
