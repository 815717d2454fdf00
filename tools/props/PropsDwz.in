(** Property theorems for DWZ (dwz.rs). *)
From Coq Require Import ZArith NArith List Bool Reals Lra Lia Permutation.
From Verif Require Import Arith XR ModelLib ModelDwz Spec ProofDwz.
Import ListNotations.
Local Open Scope R_scope.

(** C17: one game moves a rating by 800/(E+1)*(S-We) with 5 <= E <= 150, so
    by less than 800/6 points. *)
@THM C17_dwz_coefficient C17_proof
Example C17_case : (1 <= 1)%N /\ (1 <= 12)%N /\ ~ (1900 < 1300 /\ points WIN <= elo_E 1900 1500).
Proof. repeat split; try lia. lra. Qed.

(** C18: the update, and winning raises the rating. *)
@THM C18_dwz_update C18_proof
@THM C18_dwz_direction C18_direction_proof

(** C19: index and age, in any arithmetic. *)
@THM C19_dwz_bookkeeping C19_proof
Example C19_case : (dwz_index (mkDwz (Fin 1500) 7 30) + 1 < 2 ^ 64)%N.
Proof. reflexivity. Qed.

(** C20: the error conditions of [get_first_dwz], for every opponent rating
    including NaN and infinities. *)
@THM C20_dwz_first_errors C20_proof

(** C21: its value on success.  [Rround] rounds half away from zero. *)
@THM C21_dwz_first_value C21_proof
Example C21_case :
  let rs := [(1300, 1%N, 30%N, WIN); (1300, 1%N, 30%N, LOSS); (1300, 1%N, 30%N, DRAW);
             (1400, 1%N, 30%N, WIN); (1500, 1%N, 30%N, LOSS)] in
  (5 <= length rs)%nat /\ ~ (Forall (fun g => snd g = WIN) rs \/ Forall (fun g => snd g = LOSS) rs).
Proof.
  split; [cbn; lia|]. intros [X|X]; inversion X as [|? ? X1 X2]; [inversion X2|]; discriminate.
Qed.
(** The table is mirror symmetric and strictly increasing. *)
@THM C21_dwz_table C21_mirror_proof
(** Inverting every outcome mirrors the percentage, unless the percentage
    lies exactly half-way between two whole numbers. *)
@THM C21_dwz_inverted_partial C21_inverted_partial_proof
Example C21_partial_case : forall k : Z, Rsum (map points [WIN; LOSS; LOSS; LOSS; LOSS]) / INR 5 * 100 <> IZR k + 1 / 2.
Proof.
  intros k E. cbn [map points INR] in E. rewrite !Rsum_cons, Rsum_nil in E.
  assert (2 * k + 1 = 40)%Z by (apply eq_IZR; rewrite plus_IZR, mult_IZR; lra). lia.
Qed.
(** With 1 point of 8 games it is not mirrored. *)
@THM C21_dwz_inverted_refuted C21_inverted_refuted_proof

(** C22: rating periods. *)
@THM C22_dwz_period_formula C22_formula_proof
@THM C22_dwz_period_order C22_perm_proof
@THM C22_dwz_period_single C22_single_proof
@THM C22_dwz_period_empty C22_empty_proof
Example C22_case : Permutation [(1300, 1%N, 30%N, WIN); (1500, 1%N, 30%N, LOSS)] [(1500, 1%N, 30%N, LOSS); (1300, 1%N, 30%N, WIN)].
Proof. constructor. Qed.

(** C74 is false: with index 0 the coefficient drops to 0, below 5, and an
    empty rating period gives NaN. *)
@THM C74_dwz_index_zero_refuted C74_proof
