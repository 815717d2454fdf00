(** Property theorems: the first DWZ (C138). *)
From Coq Require Import ZArith NArith List Bool Reals Lra Lia Permutation.
From Verif Require Import Arith XR ModelLib ModelDwz Spec ProofDwz ProofFirstDwz.
Import Spec ListNotations.
Local Open Scope R_scope.

(** C138: the order of the results does not matter, neither for the rating nor for the error. *)
@THM C138_first_dwz_order C138_order_proof
(** Better results, or equally good ones against stronger opponents, never give a lower
    first rating; strictly stronger opponents give a strictly higher one, and so does a
    strictly better result among at most 50 games. *)
@THM C138_first_dwz_better C138_better_proof
(** The claim that one more win never costs points is false: for every list of results
    that gives a rating, and every outcome (a win included), there is an opponent so weak
    that the additional game lowers the first rating, and (a loss included) an opponent so
    strong that it raises it. *)
@THM C138_one_more_game_refuted C138_one_more_refuted_proof

(* Five games against two opponents; then a draw turned into a win. *)
Definition fdwz_ex : list (R * N * N * Outcomes) := [(1500, 3%N, 30%N, WIN); (1700, 4%N, 30%N, LOSS); (1500, 3%N, 30%N, WIN); (1500, 3%N, 30%N, DRAW); (1900, 9%N, 40%N, LOSS)].
Definition fdwz_ex' : list (R * N * N * Outcomes) := [(1500, 3%N, 30%N, WIN); (1700, 4%N, 30%N, LOSS); (1500, 3%N, 30%N, WIN); (1500, 3%N, 30%N, WIN); (1900, 9%N, 40%N, LOSS)].
Example C138_case : let first rs := get_first_dwz 20 (map (fun g : R * N * N * Outcomes => let '(r, i, a, o) := g in (mkDwz (Fin r) i a, o)) rs) in
  let rating (g : R * N * N * Outcomes) := let '(r, i, a, o) := g in r in
  Forall2 (fun g g' => rating g <= rating g' /\ points (snd g) <= points (snd g')) fdwz_ex fdwz_ex' /\ (exists d, first fdwz_ex = Ok d) /\ (exists d, first fdwz_ex' = Ok d) /\
  (exists k g g', nth_error fdwz_ex k = Some g /\ nth_error fdwz_ex' k = Some g' /\ (rating g < rating g' \/ points (snd g) < points (snd g') /\ (length fdwz_ex <= 50)%nat)).
Proof.
  intros first rating. unfold fdwz_ex, fdwz_ex'. split; [repeat (constructor; [cbn; lra|]); constructor|].
  split; [unfold first; apply C20_proof; cbn; split; [lia|]; intros [H|H]; rewrite Forall_forall in H; [specialize (H (mkDwz (Fin 1700) 4 30, LOSS) ltac:(cbn; tauto))|specialize (H (mkDwz (Fin 1500) 3 30, WIN) ltac:(cbn; tauto))]; discriminate|].
  split; [unfold first; apply C20_proof; cbn; split; [lia|]; intros [H|H]; rewrite Forall_forall in H; [specialize (H (mkDwz (Fin 1700) 4 30, LOSS) ltac:(cbn; tauto))|specialize (H (mkDwz (Fin 1500) 3 30, WIN) ltac:(cbn; tauto))]; discriminate|].
  exists 3%nat. do 2 eexists. do 2 (split; [reflexivity|]). right. cbn. split; [lra|lia].
Qed.
Example C138_order_case : Permutation fdwz_ex (rev fdwz_ex) /\ rev fdwz_ex <> fdwz_ex.
Proof. split; [apply Permutation_rev|]. unfold fdwz_ex. cbn. intros E. inversion E. Qed.
