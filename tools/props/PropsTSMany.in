(** TrueSkill: trueskill_multi_team with any number of teams. *)
From Coq Require Import ZArith NArith List Bool Reals Lra Lia Permutation Sorted.
From Verif Require Import Arith XR ModelLib ModelWengLin ModelTS ModelTSGraph Spec SpecTS SpecInTS SpecEP ProofTS ProofTSManyTop.
Import ListNotations.
Local Open Scope R_scope.

(** C99: members of a team. *)
@THM C99_ts_team_mates C99_proof
(** C100: the whole result. *)
@THM C100_ts_many_teams C100_proof
@THM C100_ts_many_teams_default C100_default_proof
@THM C100_rank_order_exists rank_order_ex

(** Three teams of one player, in mixed order: all the hypotheses of C99 and
    C100 hold for every draw probability, beta, tau and uncertainty when the
    ratings are far enough apart. *)
Example C100_case : forall dp beta tau s, 0 < s -> exists g,
  let l := [([((g, s), 1)], 2%N); ([((0, s), 1)], 3%N); ([((2 * g, s), 1)], 1%N)] in
  let q := arrange l [2; 0; 1]%nat in
  (2 <= length l)%nat /\ Forall (fun x => fst x <> []) l /\ Forall (fun x : wpl => 0 < snd (fst x) /\ 0 < snd x) (concat (map fst l)) /\ rank_order l [2; 0; 1]%nat /\
  exists eps c, (forall x, ts_draw_margin (Fin dp) (Fin beta) (Fin (INR (length (team_at q x) + length (team_at q (S x))))) = Fin (eps x)) /\ ep_teams beta tau eps q = Some c.
Proof. exact three_case. Qed.
Example C99_case : exists g,
  let l := [([((g, 8), 1)], 2%N); ([((0, 8), 1)], 3%N); ([((2 * g, 8), 1)], 1%N)] in
  let q := arrange l [2; 0; 1]%nat in
  (2 <= length l)%nat /\ Forall (fun x => fst x <> []) l /\ Forall (fun x : wpl => 0 < snd (fst x) /\ 0 < snd x) (concat (map fst l)) /\ rank_order l [2; 0; 1]%nat /\
  exists eps, (forall x, ts_draw_margin (Fin (1/10)) (Fin 4) (Fin (INR (length (team_at q x) + length (team_at q (S x))))) = Fin (eps x)) /\ ep_teams 4 (1/12) eps q <> None.
Proof.
  destruct (three_case (1/10) 4 (1/12) 8) as (g & H); [lra|]. exists g. cbv zeta in *. destruct H as (H1 & H2 & H3 & H4 & eps & c & H5 & H6).
  repeat (split; [assumption|]). exists eps. split; [assumption|]. rewrite H6. discriminate.
Qed.
