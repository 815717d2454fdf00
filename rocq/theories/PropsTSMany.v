(** TrueSkill: trueskill_multi_team with any number of teams. *)
From Coq Require Import ZArith NArith List Bool Reals Lra Lia Permutation Sorted.
From Verif Require Import Arith XR ModelLib ModelWengLin ModelTS ModelTSGraph Spec SpecTS SpecInTS SpecEP ProofTS ProofTSManyTop.
Import ListNotations.
Local Open Scope R_scope.

(** C99: members of a team. *)
Theorem C99_ts_team_mates : forall (l : list (list wpl * N)) p dp beta tau, (2 <= length l)%nat ->
  Forall (fun x => fst x <> []) l -> Forall (fun x : wpl => 0 < snd (fst x) /\ 0 < snd x) (concat (map fst l)) -> rank_order l p ->
  let q := arrange l p in
  exists eps, (forall x, ts_draw_margin (Fin dp) (Fin beta) (Fin (INR (length (team_at q x) + length (team_at q (S x))))) = Fin (eps x)) /\
  (ep_teams beta tau eps q <> None ->
   exists r, trueskill_multi_team (map (fun x => tsr_in (map fst (fst x), snd x)) l) (ts_cfg dp beta tau) (Some (map (fun x => map Fin (map snd (fst x))) l)) = Ok r /\
   Forall2 (fun t g => exists d, Forall2 (fun x o => let S := snd (fst x) ^ 2 + tau ^ 2 in
     exists u, o = mkTS (Fin (fst (fst x) + snd x * S * d)) (Fin u) /\ 0 < u < sqrt S) t g) (map fst l) r).
Proof. exact C99_proof. Qed.
Print Assumptions C99_ts_team_mates.
(** C100: the whole result. *)
Theorem C100_ts_many_teams : forall (l : list (list wpl * N)) p dp beta tau, (2 <= length l)%nat ->
  Forall (fun x => fst x <> []) l -> Forall (fun x : wpl => 0 < snd (fst x) /\ 0 < snd x) (concat (map fst l)) -> rank_order l p ->
  let q := arrange l p in
  let M t := w_mean (team_at q t) in let V t := w_var beta tau (team_at q t) in
  exists eps, (forall x, ts_draw_margin (Fin dp) (Fin beta) (Fin (INR (length (team_at q x) + length (team_at q (S x))))) = Fin (eps x)) /\
  forall c, ep_teams beta tau eps q = Some c ->
  exists r, trueskill_multi_team (map (fun x => tsr_in (map fst (fst x), snd x)) l) (ts_cfg dp beta tau) (Some (map (fun x => map Fin (map snd (fst x))) l)) = Ok r /\
    length r = length l /\
    forall k, (k < length l)%nat -> nth_error r (nth k p O) = Some (map (ep_out tau (ep_shift M V c k) (ep_shrink V c k)) (team_at q k)).
Proof. exact C100_proof. Qed.
Print Assumptions C100_ts_many_teams.
Theorem C100_ts_many_teams_default : forall (l : list (list (R * R) * N)) p dp beta tau, (2 <= length l)%nat ->
  Forall (fun x => fst x <> []) l -> Forall (fun x : list (R * R) * N => Forall (fun y => 0 < snd y) (fst x)) l ->
  let lw := map (fun x => (map (fun y => (y, 1)) (fst x), snd x)) l in rank_order lw p ->
  let q := arrange lw p in
  let M t := w_mean (team_at q t) in let V t := w_var beta tau (team_at q t) in
  exists eps, (forall x, ts_draw_margin (Fin dp) (Fin beta) (Fin (INR (length (team_at q x) + length (team_at q (S x))))) = Fin (eps x)) /\
  forall c, ep_teams beta tau eps q = Some c ->
  exists r, trueskill_multi_team (map tsr_in l) (ts_cfg dp beta tau) None = Ok r /\ length r = length l /\
    forall k, (k < length l)%nat -> nth_error r (nth k p O) = Some (map (ep_out tau (ep_shift M V c k) (ep_shrink V c k)) (team_at q k)).
Proof. exact C100_default_proof. Qed.
Print Assumptions C100_ts_many_teams_default.
Theorem C100_rank_order_exists : forall l, exists p, rank_order l p.
Proof. exact rank_order_ex. Qed.
Print Assumptions C100_rank_order_exists.

(** Three teams of one player, in mixed order: all the hypotheses of C99 and
    C100 hold for every draw probability, beta, tau and uncertainty when the
    ratings are far enough apart. *)
Example C100_case : forall dp beta tau s, 0 < s -> exists g,
  let l := [([((g, s), 1)], 2%N); ([((0, s), 1)], 3%N); ([((2 * g, s), 1)], 1%N)] in
  let q := arrange l [2; 0; 1]%nat in
  (2 <= length l)%nat /\ Forall (fun x => fst x <> []) l /\ Forall (fun x : wpl => 0 < snd (fst x) /\ 0 < snd x) (concat (map fst l)) /\ rank_order l [2; 0; 1]%nat /\
  exists eps c, (forall x, ts_draw_margin (Fin dp) (Fin beta) (Fin (INR (length (team_at q x) + length (team_at q (S x))))) = Fin (eps x)) /\ ep_teams beta tau eps q = Some c.
Proof. exact three_case. Qed.
Example C99_case : exists g,
  let l := [([((g, 8), 1)], 2%N); ([((0, 8), 1)], 3%N); ([((2 * g, 8), 1)], 1%N)] in
  let q := arrange l [2; 0; 1]%nat in
  (2 <= length l)%nat /\ Forall (fun x => fst x <> []) l /\ Forall (fun x : wpl => 0 < snd (fst x) /\ 0 < snd x) (concat (map fst l)) /\ rank_order l [2; 0; 1]%nat /\
  exists eps, (forall x, ts_draw_margin (Fin (1/10)) (Fin 4) (Fin (INR (length (team_at q x) + length (team_at q (S x))))) = Fin (eps x)) /\ ep_teams 4 (1/12) eps q <> None.
Proof.
  destruct (three_case (1/10) 4 (1/12) 8) as (g & H); [lra|]. exists g. cbv zeta in *. destruct H as (H1 & H2 & H3 & H4 & eps & c & H5 & H6).
  repeat (split; [assumption|]). exists eps. split; [assumption|]. rewrite H6. discriminate.
Qed.
