(** Property theorems: which team is expected to do best (C136). *)
From Coq Require Import ZArith NArith List Bool Reals Lra Lia.
From Verif Require Import Arith XR ModelLib ModelTS Spec SpecTS SpecInTS ProofTS ProofFirst.
Import ListNotations.
Local Open Scope R_scope.

(** C136: among equally uncertain teams the expected scores follow the ratings. *)
Theorem C136_equally_certain_trueskill_partial : forall ts dp beta tau V i k, 0 < beta -> Forall (fun t => t <> [] /\ side_var t = V) ts -> (i < length ts)%nat -> (k < length ts)%nat ->
  side_mu (nth k ts []) < side_mu (nth i ts []) -> exists es,
  ts_expected_score_multi_team (map tst_in ts) (ts_cfg dp beta tau) = map Fin es /\ length es = length ts /\ nth k es 0 <= nth i es 0 + 0.0000005 /\
  (1 / 1000 * sqrt (INR (list_sum (map (@length _) ts)) * beta ^ 2 + 2 * V) <= side_mu (nth i ts []) - side_mu (nth k ts []) ->
   (forall j, (j < length ts)%nat -> j <> i -> j <> k -> side_mu (nth j ts []) < side_mu (nth k ts []) \/ side_mu (nth i ts []) < side_mu (nth j ts [])) -> nth k es 0 < nth i es 0).
Proof. exact C136_trueskill_proof. Qed.
Print Assumptions C136_equally_certain_trueskill_partial.
(** A less certain team can have the higher expected score although its rating is lower. *)
Theorem C136_trueskill_refuted : forall mA mB dp beta tau, mB < mA -> 0 < beta -> exists sA sB mC sC ea eb ec, 0 < sA /\ 0 < sB /\ 0 < sC /\
  ts_expected_score_multi_team [[ts_in (mA, sA)]; [ts_in (mB, sB)]; [ts_in (mC, sC)]] (ts_cfg dp beta tau) = [Fin ea; Fin eb; Fin ec] /\ ea < eb.
Proof. exact C136_trueskill_refuted_proof. Qed.
Print Assumptions C136_trueskill_refuted.

Example C136_case : let ts := [[(25, 5)]; [(20, 3); (3, 4)]; [(30, 5)]] in
  Forall (fun t => t <> [] /\ side_var t = 25) ts /\ side_mu (nth 1 ts []) < side_mu (nth 0 ts []) /\
  1 / 1000 * sqrt (INR (list_sum (map (@length _) ts)) * 4 ^ 2 + 2 * 25) <= side_mu (nth 0 ts []) - side_mu (nth 1 ts []) /\
  (forall j, (j < length ts)%nat -> j <> 0%nat -> j <> 1%nat -> side_mu (nth j ts []) < side_mu (nth 1 ts []) \/ side_mu (nth 0 ts []) < side_mu (nth j ts [])).
Proof.
  cbv zeta. unfold side_var, side_mu, Rsum. split; [repeat (constructor; [split; [discriminate|cbn; lra]|]); constructor|]. split; [cbn; lra|]. split.
  - assert (sqrt (INR 4 * 4 ^ 2 + 2 * 25) <= 12) by (rewrite <- (sqrt_pow2 12) by lra; apply sqrt_le_1_alt; cbn; lra). cbn in *. lra.
  - intros j H H0 H1. cbn in H. destruct j as [|[|[|j]]]; try lia. cbn. lra.
Qed.
Example C136_refuted_case : 24 < 25 /\ 0 < 25 / 6. Proof. lra. Qed.
