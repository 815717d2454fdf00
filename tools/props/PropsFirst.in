(** Property theorems: which team is expected to do best (C136). *)
From Coq Require Import ZArith NArith List Bool Reals Lra Lia.
From Verif Require Import Arith XR ModelLib ModelTS Spec SpecTS SpecInTS ProofTS ProofFirst.
Import ListNotations.
Local Open Scope R_scope.

(** C136: among equally uncertain teams the expected scores follow the ratings. *)
@THM C136_equally_certain_trueskill_partial C136_trueskill_proof
(** A less certain team can have the higher expected score although its rating is lower. *)
@THM C136_trueskill_refuted C136_trueskill_refuted_proof

Example C136_case : let ts := [[(25, 5)]; [(20, 3); (3, 4)]; [(30, 5)]] in
  Forall (fun t => t <> [] /\ side_var t = 25) ts /\ side_mu (nth 1 ts []) < side_mu (nth 0 ts []) /\
  1 / 1000 * sqrt (INR (list_sum (map (@length _) ts)) * 4 ^ 2 + 2 * 25) <= side_mu (nth 0 ts []) - side_mu (nth 1 ts []) /\
  (forall j, (j < length ts)%nat -> j <> 0%nat -> j <> 1%nat -> side_mu (nth j ts []) < side_mu (nth 1 ts []) \/ side_mu (nth 0 ts []) < side_mu (nth j ts [])).
Proof.
  cbv zeta. unfold side_var, side_mu, Rsum. split; [repeat (constructor; [split; [discriminate|cbn; lra]|]); constructor|]. split; [cbn; lra|]. split.
  - assert (sqrt (INR 4 * 4 ^ 2 + 2 * 25) <= 12) by (rewrite <- (sqrt_pow2 12) by lra; apply sqrt_le_1_alt; cbn; lra). cbn in *. lra.
  - intros j H H0 H1. cbn in H. destruct j as [|[|[|j]]]; try lia. cbn. lra.
Qed.
Example C136_refuted_case : 24 < 25 /\ 0 < 25 / 6. Proof. lra. Qed.
