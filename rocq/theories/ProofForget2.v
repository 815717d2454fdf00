(** Proofs of C147 for provisional USCF players. *)
From Coq Require Import ZArith NArith List Bool Reals Lra Lia.
From Verif Require Import Arith XR Tac ModelLib ModelUscf Spec ProofElo ProofUscf.
Import ListNotations.
Local Open Scope R_scope.

Lemma C147_uscf_proof : forall n (rs : list (R * N * Outcomes)) r r' t, (n <= 8)%N -> rs <> [] -> (n + N.of_nat (length rs) < 2 ^ 64)%N -> exists x y,
  let play z := uscf_rating_period (mkUscf (Fin z) n) (map (fun g => (mkUscf (Fin (fst (fst g))) (snd (fst g)), snd g)) rs) (mkUscfConfig (Fin t)) in
  uscf_rating (play r) = Fin x /\ uscf_rating (play r') = Fin y /\
  y - x = (r' - r) * (IZR (Z.of_N n) / (IZR (Z.of_N n) + INR (length rs))) /\ (n = 0%N -> x = y).
Proof.
  intros n rs r r' t Hn Hne Hlt. exists (uscf_period_val r n rs t), (uscf_period_val r' n rs t). cbv zeta beta. assert (E : forall z, uscf_rating_period (mkUscf (Fin z) n) (map (fun g => (mkUscf (Fin (fst (fst g))) (snd (fst g)), snd g)) rs) (mkUscfConfig (Fin t)) = mkUscf (Fin (uscf_period_val z n rs t)) (n + N.of_nat (length rs))%N).
  { intros z. rewrite <- uscf_period_eval by auto. unfold uscf_results. f_equal. apply map_ext. now intros [[? ?] ?]. }
  rewrite !E. cbn [uscf_rating]. assert (HL : 0 < INR (length rs)) by (destruct rs; [congruence|apply lt_0_INR; cbn; lia]). pose proof (NR_nonneg n) as N0. fold (NR n).
  assert (G : uscf_period_val r' n rs t - uscf_period_val r n rs t = (r' - r) * (NR n / (NR n + INR (length rs)))).
  { unfold uscf_period_val. replace (n <=? 8)%N with true by (symmetry; now apply N.leb_le). unfold uscf_prov. field. lra. }
  split; [reflexivity|]. split; [reflexivity|]. split; [exact G|]. intros ->. assert (Z : NR 0 = 0) by reflexivity. rewrite Z in G. unfold Rdiv in G. rewrite Rmult_0_l, Rmult_0_r in G. lra.
Qed.
