(** Property theorems: who pays for a result (C135). *)
From Coq Require Import ZArith NArith List Bool Reals Lra Lia.
From Verif Require Import Arith XR ModelLib ModelGlicko ModelGlicko2 ModelSticko ModelBoost
  Spec ProofGlicko ProofUncertain ProofWho ProofWhoB.
Import Spec ListNotations.
Local Open Scope R_scope.

(** C135: two equally certain players exchange points, and stay equally certain. *)
@THM C135_equal_glicko C135_glicko_proof
@THM C135_equal_glicko2 C135_glicko2_proof
(** In Sticko the colours and the lambda term do not matter, but beta adds points. *)
@THM C135_equal_sticko C135_sticko_proof
(** Glicko-Boost: two equally certain players exchange points unless one of them is boosted (a
    result better than expected and expected with a probability below 1/(1 + k^2)); a boost for
    a win creates points, unless the deviation is so large that the game more than undoes b1. *)
@THM C135_equal_boost C135_boost_proof
(** In an upset, or a draw, the player whose rating is less certain moves further. *)
@THM C135_more_glicko C135_glicko_more_proof
(** Sticko without gamma and beta, any lambda: the sum of the ratings moves that way. *)
@THM C135_more_sticko C135_sticko_more_proof
(** When the favourite wins by the ratings it can be the other way round. *)
@THM C135_favourite_glicko_refuted C135_glicko_refuted_proof

Example C135_glicko_case : exists x1 x2 d,
  glicko (mkGlicko (Fin 1500) (Fin 200)) (mkGlicko (Fin 1720) (Fin 200)) WIN (mkGlickoConfig (Fin 63.2)) = (mkGlicko (Fin x1) (Fin d), mkGlicko (Fin x2) (Fin d)) /\ x1 + x2 = 3220.
Proof. destruct (C135_equal_glicko 1500 1720 200 63.2 WIN ltac:(lra)) as (x1 & x2 & d & E & S). exists x1, x2, d. split; [exact E|lra]. Qed.
Example C135_glicko2_case : 0 < 0.06 /\ 0 < 0.5 /\ 0 <= 0.000001. Proof. lra. Qed.
Example C135_sticko_case : 0 < 200 /\ 0 <= 10 /\ 0 < 0.1. Proof. lra. Qed.
Example C135_more_case : exists x1 d1 x2 d2,
  glicko (mkGlicko (Fin 1500) (Fin 200)) (mkGlicko (Fin 1600) (Fin 50)) WIN (mkGlickoConfig (Fin 63.2)) = (mkGlicko (Fin x1) d1, mkGlicko (Fin x2) d2) /\ 0 < 1600 - x2 < x1 - 1500.
Proof. destruct (C135_more_glicko 1500 200 1600 50 63.2 WIN) as (x1 & d1 & x2 & d2 & E & A & _); try lra. exists x1, d1, x2, d2. split; [exact E|apply A; auto; lra]. Qed.
Example C135_more_sticko_case : 0 < 50 < 200 /\ 200 ^ 2 + 10 ^ 2 <= 347 ^ 2 /\ 0 <= 10. Proof. lra. Qed.
Example C135_refuted_case : 0 < 30 < 350. Proof. lra. Qed.
(* A fresh pair, equal after the advantage of 30 points; the default k. *)
Example C135_boost_case : let E := gE 1500 (1530 - 30) 350 in 0 < 350 <= 350 /\ / (1 + 1.96 ^ 2) <= E /\ E <= 1 - / (1 + 1.96 ^ 2).
Proof.
  cbv zeta. replace (1530 - 30) with 1500 by lra. rewrite gE_self. assert (/ (1 + 1.96 ^ 2) <= / 2) by (apply Rinv_le_contravar; lra). repeat split; lra.
Qed.
