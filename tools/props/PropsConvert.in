(** Property theorems: forecasts after moving two players to another system (C132). *)
From Coq Require Import ZArith NArith List Bool Reals Lra Lia.
From Verif Require Import Arith XR ModelLib ModelElo ModelFifa ModelDwz ModelIngo ModelUscf ModelGlicko ModelGlicko2 ModelWengLin ModelTS ModelConv
  Spec SpecTS ProofConvert.
Import Spec ListNotations.
Local Open Scope R_scope.

(** C132: the favourite stays the favourite, and the forecast changes by at most
    the stated amount. *)
@THM C132_elo_dwz C132_dwz_proof
@THM C132_elo_uscf C132_uscf_proof
@THM C132_elo_fifa C132_fifa_proof
@THM C132_elo_ingo C132_ingo_proof
@THM C132_glicko_glicko2 C132_glicko2_proof
@THM C132_weng_lin_trueskill C132_trueskill_proof

(* Two players on either side of the branch point of the USCF conversion. *)
Example C132_uscf_case : 1900 < 2100 /\ exists e u, fst (elo_expected_score (mkElo (Fin 2100)) (mkElo (Fin 1900))) = Fin e /\
  fst (uscf_expected_score (uscf_from_elo (mkElo (Fin 2100))) (uscf_from_elo (mkElo (Fin 1900)))) = Fin u /\ Rabs (u - e) <= 0.016.
Proof. split; [lra|]. destruct (C132_elo_uscf 2100 1900 ltac:(lra)) as (e & u & E & U & _ & _ & D & _). now exists e, u. Qed.
Example C132_glicko_case : 1400 < 1500. Proof. lra. Qed.
Example C132_weng_lin_case : 0 < 25 / 6 /\ 20 < 25. Proof. lra. Qed.
