(** Property theorems: what a drawn game does to the ratings (C133). *)
From Coq Require Import ZArith NArith List Bool Reals Lra Lia.
From Verif Require Import Arith XR ModelLib ModelElo ModelFifa ModelDwz ModelIngo ModelUscf ModelEgf ModelGlicko ModelGlicko2 ModelSticko ModelBoost ModelWengLin ModelTS
  Spec SpecIn SpecTS SpecInTS SpecDraw ProofDraw ProofDrawTS.
Import Spec ListNotations.
Local Open Scope R_scope.

(** C133: a draw moves each rating in the direction of the opponent's rating, and
    leaves the ratings of equally rated players alone. *)
@THM C133_draw_elo C133_elo_proof
@THM C133_draw_fifa C133_fifa_proof
@THM C133_draw_dwz C133_dwz_proof
@THM C133_draw_uscf C133_uscf_proof
@THM C133_draw_ingo C133_ingo_proof
@THM C133_draw_glicko C133_glicko_proof
@THM C133_draw_glicko2 C133_glicko2_proof
@THM C133_draw_sticko C133_sticko_proof
@THM C133_draw_boost C133_boost_proof
@THM C133_draw_weng_lin C133_wl_proof
@THM C133_draw_weng_lin_teams C133_wl_teams_proof
@THM C133_draw_trueskill_teams C133_ts_teams_proof
(** A tie of any number of teams: the strongest team loses, the weakest gains. *)
@THM C133_tie_weng_lin_multi C133_wl_multi_proof
(** EGF: the lower rated player gains; the higher rated one gains at most the bonus. *)
@THM C133_draw_egf_partial C133_egf_proof
(** Two equal players who draw both gain, by the bonus of EGF and by beta in Sticko. *)
@THM C133_equal_egf_refuted C133_egf_refuted_proof
@THM C133_equal_sticko_refuted C133_sticko_refuted_proof

Example C133_elo_case : 0 < 32. Proof. lra. Qed.
Example C133_dwz_case : (1 <= 5)%N /\ (1 <= 12)%N. Proof. lia. Qed.
(* A provisional and an established player; the default settings. *)
Example C133_uscf_case : exists x1 m1 x2 m2, uscf (mkUscf (Fin 1500) 4) (mkUscf (Fin 1800) 40) DRAW (mkUscfConfig (Fin 14)) = (mkUscf (Fin x1) m1, mkUscf (Fin x2) m2) /\ 1500 < x1 /\ x2 < 1800.
Proof. destruct (C133_draw_uscf 1500 4 1800 40 14 ltac:(lra) ltac:(lra)) as (x1 & m1 & x2 & m2 & E & (A & _) & (_ & B & _)). exists x1, m1, x2, m2. repeat split; [exact E|apply A; lra|apply B; lra]. Qed.
Example C133_glicko_case : 0 < 350 /\ 0 < 50 /\ 0 <= 10 /\ 0 <= 2. Proof. lra. Qed.
Example C133_glicko2_case : 0 < 0.06 /\ 0 < 0.5 /\ 0 <= 0.000001. Proof. lra. Qed.
(* Equal players in Glicko-Boost with the default eta of 30: the first mover loses points by a draw. *)
Example C133_boost_case : exists x1 d1 x2 d2,
  glicko_boost (mkBoost (Fin 1500) (Fin 350)) (mkBoost (Fin 1500) (Fin 350)) DRAW
    (mkBoostConfig (Fin 30) (Fin 1.96) (Fin 0.20139) (Fin 17.5) (Fin 5.83733) (Fin (-0.0000175374)) (Fin (-0.000000726)) (Fin 0.1) (Fin 0)) = (mkBoost (Fin x1) d1, mkBoost (Fin x2) d2) /\ x1 < 1500 < x2.
Proof.
  destruct (C133_draw_boost 1500 350 1500 350 {| bc_eta := 30; bc_k := 1.96; bc_b0 := 0.20139; bc_b1 := 17.5; bc_a0 := 5.83733; bc_a1 := -0.0000175374; bc_a2 := -0.000000726; bc_a3 := 0.1; bc_a4 := 0 |} ltac:(lra) ltac:(lra)) as (x1 & d1 & x2 & d2 & E & (_ & A & _) & (B & _)); cbn [bc_b0 bc_b1 bc_eta] in *; try lra.
  exists x1, d1, x2, d2. split; [exact E|]. split; [apply A; lra|apply B; lra].
Qed.
Example C133_weng_lin_case : wl_ok [(25, 25 / 3); (27, 2)] /\ wl_ok [(20, 5)] /\ 0 < 0.0001 <= 1.
Proof. repeat split; try discriminate; try lra; repeat constructor; cbn; lra. Qed.
Example C133_egf_case : -900 <= 1000 /\ 1000 <= 1500 /\ 1500 < 3300. Proof. lra. Qed.
(* A tie of three teams. *)
Example C133_multi_case : let xs := [([(25, 8); (20, 3)], 1%N); ([(30, 5)], 1%N); ([(22, 4); (15, 2)], 1%N)] in
  Forall (fun x => wl_ok (fst x)) xs /\ (forall x y, In x xs -> In y xs -> snd x = snd y).
Proof.
  cbv zeta. split; [|intros x y Hx Hy; cbn in Hx, Hy; intuition (subst; reflexivity)].
  repeat (constructor; [split; [discriminate|repeat (constructor; [cbn; lra|]); constructor]|]). constructor.
Qed.
Example C133_trueskill_case : 0.01 <= 0.1 <= 1 /\ 0 < 25 / 6 /\ Forall (fun p : R * R => snd p <= 5000 * (25 / 6)) [(25, 25 / 3); (20, 2)].
Proof. repeat split; try lra. repeat (constructor; [cbn; lra|]). constructor. Qed.
