(** Property theorems in IEEE-754 double precision, continued: USCF games and
    rating periods (C106). *)
From Coq Require Import ZArith NArith List Bool Reals Lra Lia.
From Flocq Require Import Core.Raux IEEE754.BinarySingleNaN.
From Verif Require Import Arith XR B64 SpecB64 SpecAcc ModelLib Spec Tac ModelUscf
  MathB64 ProofB64c ProofB64g ProofAccUscf.
Import Spec ListNotations.
Local Open Scope R_scope.

(** C106: one game, one rating period. *)
Theorem C106_f64_uscf_game : forall L r1 n1 r2 n2 o t, pow10_accurate L -> num_in 0 4000 r1 -> num_in 0 4000 r2 -> num_in 0 1000 t ->
  let '(q1, q2) := uscf (A := B64A L) (mkUscf r1 n1) (mkUscf r2 n2) o (mkUscfConfig t) in
  let R1 := B2R r1 in let R2 := B2R r2 in
  near (uscf_rating q1) (Rmax 100 (if (n1 <=? 8)%N
      then uscf_prov (IZR (Z.of_N n1)) R1 1 R2 (match o with WIN => 1 | _ => 0 end) (match o with LOSS => 1 | _ => 0 end)
      else uscf_upd R1 (IZR (Z.of_N n1)) 1 (points o) (elo_E R1 R2) (B2R t))) (2 / 10 ^ 9) /\
  near (uscf_rating q2) (Rmax 100 (if (n2 <=? 8)%N
      then uscf_prov (IZR (Z.of_N n2)) R2 1 R1 (match o with LOSS => 1 | _ => 0 end) (match o with WIN => 1 | _ => 0 end)
      else uscf_upd R2 (IZR (Z.of_N n2)) 1 (1 - points o) (elo_E R2 R1) (B2R t))) (2 / 10 ^ 9).
Proof. exact C106_game_proof. Qed.
Print Assumptions C106_f64_uscf_game.
Theorem C106_f64_uscf_period : forall L r n t (rs : list (USCFRating B64 * Outcomes)), pow10_accurate L -> num_in 0 4000 r -> num_in 0 1000 t ->
  Forall (fun g => num_in 0 4000 (uscf_rating (fst g))) rs -> (1 <= length rs <= 1000)%nat ->
  let R0 := B2R r in
  near (uscf_rating (uscf_rating_period (A := B64A L) (mkUscf r n) rs (mkUscfConfig t)))
    (if (n <=? 8)%N
     then uscf_prov (IZR (Z.of_N n)) R0 (INR (length rs)) (Rsum (map (fun g => B2R (uscf_rating (fst g))) rs) / INR (length rs))
            (INR (count_wins (map snd rs))) (INR (count_losses (map snd rs)))
     else uscf_upd R0 (IZR (Z.of_N n)) (length rs) (Rsum (map (fun g => points (snd g)) rs))
            (Rsum (map (fun g => elo_E R0 (B2R (uscf_rating (fst g)))) rs)) (B2R t)) (2 / 10 ^ 9).
Proof. exact C106_period_proof. Qed.
Print Assumptions C106_f64_uscf_period.

(** The correctly rounded libm meets the contract. *)
Example C106_libm_case : pow10_accurate libm_rounded.
Proof. exact libm_pow_accurate. Qed.
(** An established player (30 games) rated 1800 against a provisional one (5 games) rated 1300; bonus threshold 14. *)
Example C106_case : num_in 0 4000 (b64_of_Z 1800) /\ num_in 0 4000 (b64_of_Z 1300) /\ num_in 0 1000 (b64_of_Z 14) /\
  (30 <=? 8)%N = false /\ (5 <=? 8)%N = true.
Proof.
  destruct (ext_ofZ 1800 ltac:(vm_compute; discriminate)) as [F1 E1]. destruct (ext_ofZ 1300 ltac:(vm_compute; discriminate)) as [F2 E2]. destruct (ext_ofZ 14 ltac:(vm_compute; discriminate)) as [F3 E3].
  rewrite (ext_fin _ F1) in E1. rewrite (ext_fin _ F2) in E2. rewrite (ext_fin _ F3) in E3.
  split; [split; [exact F1|lra]|]. split; [split; [exact F2|lra]|]. split; [split; [exact F3|lra]|]. split; reflexivity.
Qed.
