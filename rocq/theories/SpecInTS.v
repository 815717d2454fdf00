(** Real-valued TrueSkill inputs and results as model values. *)
From Coq Require Import ZArith NArith List Bool Reals.
From Verif Require Import Arith XR ModelLib ModelTS Spec SpecTS.
Import ListNotations.
Local Open Scope R_scope.

(** A player (rating, uncertainty) and a team. *)
Definition ts_in (p : R * R) : TrueSkillRating XR := mkTS (Fin (fst p)) (Fin (snd p)).
Definition tst_in (t : list (R * R)) : list (TrueSkillRating XR) := map ts_in t.
Definition tsr_in (x : list (R * R) * N) : list (TrueSkillRating XR) * MultiTeamOutcome := (tst_in (fst x), mkMTO (snd x)).
Definition ts_cfg (dp beta tau : R) : TrueSkillConfig XR := mkTSConfig (Fin dp) (Fin beta) (Fin tau).
(** The player after an update with signed correction [v] and variance
    correction [w]. *)
Definition ts_out (tau c v w : R) (p : R * R) : TrueSkillRating XR :=
  mkTS (Fin (ts_mu' tau c v p)) (std (ts_var' tau c w p)).

(** The same for a player with a weight. *)
Definition w_out (tau c v w : R) (x : wpl) : TrueSkillRating XR :=
  let S := snd (fst x) ^ 2 + tau ^ 2 in
  mkTS (Fin (fst (fst x) + snd x * S / c * v)) (Fin (sqrt (S * (1 - w * (snd x ^ 2 * S) / c ^ 2)))).

(** Which error a table of weights deserves: the first offending team, and in
    it the first offending player; [neg] says that a weight is negative. *)
Definition weight_error {W} (neg : W -> Prop) (teams : list (list (TrueSkillRating W))) (ws : list (list W)) (e : WeightError) : Prop :=
  match e with
  | TeamAmount => length ws <> length teams
  | PlayerAmount i => exists ts1 t ts2 wa w wb,
      teams = ts1 ++ t :: ts2 /\ ws = wa ++ w :: wb /\ length ts1 = i /\ length ts2 = length wb /\ weights_ok neg ts1 wa /\
      length w <> length t
  | WeightErr i j => exists ts1 t ts2 wa w wb a x b,
      teams = ts1 ++ t :: ts2 /\ ws = wa ++ w :: wb /\ length ts1 = i /\ length ts2 = length wb /\ weights_ok neg ts1 wa /\
      length w = length t /\ w = a ++ x :: b /\ length a = j /\ neg x /\ Forall (fun y => ~ neg y) a
  end.
