(** TrueSkill formulas in plain real arithmetic, independent of the model. *)
From Coq Require Import ZArith NArith List Bool Reals.
From Verif Require Import ModelLib XR Spec.
Import ListNotations.
Local Open Scope R_scope.

(** Complementary error function: the Chebyshev fit of Numerical Recipes
    (section 6.2). *)
Definition nr_P (t : R) : R :=
  - 1.26551223 + 1.00002368 * t + 0.37409196 * t ^ 2 + 0.09678418 * t ^ 3 - 0.18628806 * t ^ 4
  + 0.27886807 * t ^ 5 - 1.13520398 * t ^ 6 + 1.48851587 * t ^ 7 - 0.82215223 * t ^ 8 + 0.17087277 * t ^ 9.
Definition nr_pos (z : R) : R := let t := / (1 + z / 2) in t * exp (nr_P t - z ^ 2).
Definition nr_erfc (x : R) : R := if Rlt_dec x 0 then 2 - nr_pos (- x) else nr_pos x.
(** Normal distribution function (through [nr_erfc]) and density. *)
Definition Phi (x : R) : R := nr_erfc (- x / sqrt 2) / 2.
Definition phi (x : R) : R := exp (- (x ^ 2 / 2)) / sqrt (2 * PI).

(** Below this probability the ratio phi/Phi is replaced by its asymptote. *)
Definition tiny : R := 2222758749 / 10 ^ 171.
(** Additive and multiplicative corrections of the truncated Gaussian
    (Herbrich, Minka, Graepel 2006).  [t] is the standardised difference,
    [eps] the standardised draw margin. *)
Definition vwin (t eps : R) : R :=
  if Rlt_dec (Phi (t - eps)) tiny then - t + eps else phi (t - eps) / Phi (t - eps).
Definition wwin (t eps : R) : R :=
  if Rlt_dec (Phi (t - eps)) tiny then (if Rlt_dec t 0 then 1 else 0)
  else vwin t eps * (vwin t eps + t - eps).
Definition drawnorm (t eps : R) : R := Phi (eps - Rabs t) - Phi (- eps - Rabs t).
Definition vdraw (t eps : R) : R :=
  if Rlt_dec (drawnorm t eps) tiny then (if Rlt_dec t 0 then - t - eps else - t + eps)
  else (phi (- eps - t) - phi (eps - t)) / drawnorm t eps.
Definition wdraw (t eps : R) : R :=
  if Rlt_dec (drawnorm t eps) tiny then 1
  else vdraw t eps ^ 2 + ((eps - t) * phi (eps - t) + (eps + t) * phi (eps + t)) / drawnorm t eps.

(** Corrections for an outcome seen by side one whose advantage is [t]; the
    first one is signed: positive if side one gains. *)
Definition ts_v (o : Outcomes) (t eps : R) : R :=
  match o with WIN => vwin t eps | LOSS => - vwin (- t) eps | DRAW => vdraw t eps end.
Definition ts_w (o : Outcomes) (t eps : R) : R :=
  match o with WIN => wwin t eps | LOSS => wwin (- t) eps | DRAW => wdraw t eps end.

(** Square root of a variance; NaN when negative. *)
Definition std (x : R) : XR := if Rlt_dec x 0 then NaN else Fin (sqrt x).
(** Update of a player (mean, deviation) with dynamics [tau], signed
    correction [v], variance correction [w] and scale [c]. *)
Definition ts_mu' (tau c v : R) (p : R * R) : R := fst p + (snd p ^ 2 + tau ^ 2) / c * v.
Definition ts_var' (tau c w : R) (p : R * R) : R :=
  (snd p ^ 2 + tau ^ 2) * (1 - w * (snd p ^ 2 + tau ^ 2) / c ^ 2).

(** A side: sum of ratings and of squared deviations. *)
Definition side_mu (t : list (R * R)) : R := Rsum (map fst t).
Definition side_var (t : list (R * R)) : R := Rsum (map (fun p => snd p ^ 2) t).

(** The first offending entry of a table of weights. *)
Definition weights_ok {X W} (bad : W -> Prop) (teams : list (list X)) (ws : list (list W)) : Prop :=
  Forall2 (fun t w => length w = length t /\ Forall (fun x => ~ bad x) w) teams ws.

(** Chance that team [i] beats team [j] as computed pairwise. *)
Definition ts_pair (beta : R) (ts : list (list (R * R))) (i j : nat) : R :=
  let n := INR (list_sum (map (@length _) ts)) in let a := nth i ts [] in let b := nth j ts [] in
  Phi ((side_mu a - side_mu b) / sqrt (n * beta ^ 2 + side_var a + side_var b)).
Definition ts_row (beta : R) (ts : list (list (R * R))) (i : nat) : R :=
  Rsum (map (fun j => if Nat.eqb i j then 0 else ts_pair beta ts i j) (seq 0 (length ts))).
(** Quality of a match of [n] players: variance [v] and rating difference [d]. *)
Definition mq (n beta v d : R) : R := sqrt (n * beta ^ 2 / (n * beta ^ 2 + v)) * exp (- d ^ 2 / (2 * (n * beta ^ 2 + v))).
(** A player (rating, uncertainty) with a weight; performance of a team: mean
    and variance of the weighted sum. *)
Definition wpl : Type := ((R * R) * R)%type.
Definition w_mean (t : list wpl) : R := Rsum (map (fun x => snd x * fst (fst x)) t).
Definition w_var (beta tau : R) (t : list wpl) : R := Rsum (map (fun x => snd x ^ 2 * (snd (fst x) ^ 2 + tau ^ 2 + beta ^ 2)) t).
(** Outcome for the first of two ranked sides (a lower rank is better). *)
Definition rank_outcome (k1 k2 : N) : Outcomes := match N.compare k1 k2 with Lt => WIN | Eq => DRAW | Gt => LOSS end.

(** Sum over the entries of the product of all the other entries. *)
Fixpoint others (l : list R) : R :=
  match l with [] => 0 | v :: l' => fold_right Rmult 1 l' + v * others l' end.
(** Quality of a match of several weighted teams: the draw density of all
    performances relative to its value for known, equal skills.  [mv] lists
    mean and variance of the teams' performances, [c] is their
    precision-weighted mean. *)
Definition mq_multi (beta : R) (l : list (list wpl)) : R :=
  let mv := map (fun t => (w_mean t, w_var beta 0 t)) l in
  let c := Rsum (map (fun x => fst x / snd x) mv) / Rsum (map (fun x => / snd x) mv) in
  exp (- (/ 2 * Rsum (map (fun x => (fst x - c) ^ 2 / snd x) mv))) *
  sqrt (others (map (fun t => beta ^ 2 * Rsum (map (fun x : wpl => snd x ^ 2) t)) l) / others (map snd mv)).
