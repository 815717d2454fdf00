(** Reference for TrueSkill with any number of teams: expectation propagation
    on the chain of team performances, in plain real arithmetic (Herbrich,
    Minka, Graepel 2006, section 3).  Team [t] is the [t]-th best team, its
    performance has mean [M t] and variance [V t]; comparison [x] is the one
    between the teams [x] and [x + 1], with draw margin [eps x]. *)
From Coq Require Import ZArith NArith List Bool Permutation Sorted Reals Arith.PeanoNat.
From Verif Require Import ModelLib XR Arith ModelTS Spec SpecTS SpecInTS.
Import ListNotations.
Local Open Scope R_scope.

(** A Gaussian by precision and precision times mean; the precision may be 0. *)
Definition gau : Type := (R * R)%type.
Definition gau_of (m v : R) : gau := (/ v, m / v).
Definition gmean (g : gau) : R := snd g / fst g.
Definition gvar (g : gau) : R := / fst g.
Definition gprod (g h : gau) : gau := (fst g + fst h, snd g + snd h).
Definition gquot (g h : gau) : gau := (fst g - fst h, snd g - snd h).
Definition fset {X} (f : nat -> X) (k : nat) (x : X) : nat -> X := fun i => if Nat.eqb i k then x else f i.

(** What is known so far: [c_prev t] about the performance of team [t] from the
    comparison with the team before it, [c_next t] from the comparison with the
    team after it; [c_res x] about the difference of the performances of the
    teams [x] and [x + 1] from who won. *)
Record chain := mkChain { c_prev : nat -> gau; c_next : nat -> gau; c_res : nat -> gau }.
Definition chain0 : chain := mkChain (fun _ => (0, 0)) (fun _ => (0, 0)) (fun _ => (0, 0)).

Section Chain.
  Variables (M V eps : nat -> R) (draw : nat -> bool).
  (** Team [x] and team [x + 1], as known without comparison [x]. *)
  Definition hi (c : chain) (x : nat) : gau := gprod (gau_of (M x) (V x)) (c_prev c x).
  Definition lo (c : chain) (x : nat) : gau := gprod (gau_of (M (S x)) (V (S x))) (c_next c (S x)).
  (** The difference of the two performances before the result: mean, standard
      deviation, and the corrections [v] and [w] of the result. *)
  Definition dmean c x : R := gmean (hi c x) - gmean (lo c x).
  Definition dsd c x : R := sqrt (gvar (hi c x) + gvar (lo c x)).
  Definition res_of (x : nat) : Outcomes := if draw x then DRAW else WIN.
  Definition ep_v c x : R := ts_v (res_of x) (dmean c x / dsd c x) (eps x / dsd c x).
  Definition ep_w c x : R := ts_w (res_of x) (dmean c x / dsd c x) (eps x / dsd c x).
  (** The result moves the difference from mean [m], variance [s^2] to mean
      [m + s*v], variance [s^2*(1-w)]; the message is the quotient. *)
  Definition ep_msg c x : gau :=
    let m := dmean c x in let s := dsd c x in
    gquot (gau_of (m + s * ep_v c x) (s ^ 2 * (1 - ep_w c x))) (gau_of m (s ^ 2)).
  (** How much a message changed. *)
  Definition change (g h : gau) : R := Rmax (Rabs (snd h - snd g)) (sqrt (Rabs (fst h - fst g))).
  (** Take the result of comparison [x] into account.  [None] if the correction
      leaves (0,1), where the posterior is not a Gaussian. *)
  Definition ep_compare (x : nat) (c : chain) : option (chain * R) :=
    if Rlt_dec 0 (ep_w c x) then if Rlt_dec (ep_w c x) 1 then
      Some (mkChain (c_prev c) (c_next c) (fset (c_res c) x (ep_msg c x)), change (c_res c x) (ep_msg c x))
    else None else None.
  (** Tell team [x + 1] (its performance is that of team [x] minus the
      difference) and team [x] (that of team [x + 1] plus the difference). *)
  Definition tell_lower (x : nat) (c : chain) : chain :=
    mkChain (fset (c_prev c) (S x) (gau_of (gmean (hi c x) - gmean (c_res c x)) (gvar (hi c x) + gvar (c_res c x)))) (c_next c) (c_res c).
  Definition tell_upper (x : nat) (c : chain) : chain :=
    mkChain (c_prev c) (fset (c_next c) x (gau_of (gmean (lo c x) + gmean (c_res c x)) (gvar (lo c x) + gvar (c_res c x)))) (c_res c).
  (** A pass over some comparisons with the largest change so far. *)
  Fixpoint ep_pass (tell : nat -> chain -> chain) (l : list nat) (c : chain) (d : R) : option (chain * R) :=
    match l with
    | [] => Some (c, d)
    | x :: l' => match ep_compare x c with
                 | Some (c', d') => ep_pass tell l' (tell x c') (Rmax d d')
                 | None => None
                 end
    end.
  (** One sweep over the [T - 1] comparisons of [T] teams: downwards without the
      last comparison and back upwards without the first one. *)
  Definition ep_sweep (T : nat) (c : chain) : option (chain * R) :=
    if Nat.eqb T 2 then ep_compare 0 c
    else match ep_pass tell_lower (seq 0 (T - 2)) c 0 with
         | Some (c', d) => ep_pass tell_upper (rev (seq 1 (T - 2))) c' d
         | None => None
         end.
  (** At most [k] sweeps, until no message changes by more than 0.0001. *)
  Fixpoint ep_loop (k T : nat) (c : chain) : option chain :=
    match k with
    | O => Some c
    | S k' => match ep_sweep T c with
              | Some (c', d) => if Rle_dec d (1 / 10000) then Some c' else ep_loop k' T c'
              | None => None
              end
    end.
  (** Ten sweeps, then the best and the worst team are told. *)
  Definition ep_run (T : nat) : option chain :=
    match ep_loop 10 T chain0 with
    | Some c => Some (tell_lower (T - 2) (tell_upper 0 c))
    | None => None
    end.
  (** All that the comparisons say about team [t]. *)
  Definition evidence (c : chain) (t : nat) : gau := gprod (c_prev c t) (c_next c t).
  (** The shift and the shrinkage for the members of team [t]. *)
  Definition ep_shift c t : R := (gmean (evidence c t) - M t) / (gvar (evidence c t) + V t).
  Definition ep_shrink c t : R := / (gvar (evidence c t) + V t).
End Chain.

(** A player with weight [w] and prior variance [S] in a team with shift [d]
    and shrinkage [q]. *)
Definition ep_out (tau d q : R) (x : wpl) : TrueSkillRating XR :=
  let S := snd (fst x) ^ 2 + tau ^ 2 in
  mkTS (Fin (fst (fst x) + snd x * S * d)) (Fin (sqrt (S - (snd x * S) ^ 2 * q))).
(** Performances, draw margins and draws of a list of teams with their ranks. *)
Definition team_at (l : list (list wpl * N)) (t : nat) : list wpl := fst (nth t l ([], 0%N)).
Definition rank_at (l : list (list wpl * N)) (t : nat) : N := snd (nth t l ([], 0%N)).
Definition ep_teams (beta tau : R) (eps : nat -> R) (l : list (list wpl * N)) : option chain :=
  ep_run (fun t => w_mean (team_at l t)) (fun t => w_var beta tau (team_at l t)) eps
    (fun x => N.eqb (rank_at l x) (rank_at l (S x))) (length l).
(** [p] lists the positions in [l] from the best rank to the worst one, teams
    with the same rank in input order; [arrange l p] is [l] in that order. *)
Definition rank_order (l : list (list wpl * N)) (p : list nat) : Prop :=
  Permutation p (seq 0 (length l)) /\
  StronglySorted (fun i j => (rank_at l i < rank_at l j)%N \/ (rank_at l i = rank_at l j /\ (i < j)%nat)) p.
Definition arrange (l : list (list wpl * N)) (p : list nat) : list (list wpl * N) := map (fun i => nth i l ([], 0%N)) p.
