(** Model of /repo/src/trueskill/{gaussian,factor_graph,schedule}.rs and of
    [trueskill_multi_team] in mod.rs.

    The [Rc<RefCell<Variable>>] cells are modelled as an explicit store
    [nat -> Variable]; a cell is identified by its index:
      rating variable i        ->  i
      performance variable i   ->  n + i          (n players in total)
      team performance t       ->  2n + t         (T teams)
      team difference x        ->  2n + T + x.
    A step is a function [store -> option (store * X)]; [None] is a panic. *)
From Coq Require Import ZArith NArith List Bool Arith.PeanoNat.
From Verif Require Import Arith ModelLib ModelWengLin ModelTS.
Import ListNotations.
Local Open Scope flt_scope.

(** gaussian.rs:5-8 [struct Gaussian]. *)
Record Gaussian (F : Type) := mkG { g_pi : F; g_tau : F }.
Arguments mkG {F}. Arguments g_pi {F}. Arguments g_tau {F}.

(** factor_graph.rs:8-11 [struct Variable] (here [GVar]); the HashMap is a partial function. *)
Record GVar (F : Type) := mkVar { v_gaussian : Gaussian F; v_messages : nat -> option (Gaussian F) }.
Arguments mkVar {F}. Arguments v_gaussian {F}. Arguments v_messages {F}.

(** The store of all variables. *)
Definition Store (F : Type) := nat -> GVar F.
(** Computations on the store that may panic. *)
Definition M (F X : Type) := Store F -> option (Store F * X).

Definition ret {F X} (x : X) : M F X := fun s => Some (s, x).
Definition bind {F X Y} (m : M F X) (f : X -> M F Y) : M F Y :=
  fun s => match m s with Some (s', x) => f x s' | None => None end.
Definition panic {F X} : M F X := fun _ => None.
Notation "'do' x <- m ; f" := (bind m (fun x => f)) (at level 60, x pattern, right associativity).
(** [variable.borrow()]. *)
Definition get_var {F} (v : nat) : M F (GVar F) := fun s => Some (s, s v).
(** Writing back through [borrow_mut()]. *)
Definition put_var {F} (v : nat) (x : GVar F) : M F unit :=
  fun s => Some (fun w => if Nat.eqb w v then x else s w, tt).
(** [for x in l { body(x); }]. *)
Fixpoint for_each {F X Y} (l : list X) (body : X -> M F Y) : M F unit :=
  match l with
  | nil => ret tt
  | cons x l' => do _ <- body x; for_each l' body
  end.
(** [for x in l { acc = body(acc, x); }]. *)
Fixpoint for_fold {F X Y} (l : list X) (body : Y -> X -> M F Y) (acc : Y) : M F Y :=
  match l with
  | nil => ret acc
  | cons x l' => do acc' <- body acc x; for_fold l' body acc'
  end.
(** [l.map(body).collect()] for a body that may panic. *)
Fixpoint map_m {F X Y} (l : list X) (body : X -> M F Y) : M F (list Y) :=
  match l with
  | nil => ret nil
  | cons x l' => do y <- body x; do ys <- map_m l' body; ret (y :: ys)
  end.
Definition of_option {F X} (o : option X) : M F X :=
  fun s => match o with Some x => Some (s, x) | None => None end.

(** Stable insertion into a list sorted by key. *)
Fixpoint insert_by_key {X} (key : X -> N) (x : X) (l : list X) : list X :=
  match l with
  | nil => x :: nil
  | y :: l' => if (key x <=? key y)%N then x :: y :: l' else y :: insert_by_key key x l'
  end.
(** [sort_by_key]: std's sort is stable, so its result is determined by the
    specification; modelled by insertion sort. *)
Fixpoint sort_by_key {X} (key : X -> N) (l : list X) : list X :=
  match l with
  | nil => nil
  | x :: l' => insert_by_key key x (sort_by_key key l')
  end.

Section S.
  Context {F : Type} {A : Arith F}.

  (** Derived [Default] of [Gaussian] (gaussian.rs:4). *)
  Definition g_default : Gaussian F := mkG #0 #0.
  (** gaussian.rs:12-17 [Gaussian::with_mu_sigma]; panics for sigma = 0. *)
  Definition g_with_mu_sigma (mu sigma : F) : option (Gaussian F) :=
    if sigma =? #0 then None
    else let pi := fpowi sigma (-2) in Some (mkG pi (pi * mu)).
  (** gaussian.rs:23-29 [mu]. *)
  Definition g_mu (g : Gaussian F) : F := if g_pi g =? #0 then #0 else g_tau g / g_pi g.
  (** gaussian.rs:31-37 [sigma]. *)
  Definition g_sigma (g : Gaussian F) : F := if g_pi g =? #0 then finf else fsqrt (frecip (g_pi g)).
  (** gaussian.rs:40-49 [Mul]. *)
  Definition g_mul (a b : Gaussian F) : Gaussian F := mkG (g_pi a + g_pi b) (g_tau a + g_tau b).
  (** gaussian.rs:51-60 [Div]. *)
  Definition g_div (a b : Gaussian F) : Gaussian F := mkG (g_pi a - g_pi b) (g_tau a - g_tau b).

  (** factor_graph.rs:14-19 [Variable::new]. *)
  Definition var_new : GVar F := mkVar g_default (fun _ => None).
  (** [messages.entry(id).or_default()] as used in the constructors. *)
  Definition var_register (id : nat) (v : GVar F) : GVar F :=
    mkVar (v_gaussian v)
      (fun i => if Nat.eqb i id then (match v_messages v id with Some g => Some g | None => Some g_default end)
                else v_messages v i).
  (** factor_graph.rs:46-53 [Variable::delta]. *)
  Definition var_delta (v : GVar F) (other : Gaussian F) : F :=
    let pi_delta := fabs (g_pi (v_gaussian v) - g_pi other) in
    if fis_inf pi_delta then #0
    else fmax (fabs (g_tau (v_gaussian v) - g_tau other)) (fsqrt pi_delta).
  (** [self.messages.insert(id, message)] (via the entry API). *)
  Definition msg_set (m : nat -> option (Gaussian F)) (id : nat) (g : Gaussian F) : nat -> option (Gaussian F) :=
    fun i => if Nat.eqb i id then Some g else m i.
  (** factor_graph.rs:21-28, 30-36 [update_message] (with [set] inlined). *)
  Definition update_message (var factor_id : nat) (message : Gaussian F) : M F F :=
    do v <- get_var var;
    do old_message <- of_option (v_messages v factor_id);
    let val := g_mul (g_div (v_gaussian v) old_message) message in
    do _ <- put_var var (mkVar val (msg_set (v_messages v) factor_id message));
    ret (var_delta v val).
  (** factor_graph.rs:38-44 [update_value] (with [set] inlined). *)
  Definition update_value (var factor_id : nat) (val : Gaussian F) : M F F :=
    do v <- get_var var;
    do old_message <- of_option (v_messages v factor_id);
    do _ <- put_var var (mkVar val (msg_set (v_messages v) factor_id (g_div (g_mul val old_message) (v_gaussian v))));
    ret (var_delta v val).

  (** [variable.gaussian / variable.messages[&id]]. *)
  Definition var_cavity (var id : nat) : M F (Gaussian F) :=
    do v <- get_var var;
    do m <- of_option (v_messages v id);
    ret (g_div (v_gaussian v) m).
  (** Registering a factor with a variable in the factor constructors. *)
  Definition register (var id : nat) : M F unit :=
    do v <- get_var var; put_var var (var_register id v).

  (** factor_graph.rs:56-61 [struct PriorFactor]. *)
  Record PriorFactor := mkPrior { pf_id : nat; pf_variable : nat; pf_val : Gaussian F; pf_dynamic : F }.
  (** factor_graph.rs:75-79 [PriorFactor::down]. *)
  Definition prior_down (f : PriorFactor) : M F F :=
    let sigma := fhypot (g_sigma (pf_val f)) (pf_dynamic f) in
    do value <- of_option (g_with_mu_sigma (g_mu (pf_val f)) sigma);
    update_value (pf_variable f) (pf_id f) value.

  (** factor_graph.rs:82-87 [struct LikelihoodFactor]. *)
  Record LikelihoodFactor := mkLik { lf_id : nat; lf_mean : nat; lf_value : nat; lf_variance : F }.
  (** factor_graph.rs:129-131 [calc_a]. *)
  Definition lik_calc_a (f : LikelihoodFactor) (g : Gaussian F) : F :=
    frecip (ffma (lf_variance f) (g_pi g) #1).
  (** factor_graph.rs:107-116 [LikelihoodFactor::down]. *)
  Definition lik_down (f : LikelihoodFactor) : M F F :=
    do msg <- var_cavity (lf_mean f) (lf_id f);
    let a := lik_calc_a f msg in
    update_message (lf_value f) (lf_id f) (mkG (a * g_pi msg) (a * g_tau msg)).
  (** factor_graph.rs:118-127 [LikelihoodFactor::up]. *)
  Definition lik_up (f : LikelihoodFactor) : M F F :=
    do msg <- var_cavity (lf_value f) (lf_id f);
    let a := lik_calc_a f msg in
    update_message (lf_mean f) (lf_id f) (mkG (a * g_pi msg) (a * g_tau msg)).

  (** factor_graph.rs:134-139 [struct SumFactor]. *)
  Record SumFactor := mkSum { sf_id : nat; sf_sum : nat; sf_terms : list nat; sf_coeffs : list F }.
  (** factor_graph.rs:208-220: loop body of [SumFactor::update]; [div] is the cavity. *)
  Definition sum_step (acc : F * F) (x : Gaussian F * F) : F * F :=
    let '(pi_inv, mu) := acc in
    let '(div, coeff) := x in
    let mu := mu + coeff * g_mu div in
    if fis_inf pi_inv then (pi_inv, mu)
    else if g_pi div =? #0 then (finf, mu)
    else (pi_inv + fpowi coeff 2 / g_pi div, mu).
  (** factor_graph.rs:198-227 [SumFactor::update]; the messages are read from
      the same variables, so value and message are combined into the cavity. *)
  Definition sum_update (id var : nat) (vals : list nat) (coeffs : list F) : M F F :=
    do divs <- map_m vals (fun val => var_cavity val id);
    let '(pi_inv, mu) := fold_left sum_step (combine divs coeffs) (#0, #0) in
    let pi := frecip pi_inv in
    let tau := pi * mu in
    update_message var id (mkG pi tau).
  (** factor_graph.rs:161-168 [SumFactor::down]. *)
  Definition sum_down (f : SumFactor) : M F F :=
    sum_update (sf_id f) (sf_sum f) (sf_terms f) (sf_coeffs f).
  (** [vals[index] = x]. *)
  Fixpoint list_set {X} (l : list X) (index : nat) (x : X) : list X :=
    match l, index with
    | nil, _ => nil
    | _ :: l', O => x :: l'
    | y :: l', S i => y :: list_set l' i x
    end.
  (** factor_graph.rs:172-181: coefficients of the upward message. *)
  Definition sum_up_coeffs (coeffs : list F) (index : nat) (coeff : F) : list F :=
    map (fun x : nat * F =>
      if coeff =? #0 then #0
      else if Nat.eqb (fst x) index then frecip coeff
      else - snd x / coeff) (enumerate coeffs).
  (** factor_graph.rs:170-191 [SumFactor::up]. *)
  Definition sum_up (f : SumFactor) (index : nat) : M F F :=
    do coeff <- of_option (nth_error (sf_coeffs f) index);
    do var <- of_option (nth_error (sf_terms f) index);
    sum_update (sf_id f) var (list_set (sf_terms f) index (sf_sum f)) (sum_up_coeffs (sf_coeffs f) index coeff).

  (** factor_graph.rs:230-236 [struct TruncateFactor]; the boxed closures are
      the flag [tf_draw] (schedule.rs:203-214 only ever stores the draw or the
      non-draw pair). *)
  Record TruncateFactor := mkTrunc { tf_id : nat; tf_variable : nat; tf_draw : bool; tf_draw_margin : F }.
  (** factor_graph.rs:257-275 [TruncateFactor::up]. *)
  Definition trunc_up (f : TruncateFactor) : M F F :=
    do div <- var_cavity (tf_variable f) (tf_id f);
    let pi_sqrt := fsqrt (g_pi div) in
    let arg_1 := g_tau div in
    let arg_2 := tf_draw_margin f * g_pi div in
    let v := if tf_draw f then v_draw arg_1 arg_2 pi_sqrt else v_non_draw arg_1 arg_2 pi_sqrt in
    let w := if tf_draw f then w_draw arg_1 arg_2 pi_sqrt else w_non_draw arg_1 arg_2 pi_sqrt in
    let denom := #1 - w in
    let pi := g_pi div / denom in
    let tau := ffma pi_sqrt v (g_tau div) / denom in
    update_value (tf_variable f) (tf_id f) (mkG pi tau).

  (** schedule.rs:97-116 [build_rating_layer] and factor_graph.rs:64-73. *)
  Definition build_rating_layer (ratings : list (TrueSkillRating F)) (tau : F) (starting_id : nat)
    : M F (list PriorFactor) :=
    map_m (enumerate ratings) (fun x : nat * TrueSkillRating F =>
      do val <- of_option (g_with_mu_sigma (ts_rating (snd x)) (ts_uncertainty (snd x)));
      do _ <- register (fst x) (starting_id + fst x);
      ret (mkPrior (starting_id + fst x) (fst x) val tau)).

  (** schedule.rs:118-138 [build_perf_layer] and factor_graph.rs:90-105;
      [n] is the number of players. *)
  Definition build_perf_layer (n : nat) (beta : F) (starting_id : nat) : M F (list LikelihoodFactor) :=
    let beta_sq := fpowi beta 2 in
    map_m (seq 0 n) (fun i =>
      do _ <- register i (starting_id + i);
      do _ <- register (n + i) (starting_id + i);
      ret (mkLik (starting_id + i) i (n + i) beta_sq)).

  (** [l[start..end]]. *)
  Definition slice {X} (l : list X) (start stop : nat) : list X := firstn (stop - start) (skipn start l).

  (** mod.rs:1492-1503 [team_sizes]: cumulative sizes. *)
  Fixpoint team_sizes_from (acc : nat) (sizes : list nat) : list nat :=
    match sizes with
    | nil => nil
    | k :: sizes' => (acc + k)%nat :: team_sizes_from (acc + k) sizes'
    end.
  Definition team_sizes (teams : list (list (TrueSkillRating F))) : list nat :=
    team_sizes_from 0 (map (@length _) teams).

  (** Start offset of team [t]: [if team > 0 { team_sizes[team - 1] } else { 0 }]. *)
  Definition team_start (sizes : list nat) (t : nat) : nat :=
    match t with O => O | S t' => nth t' sizes O end.

  (** schedule.rs:140-166 [build_team_perf_layer] and factor_graph.rs:142-159. *)
  Definition build_team_perf_layer (n : nat) (weights : list F) (sizes : list nat) (starting_id : nat)
    : M F (list SumFactor) :=
    map_m (seq 0 (length sizes)) (fun t =>
      let start := team_start sizes t in
      let stop := nth t sizes O in
      let children := slice (seq n n) start stop in
      let coeffs := slice weights start stop in
      let id := (starting_id + t)%nat in
      do _ <- register (2 * n + t) id;
      do _ <- for_each children (fun c => register c id);
      ret (mkSum id (2 * n + t) children coeffs)).

  (** schedule.rs:168-186 [build_team_diff_layer]; [T] teams give [T-1] factors. *)
  Definition build_team_diff_layer (n T : nat) (starting_id : nat) : M F (list SumFactor) :=
    map_m (seq 0 (T - 1)) (fun x =>
      let id := (starting_id + x)%nat in
      let children := [2 * n + x; 2 * n + x + 1]%nat in
      do _ <- register (2 * n + T + x) id;
      do _ <- for_each children (fun c => register c id);
      ret (mkSum id (2 * n + T + x) children [#1; #(-1)])).

  (** schedule.rs:188-227 [build_trunc_layer] and factor_graph.rs:239-255. *)
  Definition build_trunc_layer (n : nat) (teams_and_ranks : list (list (TrueSkillRating F) * MultiTeamOutcome))
    (draw_probability beta : F) (starting_id : nat) : M F (list TruncateFactor) :=
    let T := length teams_and_ranks in
    map_m (seq 0 (T - 1)) (fun x =>
      let '(t1, r1) := nth x teams_and_ranks (nil, mto_new 0) in
      let '(t2, r2) := nth (S x) teams_and_ranks (nil, mto_new 0) in
      let size := fsum [flen t1; flen t2] in
      let draw_margin := ts_draw_margin draw_probability beta size in
      let is_draw := N.eqb (mto_rank r1) (mto_rank r2) in
      let id := (starting_id + x)%nat in
      do _ <- register (2 * n + T + x) id;
      ret (mkTrunc id (2 * n + T + x) is_draw draw_margin)).

  (** Default factors, only used to totalise in-range indexing. *)
  Definition sum_default : SumFactor := mkSum 0 0 nil nil.
  Definition trunc_default : TruncateFactor := mkTrunc 0 0 false #0.

  (** schedule.rs:62-77: one sweep of the loop, returns [delta].  With no
      difference factor [team_diff_len - 1] underflows (debug panic) or the
      indexing panics (release). *)
  Definition sweep (diffs : list SumFactor) (truncs : list TruncateFactor) : M F F :=
    match length diffs with
    | O => panic
    | 1%nat =>
      do _ <- sum_down (nth 0 diffs sum_default);
      trunc_up (nth 0 truncs trunc_default)
    | S len1 =>
      do delta <- for_fold (seq 0 len1) (fun delta x =>
        do _ <- sum_down (nth x diffs sum_default);
        do d <- trunc_up (nth x truncs trunc_default);
        do _ <- sum_up (nth x diffs sum_default) 1;
        ret (fmax delta d)) #0;
      for_fold (rev (seq 1 len1)) (fun delta x =>
        do _ <- sum_down (nth x diffs sum_default);
        do d <- trunc_up (nth x truncs trunc_default);
        do _ <- sum_up (nth x diffs sum_default) 0;
        ret (fmax delta d)) delta
    end.

  (** schedule.rs:61-81: at most [iters] sweeps, stopping when [delta <= min_delta]. *)
  Fixpoint iterate_sweeps (iters : nat) (diffs : list SumFactor) (truncs : list TruncateFactor) (min_delta : F)
    : M F unit :=
    match iters with
    | O => ret tt
    | S iters' =>
      do delta <- sweep diffs truncs;
      if delta <=? min_delta then ret tt else iterate_sweeps iters' diffs truncs min_delta
    end.

  (** schedule.rs:12-95 [run_schedule]; returns the rating layer.  The assertion
      [min_delta > 0] (line 26) is not modelled: the only caller passes the
      constant MIN_DELTA. *)
  Definition run_schedule (sizes : list nat) (teams_and_ranks : list (list (TrueSkillRating F) * MultiTeamOutcome))
    (ratings : list (TrueSkillRating F)) (weights : list F) (tau beta draw_probability min_delta : F)
    : M F (list PriorFactor) :=
    let n := length ratings in
    let T := length teams_and_ranks in
    let id := O in
    do rating_layer <- build_rating_layer ratings tau id;
    let id := (id + length rating_layer)%nat in
    do perf_layer <- build_perf_layer n beta id;
    let id := (id + length perf_layer)%nat in
    do team_perf_layer <- build_team_perf_layer n weights sizes id;
    let id := (id + length team_perf_layer)%nat in
    do _ <- for_each rating_layer prior_down;
    do _ <- for_each perf_layer lik_down;
    do _ <- for_each team_perf_layer sum_down;
    do team_diff_layer <- build_team_diff_layer n T id;
    let team_diff_len := length team_diff_layer in
    let id := (id + team_diff_len)%nat in
    do trunc_layer <- build_trunc_layer n teams_and_ranks draw_probability beta id;
    do _ <- iterate_sweeps 10 team_diff_layer trunc_layer min_delta;
    do _ <- sum_up (nth 0 team_diff_layer sum_default) 0;
    do _ <- sum_up (nth (team_diff_len - 1) team_diff_layer sum_default) 1;
    do _ <- for_each team_perf_layer (fun f => for_each (seq 0 (length (sf_terms f))) (fun x => sum_up f x));
    do _ <- for_each perf_layer lik_up;
    ret rating_layer.

  (** mod.rs:105 [MIN_DELTA]. *)
  Definition ts_min_delta : F := flit 1 10000.

  (** mod.rs:873-891: regroup the rating variables into teams. *)
  Definition read_groups (s : Store F) (layer : list PriorFactor) (sizes : list nat)
    : list (list (TrueSkillRating F)) :=
    map (fun t =>
      map (fun f => let g := v_gaussian (s (pf_variable f)) in mkTS (g_mu g) (g_sigma g))
          (slice layer (team_start sizes t) (nth t sizes O)))
        (seq 0 (length sizes)).

  (** mod.rs:766-901 [trueskill_multi_team]. *)
  Definition trueskill_multi_team (teams_and_ranks : list (list (TrueSkillRating F) * MultiTeamOutcome))
    (config : TrueSkillConfig F) (weights : option (list (list F)))
    : Res WeightError (list (list (TrueSkillRating F))) :=
    if is_empty teams_and_ranks then Ok nil
    else if existsb (fun t => is_empty (fst t)) teams_and_ranks then Ok (map fst teams_and_ranks)
    else
      match get_weights (map fst teams_and_ranks) weights with
      | Err e => Err e
      | Panic => Panic
      | Ok weights =>
        let with_pos := enumerate (combine teams_and_ranks weights) in
        let sorted := sort_by_key
          (fun v : nat * (list (TrueSkillRating F) * MultiTeamOutcome * list F) => mto_rank (snd (fst (snd v)))) with_pos in
        let sorted_teams := map (fun v : nat * (list (TrueSkillRating F) * MultiTeamOutcome * list F) => fst (snd v)) sorted in
        let sorted_weights := map (fun v : nat * (list (TrueSkillRating F) * MultiTeamOutcome * list F) => snd (snd v)) sorted in
        let flattened_ratings := concat (map fst sorted_teams) in
        let flattened_weights := concat sorted_weights in
        let sizes := team_sizes (map fst sorted_teams) in
        match run_schedule sizes sorted_teams flattened_ratings flattened_weights
                (ts_dynamics_factor config) (ts_beta config) (ts_draw_probability config) ts_min_delta
                (fun _ => var_new) with
        | None => Panic
        | Some (s, rating_layer) =>
          let groups := read_groups s rating_layer sizes in
          let unsorted := sort_by_key (fun v : nat * list (TrueSkillRating F) => N.of_nat (fst v))
                            (combine (map fst sorted) groups) in
          Ok (map snd unsorted)
        end
      end.

  (** mod.rs:285-304 [impl MultiTeamRatingSystem for TrueSkill]; a panic stays a panic. *)
  Definition ts_msys_rate (config : TrueSkillConfig F)
    (teams_and_ranks : list (list (TrueSkillRating F) * MultiTeamOutcome))
    : Res WeightError (list (list (TrueSkillRating F))) :=
    match trueskill_multi_team teams_and_ranks config None with
    | Ok r => Ok r
    | Err _ => Ok (map fst teams_and_ranks)
    | Panic => Panic
    end.
  Definition ts_msys_expected_score (config : TrueSkillConfig F) ts := ts_expected_score_multi_team ts config.
End S.
