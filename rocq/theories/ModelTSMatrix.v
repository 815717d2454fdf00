(** Model of /repo/src/trueskill/matrix.rs and of [match_quality_multi_team] in
    mod.rs.  [None] is a panic. *)
From Coq Require Import ZArith NArith List Bool Arith.PeanoNat.
From Verif Require Import Arith ModelLib ModelWengLin ModelTS.
Import ListNotations.
Local Open Scope flt_scope.

(** matrix.rs:7-11 [struct Matrix], row-major data. *)
Record Matrix (F : Type) := mkMat { m_data : list F; m_rows : nat; m_cols : nat }.
Arguments mkMat {F}. Arguments m_data {F}. Arguments m_rows {F}. Arguments m_cols {F}.

Section S.
  Context {F : Type} {A : Arith F}.

  (** matrix.rs:18-20 [get]; all uses below are in range, so the index panic is
      not modelled and the default is never read. *)
  Definition mat_get (m : Matrix F) (row col : nat) : F := nth (row * m_cols m + col) (m_data m) #0.
  (** The pattern "[Self::new(rows, cols)], then [set(i, j, f i j)] for all i, j"
      (matrix.rs:22-28 with 14-16). *)
  Definition mat_build (rows cols : nat) (f : nat -> nat -> F) : Matrix F :=
    mkMat (flat_map (fun i => map (fun j => f i j) (seq 0 cols)) (seq 0 rows)) rows cols.
  (** matrix.rs:30-36 [new_from_data]. *)
  Definition mat_from_data (data : list F) (rows cols : nat) : Matrix F := mkMat data rows cols.
  (** matrix.rs:38-46 [new_diagonal]. *)
  Definition mat_diagonal (data : list F) : Matrix F :=
    mat_build (length data) (length data) (fun i j => if Nat.eqb i j then nth i data #0 else #0).
  (** matrix.rs:90-100 [transpose]. *)
  Definition mat_transpose (m : Matrix F) : Matrix F :=
    mat_build (m_cols m) (m_rows m) (fun j i => mat_get m i j).

  (** matrix.rs:62-81: rows of the rotated A matrix, one per pair of
      neighbouring teams; [prev] players precede the first team of [tw]. *)
  Fixpoint rotated_rows (total prev : nat) (tw : list (list F)) : list F :=
    match tw with
    | w1 :: ((w2 :: _) as tw') =>
      repeat #0 prev ++ w1 ++ map fneg w2
        ++ repeat #0 (total - (prev + length w1) - length w2)
        ++ rotated_rows total (prev + length w1) tw'
    | _ => nil
    end.
  (** matrix.rs:48-88 [create_rotated_a_matrix]; [get_weights] guarantees that
      each team has as many weights as players, so the rows are taken from the
      weights. *)
  Definition create_rotated_a_matrix (teams : list (list (TrueSkillRating F))) (weights : option (list (list F)))
    : Res WeightError (Matrix F) :=
    match get_weights teams weights with
    | Err e => Err e
    | Panic => Panic
    | Ok team_weights =>
      let total_players := list_sum (map (@length _) teams) in
      Ok (mat_from_data (rotated_rows total_players 0 team_weights) (length teams - 1) total_players)
    end.

  (** matrix.rs:119-135 [minor]. *)
  Definition mat_minor (m : Matrix F) (row col : nat) : Matrix F :=
    mat_build (m_rows m - 1) (m_cols m - 1)
      (fun i j => mat_get m (if Nat.ltb i row then i else S i) (if Nat.ltb j col then j else S j)).

  (** matrix.rs:103-117 [determinant] of a square matrix with [n] rows. *)
  Fixpoint mat_det (n : nat) (m : Matrix F) : F :=
    match n with
    | O => #0
    | S n' =>
      match n' with
      | O => mat_get m 0 0
      | _ => fold_left fadd
               (map (fun i => mat_get m 0 i * mat_det n' (mat_minor m 0 i) * fpowi (#(-1)) (Z.of_nat i))
                    (seq 0 (m_rows m))) #0
      end
    end.
  (** matrix.rs:103-117 [determinant] with its assertion. *)
  Definition mat_determinant (m : Matrix F) : option F :=
    if Nat.eqb (m_rows m) (m_cols m) then Some (mat_det (m_rows m) m) else None.

  (** matrix.rs:138-152 [adjugate] (of a square matrix). *)
  Definition mat_adjugate (m : Matrix F) : Matrix F :=
    mat_build (m_rows m) (m_cols m)
      (fun i j => mat_det (m_rows m - 1) (mat_minor m j i) * fpowi (#(-1)) (Z.of_nat (i + j))).

  (** matrix.rs:206-220 [Mul<f64>]. *)
  Definition mat_scale (m : Matrix F) (x : F) : Matrix F :=
    mat_build (m_rows m) (m_cols m) (fun i j => mat_get m i j * x).

  (** matrix.rs:154-161 [inverse]. *)
  Definition mat_inverse (m : Matrix F) : option (Matrix F) :=
    match mat_determinant m with
    | None => None
    | Some det => if det =? #0 then None else Some (mat_scale (mat_adjugate m) (frecip det))
    end.

  (** matrix.rs:164-204 [Mul], including the fallback that multiplies the
      transposes when the inner dimensions do not match. *)
  Definition mat_mul (a b : Matrix F) : option (Matrix F) :=
    if Nat.eqb (m_cols a) (m_rows b) then
      Some (mat_build (m_rows a) (m_cols b) (fun i j =>
        fold_left fadd (map (fun k => mat_get a i k * mat_get b k j) (seq 0 (m_cols a))) #0))
    else if Nat.eqb (m_rows a) (m_cols b) then
      Some (mat_build (m_cols a) (m_rows b) (fun i j =>
        fold_left fadd (map (fun k => mat_get a k i * mat_get b j k) (seq 0 (m_rows a))) #0))
    else None.

  (** matrix.rs:222-245 [Add]. *)
  Definition mat_add (a b : Matrix F) : option (Matrix F) :=
    if Nat.eqb (m_rows a) (m_rows b) && Nat.eqb (m_cols a) (m_cols b) then
      Some (mat_build (m_rows a) (m_cols a) (fun i j => mat_get a i j + mat_get b i j))
    else None.

  Definition obind {X Y} (o : option X) (f : X -> option Y) : option Y :=
    match o with Some x => f x | None => None end.

  (** mod.rs:1145-1161: the matrix part of [match_quality_multi_team]. *)
  Definition quality_of_matrices (rotated_a mean_matrix variance_matrix : Matrix F) (beta : F) : option F :=
    let a_matrix := mat_transpose rotated_a in
    obind (mat_mul rotated_a a_matrix) (fun ra =>
    let a_ta := mat_scale ra (fpowi beta 2) in
    obind (mat_mul rotated_a variance_matrix) (fun rv =>
    obind (mat_mul rv a_matrix) (fun atsa =>
    obind (mat_mul a_matrix (mat_transpose mean_matrix)) (fun start =>
    obind (mat_add a_ta atsa) (fun middle =>
    obind (mat_mul rotated_a mean_matrix) (fun end_ =>
    obind (mat_inverse middle) (fun inv =>
    obind (mat_mul start inv) (fun si =>
    obind (mat_mul si end_) (fun sie =>
    obind (mat_determinant (mat_scale sie (flit (-5) 10))) (fun e_arg =>
    obind (mat_determinant a_ta) (fun d1 =>
    obind (mat_determinant middle) (fun d2 =>
    let s_arg := d1 / d2 in
    Some (fexp e_arg * fsqrt s_arg))))))))))))).

  (** mod.rs:1115-1162 [match_quality_multi_team]. *)
  Definition match_quality_multi_team (teams : list (list (TrueSkillRating F))) (config : TrueSkillConfig F)
    (weights : option (list (list F))) : Res WeightError F :=
    if is_empty teams then Ok #0
    else if existsb is_empty teams then Ok #0
    else
      let total_players := list_sum (map (@length _) teams) in
      let usq := flat_map (fun team => map (fun p => fpowi (ts_uncertainty p) 2) team) teams in
      let ratings := flat_map (fun team => map ts_rating team) teams in
      let mean_matrix := mat_from_data ratings total_players 1 in
      let variance_matrix := mat_diagonal usq in
      match create_rotated_a_matrix teams weights with
      | Err e => Err e
      | Panic => Panic
      | Ok rotated_a =>
        match quality_of_matrices rotated_a mean_matrix variance_matrix (ts_beta config) with
        | Some q => Ok q
        | None => Panic
        end
      end.
End S.
