(** The reference number system: extended reals without rounding.

    [Fin r] is a finite number, [Inf false]/[Inf true] are +inf/-inf, [NaN] is
    not-a-number.  Infinities and NaN follow IEEE-754; there is a single zero,
    which counts as +0 as a divisor. *)
From Coq Require Import ZArith NArith List Bool Reals Lra Lia Permutation.
From Flocq Require Import Core.Raux.
From Verif Require Import Arith.
Import ListNotations.
Local Open Scope R_scope.

Inductive XR := Fin (r : R) | Inf (neg : bool) | NaN.

Definition Rltb (a b : R) : bool := if Rlt_dec a b then true else false.
Definition Rleb (a b : R) : bool := if Rle_dec a b then true else false.
Definition Reqb (a b : R) : bool := if Req_EM_T a b then true else false.

Definition xneg (a : XR) : XR :=
  match a with Fin x => Fin (- x) | Inf s => Inf (negb s) | NaN => NaN end.
Definition xadd (a b : XR) : XR :=
  match a, b with
  | Fin x, Fin y => Fin (x + y)
  | Fin _, Inf s => Inf s
  | Inf s, Fin _ => Inf s
  | Inf s, Inf t => if eqb s t then Inf s else NaN
  | _, _ => NaN
  end.
Definition xsub (a b : XR) : XR :=
  match a, b with
  | Fin x, Fin y => Fin (x - y)
  | _, _ => xadd a (xneg b)
  end.
Definition xmul (a b : XR) : XR :=
  match a, b with
  | Fin x, Fin y => Fin (x * y)
  | Fin x, Inf s | Inf s, Fin x => if Reqb x 0 then NaN else Inf (xorb s (Rltb x 0))
  | Inf s, Inf t => Inf (xorb s t)
  | _, _ => NaN
  end.
Definition xdiv (a b : XR) : XR :=
  match a, b with
  | Fin x, Fin y =>
    if Reqb y 0 then (if Reqb x 0 then NaN else Inf (Rltb x 0)) else Fin (x / y)
  | Fin _, Inf _ => Fin 0
  | Inf s, Fin y => Inf (xorb s (Rltb y 0))
  | _, _ => NaN
  end.
Definition xabs (a : XR) : XR :=
  match a with Fin x => Fin (Rabs x) | Inf _ => Inf false | NaN => NaN end.
Definition xsqrt (a : XR) : XR :=
  match a with
  | Fin x => if Rltb x 0 then NaN else Fin (sqrt x)
  | Inf false => Inf false
  | _ => NaN
  end.
Definition xexp (a : XR) : XR :=
  match a with Fin x => Fin (exp x) | Inf false => Inf false | Inf true => Fin 0 | NaN => NaN end.
Definition xln (a : XR) : XR :=
  match a with
  | Fin x => if Rltb 0 x then Fin (ln x) else if Reqb x 0 then Inf true else NaN
  | Inf false => Inf false
  | _ => NaN
  end.
Definition xpow (a b : XR) : XR :=
  match a, b with
  | Fin x, Fin y =>
    if Reqb y 0 then Fin 1
    else if Rltb 0 x then Fin (Rpower x y)
    else if Reqb x 0 then (if Rltb 0 y then Fin 0 else Inf false)
    else if Reqb y (IZR (Ztrunc y)) then Fin (powerRZ x (Ztrunc y)) else NaN
  | Fin x, Inf s =>
    if Reqb (Rabs x) 1 then Fin 1
    else if Bool.eqb (Rltb 1 (Rabs x)) s then Fin 0 else Inf false
  | Fin x, NaN => if Reqb x 1 then Fin 1 else NaN
  | Inf s, Fin y =>
    if Reqb y 0 then Fin 1
    else if Rltb y 0 then Fin 0
    else if s && Reqb y (IZR (Ztrunc y)) && Z.odd (Ztrunc y) then Inf true else Inf false
  | Inf _, Inf t => if t then Fin 0 else Inf false
  | Inf _, NaN => NaN
  | NaN, Fin y => if Reqb y 0 then Fin 1 else NaN
  | NaN, _ => NaN
  end.
Definition xhypot (a b : XR) : XR :=
  match a, b with
  | Fin x, Fin y => Fin (sqrt (x * x + y * y))
  | Inf _, _ | _, Inf _ => Inf false
  | _, _ => NaN
  end.
Definition xltb (a b : XR) : bool :=
  match a, b with
  | Fin x, Fin y => Rltb x y
  | Fin _, Inf s => negb s
  | Inf s, Fin _ => s
  | Inf s, Inf t => s && negb t
  | _, _ => false
  end.
Definition xleb (a b : XR) : bool :=
  match a, b with
  | Fin x, Fin y => Rleb x y
  | Fin _, Inf s => negb s
  | Inf s, Fin _ => s
  | Inf s, Inf t => s || negb t
  | _, _ => false
  end.
Definition xeqb (a b : XR) : bool :=
  match a, b with
  | Fin x, Fin y => Reqb x y
  | Inf s, Inf t => Bool.eqb s t
  | _, _ => false
  end.
Definition xmin (a b : XR) : XR :=
  match a, b with
  | NaN, _ => b
  | _, NaN => a
  | _, _ => if xleb a b then a else b
  end.
Definition xmax (a b : XR) : XR :=
  match a, b with
  | NaN, _ => b
  | _, NaN => a
  | _, _ => if xleb a b then b else a
  end.
(** Round half away from zero. *)
Definition Rround (x : R) : R :=
  if Rleb 0 x then IZR (Zfloor (x + /2)) else - IZR (Zfloor (- x + /2)).
Definition xround (a : XR) : XR := match a with Fin x => Fin (Rround x) | _ => a end.
Definition i64_min : Z := (- 2 ^ 63)%Z.
Definition i64_max : Z := (2 ^ 63 - 1)%Z.
Definition xtoZ (a : XR) : Z :=
  match a with
  | Fin x => Z.max i64_min (Z.min i64_max (Ztrunc x))
  | Inf true => i64_min
  | Inf false => i64_max
  | NaN => 0%Z
  end.

#[global] Instance XRA : Arith XR := {|
  fadd := xadd; fsub := xsub; fmul := xmul; fdiv := xdiv;
  ffma := fun a b c => xadd (xmul a b) c;
  fneg := xneg; fabs := xabs; fsqrt := xsqrt; fexp := xexp; fln := xln;
  fexpm1 := fun a => xsub (xexp a) (Fin 1);
  fln1p := fun a => xln (xadd (Fin 1) a);
  fpow := xpow; fhypot := xhypot; fmin := xmin; fmax := xmax; fround := xround;
  fltb := xltb; fleb := xleb; feqb := xeqb;
  fis_inf := fun a => match a with Inf _ => true | _ => false end;
  fis_nan := fun a => match a with NaN => true | _ => false end;
  fsignneg := fun a => match a with Fin x => Rltb x 0 | Inf s => s | NaN => false end;
  ftoZ := xtoZ;
  fofZ := fun z => Fin (IZR z);
  flit := fun m d => Fin (IZR m / IZR d);
  finf := Inf false;
  fpi := Fin PI;
  fsqrt2 := Fin (sqrt 2);
  ffrac1sqrt2 := Fin (/ sqrt 2);
  ffrac2sqrtpi := Fin (2 / sqrt PI);
  feps := Fin (/ 2 ^ 52);
  fminpos := Fin (/ 2 ^ 1022);
  fsum0 := Fin 0
|}.

(** ** Boolean tests *)
Lemma Rltb_spec a b : reflect (a < b) (Rltb a b).
Proof. unfold Rltb; destruct (Rlt_dec a b); constructor; auto. Qed.
Lemma Rleb_spec a b : reflect (a <= b) (Rleb a b).
Proof. unfold Rleb; destruct (Rle_dec a b); constructor; auto. Qed.
Lemma Reqb_spec a b : reflect (a = b) (Reqb a b).
Proof. unfold Reqb; destruct (Req_EM_T a b); constructor; auto. Qed.
Lemma Rltb_true a b : a < b -> Rltb a b = true.
Proof. destruct (Rltb_spec a b); auto; contradiction. Qed.
Lemma Rltb_false a b : b <= a -> Rltb a b = false.
Proof. destruct (Rltb_spec a b); auto; lra. Qed.
Lemma Rleb_true a b : a <= b -> Rleb a b = true.
Proof. destruct (Rleb_spec a b); auto; contradiction. Qed.
Lemma Rleb_false a b : b < a -> Rleb a b = false.
Proof. destruct (Rleb_spec a b); auto; lra. Qed.
Lemma Reqb_true a b : a = b -> Reqb a b = true.
Proof. destruct (Reqb_spec a b); auto; contradiction. Qed.
Lemma Reqb_false a b : a <> b -> Reqb a b = false.
Proof. destruct (Reqb_spec a b); auto; contradiction. Qed.

(** ** Evaluation rules on finite numbers *)
Section Eval.
  Local Open Scope flt_scope.
  Lemma xr_add a b : Fin a + Fin b = Fin (a + b)%R. Proof. reflexivity. Qed.
  Lemma xr_sub a b : Fin a - Fin b = Fin (a - b)%R. Proof. reflexivity. Qed.
  Lemma xr_mul a b : Fin a * Fin b = Fin (a * b)%R. Proof. reflexivity. Qed.
  Lemma xr_fma a b c : ffma (Fin a) (Fin b) (Fin c) = Fin (a * b + c)%R. Proof. reflexivity. Qed.
  Lemma xr_neg a : - Fin a = Fin (- a)%R. Proof. reflexivity. Qed.
  Lemma xr_abs a : fabs (Fin a) = Fin (Rabs a). Proof. reflexivity. Qed.
  Lemma xr_exp a : fexp (Fin a) = Fin (exp a). Proof. reflexivity. Qed.
  Lemma xr_expm1 a : fexpm1 (Fin a) = Fin (exp a - 1)%R. Proof. reflexivity. Qed.
  Lemma xr_ofZ z : #z = Fin (IZR z). Proof. reflexivity. Qed.
  Lemma xr_lit m d : flit m d = Fin (IZR m / IZR d)%R. Proof. reflexivity. Qed.
  Lemma xr_pi : fpi = Fin PI. Proof. reflexivity. Qed.
  Lemma xr_sqrt2 : fsqrt2 = Fin (sqrt 2). Proof. reflexivity. Qed.
  Lemma xr_frac1sqrt2 : ffrac1sqrt2 = Fin (/ sqrt 2)%R. Proof. reflexivity. Qed.
  Lemma xr_frac2sqrtpi : ffrac2sqrtpi = Fin (2 / sqrt PI)%R. Proof. reflexivity. Qed.
  Lemma xr_sum0 : fsum0 = Fin 0. Proof. reflexivity. Qed.
  Lemma xr_ltb a b : (Fin a <? Fin b) = Rltb a b. Proof. reflexivity. Qed.
  Lemma xr_leb a b : (Fin a <=? Fin b) = Rleb a b. Proof. reflexivity. Qed.
  Lemma xr_eqb a b : (Fin a =? Fin b) = Reqb a b. Proof. reflexivity. Qed.
  Lemma xr_round a : fround (Fin a) = Fin (Rround a). Proof. reflexivity. Qed.
  Lemma xr_hypot a b : fhypot (Fin a) (Fin b) = Fin (sqrt (a * a + b * b))%R. Proof. reflexivity. Qed.
  Lemma xr_powi2 a : fpowi (Fin a) 2 = Fin (a * a)%R. Proof. reflexivity. Qed.
  Lemma xr_powi1 a : fpowi (Fin a) 1 = Fin a. Proof. reflexivity. Qed.
  Lemma xr_powi0 a : fpowi (Fin a) 0 = Fin 1. Proof. reflexivity. Qed.
  Lemma xr_powi4 a : fpowi (Fin a) 4 = Fin (a * a * (a * a))%R. Proof. reflexivity. Qed.
  Lemma xr_powi3 a : fpowi (Fin a) 3 = Fin (a * (a * a))%R. Proof. reflexivity. Qed.
  Lemma xr_min a b : fmin (Fin a) (Fin b) = Fin (Rmin a b).
  Proof. cbn. unfold Rmin, Rleb. destruct (Rle_dec a b); auto. Qed.
  Lemma xr_max a b : fmax (Fin a) (Fin b) = Fin (Rmax a b).
  Proof. cbn. unfold Rmax, Rleb. destruct (Rle_dec a b); auto. Qed.
  Lemma xr_div a b : b <> 0%R -> Fin a / Fin b = Fin (a / b)%R.
  Proof. intros H; cbn. now rewrite (Reqb_false b 0 H). Qed.
  Lemma xr_recip a : a <> 0%R -> frecip (Fin a) = Fin (/ a)%R.
  Proof. intros H; unfold frecip. rewrite xr_ofZ, xr_div by assumption. f_equal; unfold Rdiv; ring. Qed.
  Lemma xr_sqrt a : (0 <= a)%R -> fsqrt (Fin a) = Fin (sqrt a).
  Proof. intros H; cbn. now rewrite (Rltb_false a 0 H). Qed.
  Lemma xr_ln a : (0 < a)%R -> fln (Fin a) = Fin (ln a).
  Proof. intros H; cbn. now rewrite (Rltb_true 0 a H). Qed.
  Lemma xr_ln1p a : (0 < 1 + a)%R -> fln1p (Fin a) = Fin (ln (1 + a)).
  Proof. intros H; cbn. now rewrite (Rltb_true _ _ H). Qed.
  Lemma xr_pow a b : (0 < a)%R -> fpow (Fin a) (Fin b) = Fin (Rpower a b).
  Proof.
    intros H; cbn. destruct (Reqb_spec b 0) as [->|].
    - now rewrite Rpower_O.
    - now rewrite (Rltb_true _ _ H).
  Qed.
  Lemma xr_powpos a p : fpowpos (Fin a) p = Fin (a ^ Pos.to_nat p)%R.
  Proof.
    revert a; induction p as [p IH|p IH|]; intros a; cbn [fpowpos].
    - rewrite xr_mul, IH, xr_mul, Pos2Nat.inj_xI, <- tech_pow_Rmult, pow_mult.
      replace (a * a)%R with (a ^ 2)%R by (cbn; ring). reflexivity.
    - rewrite xr_mul, IH, Pos2Nat.inj_xO, pow_mult.
      replace (a * a)%R with (a ^ 2)%R by (cbn; ring). reflexivity.
    - change (Pos.to_nat 1) with 1%nat. rewrite pow_1. reflexivity.
  Qed.
  Lemma xr_powim2 a : a <> 0%R -> fpowi (Fin a) (-2) = Fin (/ (a * a))%R.
  Proof.
    intros H. change (frecip (Fin a * Fin a) = Fin (/ (a * a))%R).
    rewrite xr_mul, xr_recip; [reflexivity|]. now apply Rmult_integral_contrapositive_currified.
  Qed.
  Lemma xr_powim1 a : a <> 0%R -> fpowi (Fin a) (-1) = Fin (/ a)%R.
  Proof. intros H. change (frecip (Fin a) = Fin (/ a)%R). now rewrite xr_recip. Qed.
End Eval.
#[global] Hint Rewrite xr_add xr_sub xr_mul xr_fma xr_neg xr_abs xr_exp xr_expm1 xr_ofZ xr_lit xr_pi
  xr_sqrt2 xr_frac1sqrt2 xr_frac2sqrtpi xr_sum0 xr_ltb xr_leb xr_eqb xr_round xr_hypot
  xr_powi2 xr_powi3 xr_powi4 xr_powi1 xr_powi0 xr_min xr_max : xr.

(** Sums of finite numbers. *)
Definition Rsum (l : list R) : R := fold_right Rplus 0 l.
Lemma Rsum_nil : Rsum [] = 0.
Proof. reflexivity. Qed.
Lemma Rsum_cons x l : Rsum (x :: l) = x + Rsum l.
Proof. reflexivity. Qed.
Lemma xr_fold_add l a : fold_left fadd (map Fin l) (Fin a) = Fin (a + Rsum l).
Proof.
  revert a; induction l as [|x l IH]; intros a; cbn [map fold_left].
  - rewrite Rsum_nil; f_equal; ring.
  - rewrite xr_add, IH, Rsum_cons. f_equal; ring.
Qed.
Lemma xr_sum l : fsum (map Fin l) = Fin (Rsum l).
Proof. unfold fsum. rewrite xr_sum0, xr_fold_add. f_equal; ring. Qed.
Lemma xr_sum_map {X} (f : X -> XR) (g : X -> R) l :
  (forall x, In x l -> f x = Fin (g x)) -> fsum (map f l) = Fin (Rsum (map g l)).
Proof.
  intros H. rewrite <- xr_sum. f_equal. rewrite map_map.
  apply map_ext_in; auto.
Qed.
Lemma Rsum_app l1 l2 : Rsum (l1 ++ l2) = Rsum l1 + Rsum l2.
Proof. induction l1 as [|x l1 IH]; cbn [app]; rewrite ?Rsum_cons, ?Rsum_nil; [ring|]. rewrite IH; ring. Qed.
Lemma Rsum_perm l1 l2 : Permutation l1 l2 -> Rsum l1 = Rsum l2.
Proof. induction 1; rewrite ?Rsum_cons; lra. Qed.
Lemma Rsum_nonneg l : (forall x, In x l -> 0 <= x) -> 0 <= Rsum l.
Proof.
  induction l as [|x l IH]; intros H; [cbn; lra|]. rewrite Rsum_cons.
  assert (0 <= x) by (apply H; now left). assert (0 <= Rsum l) by (apply IH; intros; apply H; now right). lra.
Qed.
Lemma Rsum_pos l : l <> [] -> (forall x, In x l -> 0 < x) -> 0 < Rsum l.
Proof.
  destruct l as [|x l]; [congruence|]; intros _ H. rewrite Rsum_cons.
  assert (0 < x) by (apply H; now left).
  assert (0 <= Rsum l) by (apply Rsum_nonneg; intros; apply Rlt_le, H; now right). lra.
Qed.
Lemma Rsum_map_scal {X} c (f : X -> R) l : Rsum (map (fun x => c * f x) l) = c * Rsum (map f l).
Proof. induction l as [|x l IH]; cbn [map]; rewrite ?Rsum_cons, ?Rsum_nil; [ring|]. rewrite IH; ring. Qed.
Lemma Rsum_map_plus {X} (f g : X -> R) l : Rsum (map (fun x => f x + g x) l) = Rsum (map f l) + Rsum (map g l).
Proof. induction l as [|x l IH]; cbn [map]; rewrite ?Rsum_cons, ?Rsum_nil; [ring|]. rewrite IH; ring. Qed.
Lemma Rsum_map_le {X} (f g : X -> R) l : (forall x, In x l -> f x <= g x) -> Rsum (map f l) <= Rsum (map g l).
Proof.
  induction l as [|x l IH]; intros H; cbn [map]; rewrite ?Rsum_cons, ?Rsum_nil; [lra|].
  assert (f x <= g x) by (apply H; now left). assert (Rsum (map f l) <= Rsum (map g l)) by (apply IH; intros; apply H; now right). lra.
Qed.

(** [isfin x]: x is a finite number. *)
Definition isfin (x : XR) : Prop := exists r, x = Fin r.
(** The finite value (0 otherwise). *)
Definition val (x : XR) : R := match x with Fin r => r | _ => 0 end.

Lemma Rmin_l' a b : Rmin a b <= a. Proof. apply Rmin_l. Qed.
Lemma sqrt_sq_nonneg a : 0 <= a * a. Proof. apply Rle_0_sqr. Qed.
#[global] Hint Resolve sqrt_sq_nonneg : core.
