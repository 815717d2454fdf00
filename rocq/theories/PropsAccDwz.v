(** Property theorems in IEEE-754 double precision, continued: the first DWZ
    (C104) and DWZ games and rating periods (C105). *)
From Coq Require Import ZArith NArith List Bool Reals Lra Lia.
From Flocq Require Import Core.Raux IEEE754.BinarySingleNaN.
From Verif Require Import Arith XR B64 SpecB64 SpecAcc SpecAcc2 ModelLib Spec Tac ModelDwz
  MathB64 ProofB64 ProofB64c ProofB64g ProofAccDwz ProofAccDwz2.
Import ListNotations.
Local Open Scope R_scope.

(** C104: which error is returned; the value, with the four percentages that the
    code rounds down although the exact half rounds up; and such a case. *)
Theorem C104_f64_first_dwz_errors : forall L age (rs : list (DWZRating B64 * Outcomes)), (Z.of_nat (length rs) <= 10 ^ 6)%Z ->
  let g := get_first_dwz (A := B64A L) age rs in
  (g = Err NotEnoughGames <-> (length rs < 5)%nat) /\
  (g = Err InvalidWinRate <-> (5 <= length rs)%nat /\ (Forall (fun r => snd r = WIN) rs \/ Forall (fun r => snd r = LOSS) rs)) /\
  ((exists d, g = Ok d) <-> (5 <= length rs)%nat /\ ~ (Forall (fun r => snd r = WIN) rs \/ Forall (fun r => snd r = LOSS) rs)).
Proof. exact C104_errors_proof. Qed.
Print Assumptions C104_f64_first_dwz_errors.
Theorem C104_f64_first_dwz : forall L age (rs : list (DWZRating B64 * Outcomes)), (5 <= length rs <= 1000)%nat ->
  Forall (fun g => num_in (- 10 ^ 4) (10 ^ 4) (dwz_rating (fst g))) rs ->
  ~ (Forall (fun g => snd g = WIN) rs \/ Forall (fun g => snd g = LOSS) rs) ->
  let X := Rsum (map (fun g => points (snd g)) rs) / INR (length rs) * 100 in
  let low := X = 14.5 \/ X = 28.5 \/ X = 56.5 \/ X = 57.5 in
  exists p x, (low -> IZR p = Rround X - 1) /\ (~ low -> IZR p = Rround X) /\ get_first_dwz (A := B64A L) age rs = Ok (mkDwz x 1 age) /\
    near x (dwz_revise (Rsum (map (fun g => B2R (dwz_rating (fst g))) rs) / INR (length rs) + IZR (dwz_T p))) (2 / 10 ^ 9).
Proof. exact C104_first_proof. Qed.
Print Assumptions C104_f64_first_dwz.
Theorem C104_f64_first_dwz_half : exists (rs : list (DWZRating B64 * Outcomes)) x p, length rs = 20%nat /\
  Forall (fun g => finite (dwz_rating (fst g)) /\ B2R (dwz_rating (fst g)) = 1500) rs /\
  let X := Rsum (map (fun g => points (snd g)) rs) / INR (length rs) * 100 in
  X = 57.5 /\ IZR p = Rround X /\ dwz_revise (1500 + IZR (dwz_T p)) = 1554 /\
  (forall L age, get_first_dwz (A := B64A L) age rs = Ok (mkDwz x 1 age)) /\ finite x /\ B2R x = 1547.
Proof. exact C104_half_proof. Qed.
Print Assumptions C104_f64_first_dwz_half.

(** C105: one game, one rating period. *)
Theorem C105_f64_dwz_game : forall L r1 i1 a1 r2 i2 a2 o, pow10_accurate L -> expm1_accurate L -> expm1_nonneg L -> num_in 0 4000 r1 -> num_in 0 4000 r2 -> (1 <= i1)%N -> (1 <= i2)%N ->
  let '(q1, q2) := dwz (A := B64A L) (mkDwz r1 i1 a1) (mkDwz r2 i2 a2) o in
  let R1 := B2R r1 in let R2 := B2R r2 in
  near (dwz_rating q1) (dwz_upd R1 (dwz_E R1 a1 (points o) (elo_E R1 R2) (IZR (Z.of_N i1))) 1 (points o) (elo_E R1 R2)) (/ 10 ^ 8) /\
  near (dwz_rating q2) (dwz_upd R2 (dwz_E R2 a2 (points (invert o)) (elo_E R2 R1) (IZR (Z.of_N i2))) 1 (points (invert o)) (elo_E R2 R1)) (/ 10 ^ 8).
Proof. exact C105_game_proof. Qed.
Print Assumptions C105_f64_dwz_game.
Theorem C105_f64_dwz_period : forall L r i a (rs : list (DWZRating B64 * Outcomes)), pow10_accurate L -> expm1_accurate L -> expm1_nonneg L -> num_in 0 4000 r -> (1 <= i)%N ->
  Forall (fun g => num_in 0 4000 (dwz_rating (fst g))) rs -> (1 <= length rs <= 1000)%nat ->
  let R0 := B2R r in
  let S := Rsum (map (fun g => points (snd g)) rs) in
  let We := Rsum (map (fun g => elo_E R0 (B2R (dwz_rating (fst g)))) rs) in
  near (dwz_rating (dwz_rating_period (A := B64A L) (mkDwz r i a) rs)) (dwz_upd R0 (dwz_E R0 a S We (IZR (Z.of_N i))) (INR (length rs)) S We) (/ 10 ^ 8).
Proof. exact C105_period_proof. Qed.
Print Assumptions C105_f64_dwz_period.

(** Five opponents rated 1300 to 1700 with three wins and a draw: 70 percent. *)
Example C104_case : let rs := [(mkDwz (b64_of_Z 1300) 3 20, WIN); (mkDwz (b64_of_Z 1400) 3 20, WIN); (mkDwz (b64_of_Z 1500) 3 20, LOSS);
    (mkDwz (b64_of_Z 1600) 3 20, DRAW); (mkDwz (b64_of_Z 1700) 3 20, WIN)] in
  (5 <= length rs <= 1000)%nat /\ Forall (fun g => num_in (- 10 ^ 4) (10 ^ 4) (dwz_rating (fst g))) rs /\
  ~ (Forall (fun g => snd g = WIN) rs \/ Forall (fun g => snd g = LOSS) rs) /\
  forall k : Z, Rsum (map (fun g => points (snd g)) rs) / INR (length rs) * 100 <> IZR k + 1 / 2.
Proof.
  assert (H : forall z, (Z.abs z <= 10 ^ 4)%Z -> num_in (- 10 ^ 4) (10 ^ 4) (b64_of_Z z)).
  { intros z Hz. destruct (ext_ofZ z ltac:(lia)) as [F E]. split; [exact F|]. rewrite <- (ext_fin _ F), E. split; [apply Rle_trans with (IZR (- 10 ^ 4))|apply Rle_trans with (IZR (10 ^ 4))]; try (apply IZR_le; lia); simpl; lra. }
  split; [simpl; lia|]. split; [repeat (apply Forall_cons; [apply H; vm_compute; discriminate|]); apply Forall_nil|]. split.
  - intros [Q|Q]; rewrite Forall_forall in Q.
    + discriminate (Q (mkDwz (b64_of_Z 1500) 3%N 20%N, LOSS) (or_intror (or_intror (or_introl eq_refl)))).
    + discriminate (Q (mkDwz (b64_of_Z 1300) 3%N 20%N, WIN) (or_introl eq_refl)).
  - intros k Q. unfold Rsum in Q. cbn [map fold_right snd points length] in Q. replace (INR 5) with 5 in Q by (simpl; lra). assert (Q' : 140 = 2 * IZR k + 1) by lra. rewrite <- mult_IZR, <- plus_IZR in Q'. apply eq_IZR in Q'. lia.
Qed.
(** The correctly rounded libm meets the contracts of C105. *)
Example C105_libm_case : pow10_accurate libm_rounded /\ expm1_accurate libm_rounded /\ expm1_nonneg libm_rounded.
Proof. exact (conj libm_pow_accurate (conj libm_expm1_accurate libm_expm1)). Qed.
(** A braked player (rated 1000) against one rated 1500 who is young enough to be accelerated. *)
Example C105_case : num_in 0 4000 (b64_of_Z 1000) /\ num_in 0 4000 (b64_of_Z 1500) /\ (1 <= 3)%N /\
  dwz_brakes (B2R (b64_of_Z 1000)) (points LOSS) (elo_E (B2R (b64_of_Z 1000)) (B2R (b64_of_Z 1500))).
Proof.
  destruct (ext_ofZ 1000 ltac:(vm_compute; discriminate)) as [F1 E1]. destruct (ext_ofZ 1500 ltac:(vm_compute; discriminate)) as [F2 E2]. rewrite (ext_fin _ F1) in E1. rewrite (ext_fin _ F2) in E2.
  split; [split; [exact F1|lra]|]. split; [split; [exact F2|lra]|]. split; [lia|]. split; [lra|]. simpl. unfold elo_E, Rdiv. rewrite Rmult_1_l. left. apply Rinv_0_lt_compat. unfold Rpower. match goal with |- 0 < 1 + exp ?t => pose proof (exp_pos t) end. lra.
Qed.
