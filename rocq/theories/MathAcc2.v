(** Decimal literals in double precision. *)
From Coq Require Import ZArith List Bool Reals Lra Lia Psatz.
From Flocq Require Import Core.Core IEEE754.BinarySingleNaN.
From Verif Require Import B64 MathB64 MathAcc.
Local Open Scope R_scope.

Lemma lit_aux H1 H2 s m d (q := IZR (SpecFloat.cond_Zopp s (Zpos m)) / IZR (Zpos d)) :
  let x : B64 := SF2B _ (proj1 (Bdiv_correct_aux 53 1024 H1 H2 mode_NE s m 0 false d 0)) in
  nn x /\ ext x = rnd q.
Proof.
  intros x. pose proof (proj2 (Bdiv_correct_aux 53 1024 H1 H2 mode_NE s m 0 false d 0)) as C. cbv zeta in C.
  assert (EQ : F2R (beta := radix2) {| Fnum := SpecFloat.cond_Zopp s (Zpos m); Fexp := 0 |} / F2R (beta := radix2) {| Fnum := SpecFloat.cond_Zopp false (Zpos d); Fexp := 0 |} = q).
  { unfold F2R, q. simpl. rewrite !Rmult_1_r. reflexivity. }
  rewrite EQ in C. clear EQ. change (round radix2 fexp64 (round_mode mode_NE) q) with (rnd0 q) in C. fold M64 in C.
  apply (ext_of_correct x q s). destruct (Rlt_bool (Rabs (rnd0 q)) M64).
  - destruct C as [C1 [C2 _]]. split; [unfold x; rewrite B2R_SF2B; exact C1|unfold fin, x; rewrite is_finite_SF2B; exact C2].
  - split; [unfold x; rewrite B2SF_SF2B; rewrite C; destruct s; reflexivity|]. unfold q.
    assert (P : 0 < / IZR (Zpos d)) by (apply Rinv_0_lt_compat, IZR_lt; lia). unfold Rdiv.
    assert (Q : 0 < IZR (Zpos m)) by (apply IZR_lt; lia). destruct s; simpl; [change (IZR (Z.neg m)) with (- IZR (Zpos m))|]; nra.
Qed.
Lemma lit_ap m d B : (m <> 0)%Z -> (0 < d)%Z -> Rabs (IZR m / IZR d) <= B -> / 10 ^ 200 <= B <= 10 ^ 200 -> ap (b64_lit m d) (IZR m / IZR d) (u0 * B).
Proof.
  intros Hm Hd HB Hb. assert (H : nn (b64_lit m d) /\ ext (b64_lit m d) = rnd (IZR m / IZR d)).
  { destruct d as [|d|d]; try lia. destruct m as [|m|m]; try lia; [apply (lit_aux _ _ false m d)|apply (lit_aux _ _ true m d)]. }
  destruct H as [N E]. rewrite <- (Rplus_0_l (u0 * B)). apply (ap_rnd _ _ _ 0 B N E); try lra. rewrite Rminus_diag_eq by reflexivity. rewrite Rabs_R0. lra.
Qed.
