(** Property theorems: the same result against the same opponent, for ever (C139). *)
From Coq Require Import ZArith NArith List Bool Reals Lra Lia.
From Verif Require Import Arith XR ModelLib ModelElo ModelIngo ModelUscf ModelDwz ModelGlicko ModelSticko ModelWengLin Spec SpecSettle ProofEvenly ProofEvenly2 ProofEvenly3.
Import ListNotations.
Local Open Scope R_scope.

(** C139, Ingo: any result, repeated, leads to a fixed distance from the opponent: the
    opponent's rating for draws, 50 points better (lower) for wins, 50 worse for losses. *)
Theorem C139_ingo_settles : forall r a ro ao o, let D := ingo_D a in let l := ro - (100 * points o - 50) in let x n := l + (r - l) * (D / (D + 1)) ^ n in
  (forall n, Nat.iter n (fun p => fst (ingo p (mkIngo (Fin ro) ao) o)) (mkIngo (Fin r) a) = mkIngo (Fin (x n)) a) /\ settles x l.
Proof. exact C139_ingo_proof. Qed.
Print Assumptions C139_ingo_settles.
(** Established and provisional USCF players who keep drawing. *)
Theorem C139_uscf_draws : forall r n ro no t, 100 <= r -> 100 <= ro -> exists x m,
  (forall k, Nat.iter k (fun p => fst (uscf p (mkUscf (Fin ro) no) DRAW (mkUscfConfig (Fin t)))) (mkUscf (Fin r) n) = mkUscf (Fin (x k)) (m k)) /\
  Un_cv x ro /\ (r <= ro -> forall k, x k <= x (S k) <= ro) /\ (ro <= r -> forall k, ro <= x (S k) <= x k).
Proof. exact C139_uscf_proof. Qed.
Print Assumptions C139_uscf_draws.
(** Glicko, for every [c]: although the deviation shrinks with every game when [c = 0],
    the rating gets all the way to the opponent's. *)
Theorem C139_glicko_draws : forall r RD ro RDo c, 0 < RD -> 0 < RDo -> exists x d,
  (forall n, Nat.iter n (fun p => fst (glicko p (mkGlicko (Fin ro) (Fin RDo)) DRAW (mkGlickoConfig (Fin c)))) (mkGlicko (Fin r) (Fin RD)) = mkGlicko (Fin (x n)) (Fin (d n))) /\ settles x ro.
Proof. exact C139_glicko_proof. Qed.
Print Assumptions C139_glicko_draws.
(** Weng-Lin: likewise. *)
Theorem C139_weng_lin_draws : forall m s mo so beta kappa, 0 < s -> 0 < so -> 0 < kappa <= 1 -> exists x d,
  (forall n, Nat.iter n (fun p => fst (weng_lin p (mkWL (Fin mo) (Fin so)) DRAW (mkWLConfig (Fin beta) (Fin kappa)))) (mkWL (Fin m) (Fin s)) = mkWL (Fin (x n)) (Fin (d n))) /\ settles x mo.
Proof. exact C139_wl_proof. Qed.
Print Assumptions C139_weng_lin_draws.

(** DWZ, whatever the ages and the (positive) indices at the time of each game. *)
Theorem C139_dwz_draws : forall r ro io ao (idx age : nat -> N), (1 <= io)%N -> (forall k, (1 <= idx k)%N) -> exists x,
  x 0%nat = r /\ (forall k, dwz_rating (fst (dwz (mkDwz (Fin (x k)) (idx k) (age k)) (mkDwz (Fin ro) io ao) DRAW)) = Fin (x (S k))) /\ settles x ro.
Proof. exact C139_dwz_proof. Qed.
Print Assumptions C139_dwz_draws.
(** Sticko without beta and gamma: each draw takes away at least lambda percent of the distance. *)
Theorem C139_sticko_draws : forall r RD ro RDo h lambda c, 0 < RD -> 0 < RDo -> 0 <= h -> 0 < lambda <= 10 -> exists x d,
  (forall k, Nat.iter k (fun p => fst (sticko p (mkSticko (Fin ro) (Fin RDo)) DRAW (mkStickoConfig (Fin h) (Fin 0) (Fin lambda) (Fin 0) (Fin c)))) (mkSticko (Fin r) (Fin RD)) = mkSticko (Fin (x k)) (Fin (d k))) /\
  settles x ro /\ forall k, Rabs (x k - ro) <= (1 - lambda / 100) ^ k * Rabs (r - ro).
Proof. exact C139_sticko_proof. Qed.
Print Assumptions C139_sticko_draws.

(* A strong player who keeps drawing against a weaker one; ratings really move. *)
Example C139_glicko_case : exists x d,
  (forall n, Nat.iter n (fun p => fst (glicko p (mkGlicko (Fin 1500) (Fin 80)) DRAW (mkGlickoConfig (Fin 0)))) (mkGlicko (Fin 1900) (Fin 350)) = mkGlicko (Fin (x n)) (Fin (d n))) /\ x 0%nat = 1900 /\ x 1%nat < 1900 /\ Un_cv x 1500.
Proof.
  destruct (C139_glicko_draws 1900 350 1500 80 0 ltac:(lra) ltac:(lra)) as (x & d & E & C & _ & D & _). exists x, d. split; [exact E|].
  assert (X : x 0%nat = 1900) by (specialize (E 0%nat); cbn in E; injection E; auto). split; [exact X|]. split; [|exact C]. specialize (D ltac:(lra) 0%nat). lra.
Qed.
Example C139_case : 100 <= 1900 /\ 100 <= 1500 /\ 0 < 8 /\ 0 < 25 / 3 /\ 0 < / 10000 <= 1. Proof. lra. Qed.
Example C139_ingo_case : let x n := 50 + (200 - 50) * (20 / (20 + 1)) ^ n in x 0%nat = 200 /\ x 1%nat < 200 /\ 100 - (100 * points WIN - 50) = 50.
Proof. cbn. lra. Qed.
(* A DWZ player who is 18 at the first game and whose index counts the games. *)
Example C139_dwz_case : exists x, x 0%nat = 1900 /\ (forall k, dwz_rating (fst (dwz (mkDwz (Fin (x k)) (N.of_nat k + 1) 18) (mkDwz (Fin 1500) 5 40) DRAW)) = Fin (x (S k))) /\ Un_cv x 1500.
Proof. destruct (C139_dwz_draws 1900 1500 5 40 (fun k => N.of_nat k + 1)%N (fun _ => 18%N) ltac:(lia) ltac:(intros k; cbv beta; lia)) as (x & X & E & C & _). exists x. auto. Qed.
Example C139_sticko_case : 0 < 350 /\ 0 < 80 /\ 0 <= 10 /\ 0 < 2 <= 10. Proof. lra. Qed.
