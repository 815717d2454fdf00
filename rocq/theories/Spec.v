(** Published formulas, in plain real arithmetic and plain lists, independent
    of the model. *)
From Coq Require Import ZArith NArith List Bool Reals.
From Verif Require Import ModelLib XR.
Import ListNotations.
Local Open Scope R_scope.

(** Game points of an outcome, from the point of view of player one. *)
Definition points (o : Outcomes) : R :=
  match o with WIN => 1 | DRAW => 1 / 2 | LOSS => 0 end.
(** The same game seen by the other player. *)
Definition invert (o : Outcomes) : Outcomes :=
  match o with WIN => LOSS | DRAW => DRAW | LOSS => WIN end.

(** ** Elo *)
Definition elo_E (own opp : R) : R := 1 / (1 + Rpower 10 ((opp - own) / 400)).
Definition elo_upd (k own opp S : R) : R := own + k * (S - elo_E own opp).

(** ** FIFA (SUM algorithm): P + I * (W - We), We = 1 / (10^(-dr/600) + 1) *)
Definition fifa_We (own opp : R) : R := 1 / (Rpower 10 (- (own - opp) / 600) + 1).
Definition fifa_upd (I own opp W : R) : R := own + I * (W - fifa_We own opp).

(** ** Ingo (lower is better) *)
Definition ingo_D (age : N) : R :=
  if (age <=? 20)%N then 10 else if (age <=? 25)%N then 15 else 20.
Definition ingo_perf (opponents_average score_average : R) : R :=
  opponents_average - (100 * score_average - 50).
(** n games with average opponent and average score. *)
Definition ingo_upd (n own D opponents_average score_average : R) : R :=
  (n * ingo_perf opponents_average score_average + own * D) / (n + D).

(** ** USCF *)
(** Provisional: (N0*R0 + m*Ro + 400*(W-L)) / (N0+m). *)
Definition uscf_prov (N0 R0 m Ro W L : R) : R := (N0 * R0 + m * Ro + 400 * (W - L)) / (N0 + m).
(** Effective number of games. *)
Definition uscf_Ne (R0 N0 : R) : R :=
  if Rlt_dec R0 2355
  then Rmin (Rmin N0 50) (50 / sqrt (0.662 + 0.00000739 * (2569 - R0) ^ 2))
  else Rmin N0 50.
Definition uscf_K (R0 N0 m : R) : R := 800 / (uscf_Ne R0 N0 + m).
(** Bonus for m games. *)
Definition uscf_bonus (m : nat) (K S E t : R) : R :=
  if (m <? 3)%nat then 0 else Rmax 0 (K * (S - E) - t * sqrt (INR (Nat.min m 4))).
Definition uscf_upd (R0 N0 : R) (m : nat) (S E t : R) : R :=
  R0 + uscf_K R0 N0 (INR m) * (S - E) + uscf_bonus m (uscf_K R0 N0 (INR m)) S E t.
Definition count_wins (os : list Outcomes) : nat :=
  length (filter (fun o => match o with WIN => true | _ => false end) os).
Definition count_losses (os : list Outcomes) : nat :=
  length (filter (fun o => match o with LOSS => true | _ => false end) os).

(** ** EGF *)
(** Rating shifted by a handicap of [h] stones received. *)
Definition egf_adj (h r : R) : R := if Req_EM_T h 0 then r else r + 100 * (h - 1 / 2).
Definition egf_B (r : R) : R := - 7 * ln (3300 - r).
Definition egf_E (own opp : R) : R := 1 / (1 + exp (egf_B opp - egf_B own)).
Definition egf_C (r : R) : R := Rpower ((3300 - r) / 200) 1.6.
Definition egf_bon (r : R) : R := ln (1 + exp ((2300 - r) / 80)) / 5.
Definition egf_upd (r S E : R) : R := Rmax (-900) (r + egf_C r * (S - E) + egf_bon r).
(** Stones received by player one and by player two for a handicap setting H:
    a negative H means that player one receives the stones. *)
Definition egf_h1 (H : R) : R := if Rlt_dec H 0 then - H else 0.
Definition egf_h2 (H : R) : R := if Rlt_dec H 0 then 0 else H.

(** ** DWZ *)
Definition dwz_J (age : N) : R := if (age <=? 20)%N then 5 else if (age <=? 25)%N then 10 else 15.
(** Acceleration for young players that did at least as well as expected. *)
Definition dwz_acc (r : R) (age : N) (S We : R) : R :=
  if (age <? 20)%N then (if Rle_dec We S then r / 2000 else 1) else 1.
(** Brake for weak players that did not do better than expected. *)
Definition dwz_brakes (r S We : R) : Prop := r < 1300 /\ S <= We.
Definition dwz_brake (r S We : R) : R :=
  if Rlt_dec r 1300 then (if Rle_dec S We then exp ((1300 - r) / 150) - 1 else 0) else 0.
Definition dwz_raw_E (r : R) (age : N) (S We : R) : R :=
  dwz_acc r age S We * ((r / 1000) ^ 4 + dwz_J age) + dwz_brake r S We.
(** Development coefficient: at least 5, at most 150 with the brake, at most
    min(30, 5*index) without. *)
Definition dwz_E (r : R) (age : N) (S We i : R) : R :=
  Rmax 5 (Rmin (dwz_raw_E r age S We)
    (if Rlt_dec r 1300 then (if Rle_dec S We then 150 else Rmin 30 (5 * i)) else Rmin 30 (5 * i))).
Definition dwz_upd (r E n S We : R) : R := r + 800 / (E + n) * (S - We).
(** The probability table (0% .. 50%). *)
Definition dwz_table : list Z :=
  [-728; -614; -555; -513; -480; -453; -429; -408; -389; -371;
   -355; -340; -326; -312; -300; -288; -276; -265; -254; -244;
   -234; -224; -214; -205; -196; -187; -178; -170; -161; -153;
   -145; -137; -129; -121; -113; -106; -98; -91; -83; -76;
   -69; -61; -54; -47; -40; -32; -25; -18; -11; -4; 0]%Z.
(** Table value of a whole percentage 0..100: the upper half mirrors the lower. *)
Definition dwz_T (p : Z) : Z :=
  if (p <=? 50)%Z then nth (Z.to_nat p) dwz_table 0%Z else (- nth (Z.to_nat (100 - p)) dwz_table 0)%Z.
Definition dwz_revise (r : R) : R := if Rle_dec r 800 then 700 + r / 8 else r.

(** ** Glicko (Glickman 1999) *)
Definition gq : R := ln 10 / 400.
Definition gg (RD : R) : R := / sqrt (1 + 3 * gq ^ 2 * RD ^ 2 / PI ^ 2).
Definition gE (r rj RDj : R) : R := / (1 + Rpower 10 (- gg RDj * (r - rj) / 400)).
(** A game: opponent's rating, opponent's deviation, score. *)
Definition gd2inv (r : R) (games : list (R * R * R)) : R :=
  gq ^ 2 * Rsum (map (fun '(rj, RDj, s) => gg RDj ^ 2 * gE r rj RDj * (1 - gE r rj RDj)) games).
Definition gM (r : R) (games : list (R * R * R)) : R :=
  Rsum (map (fun '(rj, RDj, s) => gg RDj * (s - gE r rj RDj)) games).
Definition gpre (RD c : R) : R := Rmin (sqrt (RD ^ 2 + c ^ 2)) 350.
Definition glicko_r (r RD : R) (games : list (R * R * R)) : R :=
  r + gq / (/ RD ^ 2 + gd2inv r games) * gM r games.
Definition glicko_rd (r RD : R) (games : list (R * R * R)) : R :=
  sqrt (/ (/ RD ^ 2 + gd2inv r games)).

(** ** Stephenson (Sticko) *)
(** A game for the formulas above: the advantage [gamma] makes the opponent
    count as weaker (playing with the advantage) or stronger; [beta] is a bonus
    per game. *)
Definition st_game (gamma beta : R) (g : R * R * Outcomes * bool) : R * R * R :=
  let '(rj, RDj, o, white) := g in (rj - (if white then gamma else - gamma), RDj, points o + beta).
Definition mean (l : list R) : R := Rsum l / INR (length l).
Definition sticko_r (r RD beta gamma lambda : R) (gs : list (R * R * Outcomes * bool)) : R :=
  glicko_r r RD (map (st_game gamma beta) gs)
  + lambda / 100 * (mean (map (fun '(rj, _, _, _) => rj) gs) - r).
Definition sticko_rd (r RD beta gamma h : R) (gs : list (R * R * Outcomes * bool)) : R :=
  Rmin (sqrt (/ (/ (RD ^ 2 + h * INR (length gs)) + gd2inv r (map (st_game gamma beta) gs)))) 350.

(** ** Glicko-Boost *)
Record boost_cfg := { bc_eta : R; bc_k : R; bc_b0 : R; bc_b1 : R;
  bc_a0 : R; bc_a1 : R; bc_a2 : R; bc_a3 : R; bc_a4 : R }.
(** Standardised performance: sum g(s-E) / sqrt (sum g^2 E(1-E)). *)
Definition boost_Z (r : R) (games : list (R * R * R)) : R :=
  gM r games / sqrt (gd2inv r games / gq ^ 2).
Definition boost_rd (c : boost_cfg) (r RD : R) (games : list (R * R * R)) : R :=
  let Z := boost_Z r games in
  let RD' := if Rlt_dec (bc_k c) Z then
               if Req_EM_T (bc_k c) 0 then RD
               else (1 + (Z - bc_k c) * bc_b0 c) * glicko_rd r RD games + bc_b1 c
             else RD in
  Rmin (glicko_rd r RD' games) 350.
Definition boost_r (c : boost_cfg) (r RD : R) (games : list (R * R * R)) : R :=
  r + gq * boost_rd c r RD games ^ 2 * gM r games.
(** Growth of the deviation at the end of a period. *)
Definition boost_end (c : boost_cfg) (r RD : R) : R :=
  Rmin (sqrt (RD ^ 2 + exp (bc_a0 c + bc_a1 c * RD + bc_a2 c * RD * (r / 1000)
                            + bc_a3 c * (r / 1000) + bc_a4 c * (r / 1000) ^ 2))) 350.

(** ** Glicko-2 (Glickman 2013) *)
Definition g2s : R := 1737178 / 10000.
Definition g2mu (r : R) : R := (r - 1500) / g2s.
Definition g2phi (RD : R) : R := RD / g2s.
Definition g2g (phi : R) : R := / sqrt (1 + 3 * phi ^ 2 / PI ^ 2).
Definition g2E (mu muj phij : R) : R := / (1 + exp (- g2g phij * (mu - muj))).
(** A game on the internal scale: opponent's mu and phi, score. *)
Definition g2v (mu : R) (games : list (R * R * R)) : R :=
  / Rsum (map (fun '(muj, phij, s) => g2g phij ^ 2 * g2E mu muj phij * (1 - g2E mu muj phij)) games).
Definition g2M (mu : R) (games : list (R * R * R)) : R :=
  Rsum (map (fun '(muj, phij, s) => g2g phij * (s - g2E mu muj phij)) games).
Definition g2f (delta phi v sigma tau x : R) : R :=
  exp x * (delta ^ 2 - phi ^ 2 - v - exp x) / (2 * (phi ^ 2 + v + exp x) ^ 2) - (x - ln (sigma ^ 2)) / tau ^ 2.
(** [sigma'] is, up to [tol] in ln(sigma'^2), a solution of f = 0. *)
Definition g2_solves (delta phi v sigma tau tol sigma' : R) : Prop :=
  0 < sigma' /\ exists x, g2f delta phi v sigma tau x = 0 /\ Rabs (ln (sigma' ^ 2) - x) <= tol.
(** No zero of Glickman's function is a multiple zero. *)
Definition g2_simple (delta phi v sigma tau : R) : Prop :=
  forall x, g2f delta phi v sigma tau x = 0 -> ~ derivable_pt_lim (g2f delta phi v sigma tau) x 0.
Definition g2_phi' (phi sigma' v : R) : R := / sqrt (/ (phi ^ 2 + sigma' ^ 2) + / v).
(** New rating and deviation on the original scale. *)
Definition g2_new_r (r RD sigma' : R) (games : list (R * R * R)) : R :=
  let v := g2v (g2mu r) games in
  g2s * (g2mu r + g2_phi' (g2phi RD) sigma' v ^ 2 * g2M (g2mu r) games) + 1500.
Definition g2_new_rd (r RD sigma' : R) (games : list (R * R * R)) : R :=
  g2s * g2_phi' (g2phi RD) sigma' (g2v (g2mu r) games).

(** ** Weng-Lin (Weng and Lin 2011, Algorithm 1: Bradley-Terry, full pairs) *)
Definition wlc (beta u v : R) : R := sqrt (u + v + 2 * beta ^ 2).
(** Probability that the first of two sides with strengths a, b wins. *)
Definition wlp (a b c : R) : R := / (1 + exp ((b - a) / c)).
(** A side: sum of ratings and sum of squared uncertainties. *)
Definition wl_theta (t : list (R * R)) : R := Rsum (map fst t).
Definition wl_s2 (t : list (R * R)) : R := Rsum (map (fun p => snd p ^ 2) t).
Definition wls_delta (beta th1 u1 th2 u2 s : R) : R :=
  let c := wlc beta u1 u2 in u1 / c * (s - wlp th1 th2 c).
Definition wls_eta (beta th1 u1 th2 u2 : R) : R :=
  let c := wlc beta u1 u2 in
  (sqrt u1 / c) * (sqrt u1 / c) ^ 2 * wlp th1 th2 c * wlp th2 th1 c.
Definition wl_player (kappa u Omega Delta : R) (p : R * R) : R * R :=
  (fst p + snd p ^ 2 / u * Omega, snd p * sqrt (Rmax (1 - snd p ^ 2 / u * Delta) kappa)).
(** Score of rank r against rank r' (lower is better). *)
Definition rank_score (r r' : N) : R := match N.compare r r' with Lt => 1 | Eq => 1 / 2 | Gt => 0 end.
(** New ratings of a team from the teams and ranks of all its opponents. *)
Definition wl_team' (beta kappa : R) (t : list (R * R)) (r : N) (others : list (list (R * R) * N)) : list (R * R) :=
  let u := wl_s2 t in
  let Omega := Rsum (map (fun '(t', r') => wls_delta beta (wl_theta t) u (wl_theta t') (wl_s2 t') (rank_score r r')) others) in
  let Delta := Rsum (map (fun '(t', r') => wls_eta beta (wl_theta t) u (wl_theta t') (wl_s2 t')) others) in
  map (wl_player kappa u Omega Delta) t.
(** All uncertainties of a team are positive. *)
Definition wl_ok (t : list (R * R)) : Prop := t <> nil /\ Forall (fun p => 0 < snd p) t.

(** Swapping the two players and inverting the outcome swaps the results. *)
Definition swapped {X} (f : X -> X -> Outcomes -> X * X) (p q : X) (o : Outcomes) : Prop :=
  f q p (invert o) = (snd (f p q o), fst (f p q o)).
