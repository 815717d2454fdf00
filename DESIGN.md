# Formal model of skillratings — design

## 1. What is modelled

The model is a function-by-function transcription of `/repo/src` into Gallina
(`rocq/theories/Model*.v`; every definition cites the file and lines it
transcribes).  It is written once, over an abstract record of `f64` operations
(`Arith.v`, class `Arith F`), and keeps the code's order of operations
(`mul_add`, `powi`, `recip`, `min`/`max`, `sum`, comparisons).  The same
definitions are then read in three ways:

* **any arithmetic** (`forall F (A : Arith F)`): structural claims such as
  "period = games in sequence", delegation, shapes, constructors.  They hold
  bit for bit for `f64`, whatever the operations do.
* **`XR`** (`XR.v`): extended reals `Fin r | Inf sign | NaN` with the IEEE-754
  rules for infinities, NaN, division by zero, roots and logarithms of negative
  numbers, but without rounding and without a negative zero.  "The result is
  `Fin (formula)`" says both that the formula is right and that no NaN or
  infinity appears.  Most theorems are about `XR`.
* **`B64`** (`B64.v`): IEEE-754 binary64, round to nearest even, from Flocq's
  `BinarySingleNaN`.  Basic operations, `mul_add`, `sqrt`, comparisons and
  conversions are exact IEEE-754.  `exp`, `ln`, `powf`, ... come from the
  platform's libm; they are a parameter `Libm`, and each theorem states what it
  needs of it (`SpecB64.v`: e.g. monotone `powf`, `powf` within 1 ulp).
  `ProofB64b.v`, `ProofB64c.v` and `ProofB64g.v` show that a correctly rounded libm meets the contracts, so
  they are satisfiable.

Panics are an explicit value, Rust's `Err` is an explicit value, loops that may
run forever take fuel and return `None` when it runs out (theorems quantify
over the fuel or show that some fuel is enough).  `usize` counters are `N`
reduced modulo 2^64 (release mode).

| source | model | covered |
|--------|-------|---------|
| `lib.rs` (`Outcomes`, `MultiTeamOutcome`, traits) | `ModelLib.v`, trait methods in each model | all |
| `elo.rs`, `fifa.rs`, `ingo.rs`, `uscf.rs`, `egf.rs`, `dwz.rs` | `ModelElo` ... `ModelDwz` | all functions, constructors, defaults, conversions, trait impls |
| `glicko.rs`, `sticko.rs`, `glicko_boost.rs`, `glicko2.rs` | `ModelGlicko` ... `ModelGlicko2`, `ModelConv` | all, incl. both `while` loops of the Glicko-2 volatility |
| `weng_lin.rs` | `ModelWengLin` | all |
| `trueskill/{mod,erf,math,gaussian,weights}.rs` | `ModelTS` | all closed forms, weights validation, `erfc`, `inverse_erfc` |
| `trueskill/{factor_graph,schedule}.rs`, `trueskill_multi_team` | `ModelTSGraph` | all; `Rc<RefCell<..>>` cells are indices into an explicit store |
| `trueskill/matrix.rs`, `match_quality_multi_team` | `ModelTSMatrix` | all, incl. the panics |

Simplifications, beyond the choice of number system:

* `Rc`/`RefCell` sharing in the factor graph is an explicit store; the sharing
  (which factor sees which variable) is transcribed, reference counts are not.
* Slices and vectors are lists; capacity, borrowing and ownership are erased.
* Rust's stable `sort_by_key` is insertion sort (stable) on the rank.
* Message look-ups in the factor graph that would panic are `None`.
* In `XR` the three constants `f64::MIN_POSITIVE`, `SQRT_2`, `PI` are the real
  numbers 2^-1022, sqrt 2, PI.

## 2. Not modelled

Serde derives; `Clone`/`Copy`/`Debug`/`Hash`/`PartialEq` derives; the text of
error messages and the `Error` impls; time and memory; debug-mode overflow
panics of `usize` counters (they need 2^64 games); the bits of libm functions;
platform-dependent `f64` behaviour (x87).  The behaviour of `XR` theorems under
rounding is not claimed; the `B64` theorems (C47, C66-C69, C82, C97, C98, C101, C103-C107, C113, C115-C120) are the
ones that survive rounding.

## 3. Trusted base

* Coq 8.16.1's kernel (and `coqchk`, which re-checks every file).
  Some steps are proved by evaluating a verified check inside the kernel with
  its virtual machine (`MathIval`, `MathPoly` and their uses in `MathTSInv`,
  `MathTSStart`, `MathTSW`; literals in `ProofB64*`); `coqchk` re-evaluates them
  without the virtual machine.
* What `Print Assumptions` lists under each theorem; `ASSUMPTIONS.md` has the
  table.  Only axioms of the standard library occur:
  `ClassicalDedekindReals.sig_forall_dec`, `ClassicalDedekindReals.sig_not_dec`
  and `FunctionalExtensionality.functional_extensionality_dep` (the classical
  real numbers) and `Classical_Prop.classic` (via Coquelicot and Flocq).
  Theorems about any arithmetic are closed under the global context.
  We add no axiom; there is no `Admitted`, no module functor, no plugin.
* The transcription `Model*.v` and the number systems `XR.v`, `B64.v`: that they
  say what the Rust code does is not proved.  It is checked by reading and, for
  `Model*.v`, by replaying the repository's own unit tests and doc examples
  (`tools/replay/run.sh`): the model is extracted, run with the machine's binary64
  operations, and every assertion of the tests is evaluated with the model in place
  of the library.  Nothing of the library is executed; only the inputs and expected
  values in its tests are used.  Result: 223 of 229 tests and examples pass with
  887 assertions (mostly 15-digit literals within `f64::EPSILON`), none fails.
  Every model function is evaluated.  Six are skipped: three
  inspect the text of an error message and three reach inside the factor graph's
  reference-counted cells, which the model replaces by a store.
* The statements: `Spec*.v` and the theorem statements in `Props*.v`.

## 4. File layout

* `tools/replay/` - replay of the repository's tests against the extracted model.
* `Arith.v` - operations record.  `XR.v`, `B64.v` - number systems.
* `Model*.v` - transcription, no proofs.
* `Spec.v` (published formulas), `SpecTS.v` (TrueSkill), `SpecNormal.v` (normal
  distribution as an integral), `SpecTSN.v` (exact truncated-Gaussian corrections), `SpecB64.v`, `SpecAcc.v` (float vocabulary and libm
  contracts), `SpecIn.v`/`SpecInTS.v` (real numbers as model inputs).  Nothing
  in `Spec.v`, `SpecTS.v`, `SpecNormal.v` refers to the model.
  `SpecEP.v` is the reference for any number of TrueSkill teams: expectation
  propagation on the chain of team performances with plain functions from
  indices to Gaussians, no store, no variables and no factors.
  `SpecReach.v` (everything reachable by repeated calls) and `SpecLeague.v`
  (a pool of players and a list of games) say what a long run is; `SpecRegret.v`
  measures the forecasts made during it.
* `Math*.v` - pure mathematics without model code: convergence of the Illinois
  method (`MathIllinois`, `MathIllinois2`), the Glicko-2 function
  (`MathGlicko2`, `MathG2Trap`), a verified
  interval evaluator (`MathIval`), polynomial positivity (`MathPoly`), the erfc
  fit (`MathTS`, `MathTSW`, `MathTSMono`, `MathTSDraw`), its inverse (`MathTSInv`, `MathTSStart`,
  `MathTSAcc`, `MathGauss`, `MathTSNorm`), determinants (`MathDet`), floats (`MathB64`, `MathAcc`).
* `Proof*.v` - lemmas about the model.  `Tac.v` - tactics.
* `Props*.v` - the property theorems, each closed by `exact lemma.`, followed by
  `Print Assumptions` and an `Example` with a concrete case meeting the
  hypotheses.  Generated from `tools/props/*.in` by `tools/genprops.py`
  (`PropsElo.v` is handwritten); the generated files are committed.
* `tools/mkprops.py` writes `properties.jsonl`, `tools/mkmanifest.py` writes
  `MANIFEST.json`, `tools/assumptions.py` writes `ASSUMPTIONS.md`,
  `tools/mutate.py` runs the wrong programs of `tools/mutants*.py` in a scratch
  copy; results are in `seeded/LOG.jsonl`.

## 5. Properties and how they are proved

| id | about | method |
|----|-------|--------|
| C01-C05 | Elo | XR evaluation, analysis of 1/(1+10^x), list induction |
| C06-C08, C70 | FIFA | XR evaluation, invariant over the matches; C08 refuted |
| C09-C12, C72 | USCF | XR evaluation; C09 refuted for the period |
| C13-C16, C73 | EGF | XR evaluation; C14 (period) and C15 (>= 3300) refuted |
| C17-C22, C74 | DWZ | XR evaluation, table analysis, permutations; C74 and a corner of C21 refuted |
| C23-C25, C71 | Ingo | XR evaluation; empty period and C25 refuted |
| C26-C31, C75 | Glicko | XR evaluation, permutation of sums |
| C32-C33, C76 | Sticko | comparison with Glicko, XR evaluation |
| C34-C36 | Glicko-Boost | XR evaluation; C34, C36 refuted as documented |
| C37-C41, C89 | Glicko-2 | bracketing measure, IVT, convergence of the Illinois iteration; C89 refuted by an invariant of the loop |
| C42-C48, C77 | Weng-Lin | XR evaluation, antisymmetric sums, permutations, sequence; C47 over B64 |
| C49-C51, C54, C55, C57-C59, C78 | TrueSkill closed forms | XR evaluation, erfc-fit analysis |
| C52, C53, C79, C83, C84 | TrueSkill factor graph | symbolic execution over the store, permutation, exact two-team result |
| C99, C100 | TrueSkill with any number of teams | simulation of the store by the reference expectation propagation of `SpecEP.v` |
| C56, C85 | match quality of teams | determinants of the (tridiagonal) matrices |
| C86-C88 | TrueSkill against the true normal distribution | derivative bounds, verified interval arithmetic |
| C102 | TrueSkill updates against the exact truncated Gaussian | the Gaussian integral (`MathGauss`), Mills' ratio, relative error of the fitted tail (`MathTSNorm`) |
| C90, C91 | EGF handicaps and streaks | monotonicity; iteration with a lower bound on the gain; C91 refuted |
| C92 | all systems but EGF | invariant of the inductively defined set of reachable ratings |
| C93 | Elo seasons | induction over the list of games |
| C94-C96 | stronger opponents, order of players, the Glicko-Boost boost | mean value theorem; interval bounds for the refutations; TrueSkill (PropsTSOrder) via the slope of phi/Phi of the fitted normal distribution (MathTSMono); Glicko-2 (`ProofG2Str`) by comparing the zeros of Glickman's function for the two opponents |
| C60-C65, C80, C81 | all systems | computation in any arithmetic, XR evaluation |
| C66-C69, C82, C97, C98 | IEEE-754 | monotonicity and error of rounding (Flocq) |
| C101 | accuracy of f64 results | forward error analysis with absolute bounds (`MathAcc`) |
| C103 | accuracy of TrueSkill in f64 | absolute and relative forward error bounds (`MathAcc`, `MathAccR`), Lipschitz bounds of the corrections (`MathTSLip`, `MathTSLip2`), C102 |
| C113 | Elo, FIFA, EGF, Ingo periods in f64 | the exact step is non-expansive (logistic slope), so the errors of single games add up (`ProofAccPer`) |
| C114 | games add certainty, uncertain ratings move more | precision is additive; s²/c·σ(d/c) is monotone in s because σ(x)/x falls (`ProofInfo`) |
| C115 | accuracy of Glicko-2 in f64 | an invariant of the float Illinois loop (`MathIllF`) for the rounded f (`MathG2F`), error propagation for the rest (`ProofAccG2`) |
| C116 | termination of Glicko-2's loops in f64 | an Illinois step with rounded values keeps its bracket and halves a weight or a width (`MathIllT`), slopes, noise and spacing of the rounded f (`MathG2T`, `ProofG2T`) |
| C117 | non-termination of the bracketing loop for tiny tau | every step rounds back to its start (`MathG2H`, `ProofG2H`) |
| C118 | accuracy of Weng-Lin teams in double precision | relative-error algebra for positive numbers (`MathRel`), pairs and players (`MathAccWL`), fold over the opponents (`ProofAccWL`, `ProofAccWL2`) |
| C119 | accuracy of TrueSkill teams in double precision | team sums and c (`MathAccTST`), updates through the one-player lemmas of C103 (`ProofAccTST`, `ProofAccTST2`), many teams and qualities (`ProofAccTST3`) |
| C120 | accuracy of Glicko-Boost in double precision | relative errors of one game's terms and of the new deviation (`ProofAccGB`), end-of-period growth, games, periods, decay, expected scores (`ProofAccGB2`) |
| C121 | a better result in one game of a period | strict monotonicity of one step for Elo and FIFA, sums for the others, case analysis of acceleration, bonus and boost (`ProofMono`); Weng-Lin refuted by a run of wins over far stronger opponents (`ProofMonoWL`), TrueSkill by a win that keeps the uncertainty larger before a heavy loss (`ProofTSTwist`) |
| C122 | Weng-Lin with many teams: better ranks | the pairwise sums of C46, compared term by term (`ProofRank`) |
| C123 | DWZ: age and experience | monotonicity of the development coefficient in age and index (`ProofDrift2`); refuted above 2000, where the factor rating/2000 exceeds one |
| C124 | Certainty over a career | invariant 1/d^2 along any list of periods, geometric contraction for sharpness (`ProofFloor`) |
| C125 | Quality of the forecasts | online gradient descent: convexity of the logistic loss and the distance to fixed strengths (`SpecRegret`, `ProofRegret`) |
| C126 | TrueSkill: order of results | mean of a truncated normal variable below the middle of its interval, Mills ratio, and the erfc error bounds (`ProofTSRes`) |
| C127 | Glicko-2: order of results | the zero of Glickman's function moves up with the surprise; comparison of the two weights up to the tolerance (`ProofG2Res`) |
| C128 | Glicko-2: volatility after upsets | the first three steps of the regula falsi end inside the interval where Glickman's function is strictly decreasing (`ProofG2Vol`) |
| C129 | Largest change of a rating | bounds by the player's own state; for Sticko with pull, Ingo, provisional USCF and TrueSkill no such bound exists (`ProofMaxMove`) |
| C130 | Three players | odds multiply without uncertainties; favourites form a chain with them (`ProofTriangle`) |
| C131 | Rematch | a win raises the winner's expected score; false for favourites whose uncertainty grows (`ProofRematch`, `ProofRematch2`) |
| C132 | Conversions and forecasts | a converted pair keeps its favourite, with a bound on the change of the forecast (`ProofConvert`) |
| C133 | Draws | a draw moves each rating towards the opponent's; refuted for EGF and for Sticko with a bonus (`SpecDraw`, `ProofDraw`, `ProofDrawTS`) |
| C134 | Uncertain opponents | the same result against a less certain opponent counts less; refuted for favourites and for Glicko players with RD 350 (`ProofUncertain`) |
| C135 | Who pays | equally certain players exchange points; in upsets the less certain player moves further; refuted for favourites (`ProofWho`, `ProofWhoB`) |
| C136 | Expected winner | TrueSkill expected scores of equally uncertain teams follow the ratings; refuted in general (`ProofFirst`) |
| C137 | Fair matches | TrueSkill's multi-team match quality is best for equally strong teams and grows as they get closer; certainty helps only between equals (`ProofFair`) |
| C138 | First DWZ | order does not matter, better results and stronger opponents help; one more win can cost points (`ProofFirstDwz`) |
| C139 | Long runs, other systems | equal results in Ingo and draws in USCF, Glicko and Weng-Lin converge (`ProofEvenly`, `ProofEvenly2`; Elo and FIFA are C111) |
| C140 | Farming, other systems | wins against one opponent: Glicko and Weng-Lin grow without bound but logarithmically, TrueSkill (tau^2 <= 2 beta^2) and Glicko-2 (careers in which the volatility iteration ends) without bound (`ProofFarm`, `ProofFarm2`, `ProofFarm3`; Elo and FIFA are C112, Ingo is bounded by C139) |
| C141 | One more team or player | effect of an additional team (Weng-Lin) and of an additional player on the expected score (Weng-Lin, TrueSkill) (`ProofMore`) |
| C142 | Uncertainty and forecasts | the favourite's expected score falls with the uncertainty and tends to 1/2 (`ProofPull`) |
| C143 | Inactivity | n empty rating periods in the Glicko family (`ProofIdle`) |
| C144 | Long periods | n equal games in one rating period: closed forms and limits (`ProofSweep`, `ProofSweep2`, `ProofSweep3`) |
| C145 | Large games | Weng-Lin team mates share by variance; one game of many equal players sends every uncertainty to its floor (`ProofShare`) |
| C146 | Many teams | a Weng-Lin multi-team game is the sum of its two-team games (`ProofPairs`) |
| C147 | Long run | the influence of the starting rating vanishes in Elo and FIFA (`ProofForget`) |
| C148 | Long run | calibration: the average forecast error of Elo, FIFA and Ingo vanishes (`ProofCalib`, `ProofCalib2`) |
| C149 | Order of games | the best and the worst order of given results; later results count more (`ProofRecent`) |
| C150 | Dividing a rating period | no effect (sequential systems, provisional USCF), exact effect (Ingo), loss for wins (EGF) (`ProofSplit`) |
| C112 | Elo, FIFA: n wins against one opponent | recurrence f (n+1) = f n e^(c/(1+f n)) bounded on both sides |
| C111 | Elo, FIFA: repeated draws | logistic slope at most 1/4; uniform decrease away from the limit; a 2-cycle by the intermediate value theorem above the bound, so the bounds are exact |
| C110 | translation and scale invariance | from the closed forms; the Glicko-2 iteration gets the same inputs |
| C109 | order of games in USCF, EGF, Elo periods | permutations of sums; Elo refuted for every rating |
| C108 | mean rating under the expected scores | linearity in the score; convexity of the floors and caps gives the direction of the drift |
| C107 | Sticko in f64 | the Glicko error analysis with advantage, bonus, lambda and the two precisions |
| C106 | USCF in f64 | forward error analysis; the bonus switch is continuous; minima and floor are non-expansive |
| C104, C105 | DWZ in f64 | forward error analysis; exact sums of half points; both switches of the coefficient decided or the change negligible |

The status of each property and what is missing from the partial ones is in
`MANIFEST.json`.

## 6. Findings: where the code does not do what is claimed

Each is a theorem ending in `_refuted` (or a proved exact statement of the
behaviour), with the witness in its statement.

1. **FIFA penalties** (C08).  `fifa()` with a shoot-out gives both teams 0.75
   when player one wins and both 0.5 when player one loses; the published rule
   gives the winner 0.75 and the loser 0.5.
2. **USCF floor** (C09).  `uscf()` never goes below 100; `uscf_rating_period`
   has no floor.
3. **EGF floor** (C14).  `egf()` never goes below -900; the period has no floor.
4. **EGF above 3300** (C15).  The `con` factor takes a power of a negative
   number: NaN; `max(-900)` then turns a win into the rating -900.
5. **DWZ mirroring** (C21).  Inverting all results does not mirror the rating at
   exact half percentages (both round up).
6. **DWZ index 0** (C74).  Coefficient 0 (documented: at least 5), and NaN for
   an empty period.
7. **Ingo empty period** (C24) gives NaN.  **Ingo expectations** (C25) leave
   [0, 1] for gaps above 50 points, so a win can worsen the rating (C71 states
   the exact range in which winning helps).
8. **Glicko-Boost** (C34).  "eta = 0 behaves exactly like Glicko" is false for
   the deviation for all alpha and c; the field docs give the default eta as
   0.0 while `new()` uses 30.0.  `expected_score_rating_period` ignores the
   colour flag (C36).
9. **Weng-Lin overflow** (C47).  In f64, `exp(r/c)` overflows: two players rated
   20000 with default uncertainty get NaN ratings.
10. **TrueSkill `erfc`** (C54, C78).  `erfc(0)` is slightly above 1, hence equal
    players do not expect 0.5 each and the expectation is not monotone at
    equality.
11. **TrueSkill documentation of beta** (C88).  "80% win probability" for a
    difference of beta: it is below 77% for every uncertainty.
12. **TrueSkill dynamics factor** (C58).  For large tau the new uncertainty is
    the root of a negative number.  The same happens for draws with tau = 0:
    because erfc(0) > 1 in the fit, the draw probability passes through 0 at a
    positive margin (about 4e-8 c) and `w_draw` has a pole there; for every draw
    probability of at least 1% there are uncertainties (millions of beta) for
    which a draw of two equal players returns NaN uncertainties.
13. **TrueSkill multi-team** (C52, C53, C79, C84).  A single team or a zero
    uncertainty panics; a huge upset (the numeric fallback of `v`, `w`) makes
    both ratings NaN; a zero weight (explicitly allowed by the docs) makes the
    player and later team mates NaN; on two teams it differs from
    `trueskill_two_teams` for every tau other than 0.
14. **`match_quality_multi_team`** (C56) panics for one or two teams and when
    two teams have no performance variance.
15. **TrueSkill draws** (C51, C87).  With uncertainties of 1e8 beta the draw
    margin vanishes in the fit, `v_draw` takes its fallback, and the first of
    two identical players gains from a draw.  The same happens, to a tiny extent,
    for fresh players whenever the draw probability is configured as 0.
16. **Glicko-2 iteration** (C40, C89).  In exact arithmetic the Illinois loop
    terminates for all but at most two starting volatilities, but there are
    inputs for which it never does: 100 wins in one period for a player with
    deviation 4.9 and one volatility below 0.06 give a function with a double
    zero, and the iterate approaches it from one side while the other end of
    the bracket stays put.  With f64 rounding the same input is expected to
    end after some 30 iterations through rounding noise (not proved).
17. **EGF long runs** (C91).  Because of the bonus term, every player below 3300
    who keeps winning (against any fixed opponent below 3300) passes 3300 after
    finitely many games and the next win sets the rating to -900.  A handicap
    that lifts the receiver above 3300 (2700 against 2500 with nine stones)
    makes the expectation NaN and sets both players to -900.
18. **Glicko-Boost's boost can hurt** (C96, C94).  `new_deviation`
    (glicko_boost.rs:795) boosts the deviation that the game has already reduced
    and then applies the reduction a second time.  For a fresh player (deviation
    350) the boosted value is below 350, so winning as an underdog with an
    expectation between 0.18 and 0.2065 gives a *lower* rating than with the
    boost switched off (about 70 points), and beating an opponent rated 1770 is
    worth less than beating one rated 1762.  Up to a deviation of 160 the boost
    helps, as documented.
19. **Order of two players** (C95).  For `EloConfig.k` above 1600/ln 10 (about
    695) and FIFA importance above 2400/ln 10 the same result can make the
    lower-rated of two players the higher-rated one.  USCF does so, by
    thousandths of a point, at the jump of its formula at 2355.  TrueSkill does so
    for decided games exactly when tau^2 exceeds 2 beta^2 + the opponent's sigma^2
    (equality aside).  DWZ does so at 1300, where the brake ends: of two adults in their
    first tournament who lose to the same opponent, one rated 1300 falls below one rated 1299.
20. **TrueSkill steps at the draw margin** (C94).  The erfc approximation exceeds
    1 at 0, so the distribution function steps down there by less than 1e-7.  For
    every player and configuration there is a slightly weaker opponent whose
    defeat is worth more (by at most 2e-7 (sigma^2+tau^2)/c) than that of a
    stronger one.
21. **First DWZ and exact half percentages** (C104).  `get_first_dwz` computes
    `(points / games * 100.0).round()` in f64.  For 11.5 points from 20 games the
    product is 57.49999999999999, so the entry for 57% is used instead of 58%:
    1547 instead of 1554 against opponents rated 1500.  `points * 100.0 / games`
    would be exact for halves.  It happens at 14.5, 28.5, 56.5 and 57.5 percent and at
    no other half.
22. **Glicko favourites drift** (C108).  `expected_score` combines both deviations,
    the update uses the opponent's only.  When results follow `expected_score`, the
    favourite's mean rating falls and the underdog's rises.  Every knockout FIFA
    game and every EGF game raises the mean rating; provisional USCF players drift.
23. **Order inside an Elo period** (C109).  The games are applied one after the
    other, so a loss followed by a win ends strictly higher than a win followed by a
    loss, for every rating and positive k.
24. **Large k** (C111).  For k above 3200/ln 10 (about 1389) a run of draws against
    one opponent need not converge: some start alternates for ever.
25. **Glicko-2 with a tiny tau** (C117).  In f64, for tau between 1e-150 and 1e-34
    and any result that is no upset, `new_volatility` never returns: the trial point
    `k.mul_add(-tau, a)` rounds back to `a` for every `k` the counter can reach.
26. **A better result can cost rating points** (C121).  With the default Glicko-Boost
    configuration a new player (deviation 350) who scores 12 points from 16 even games
    ends below one who scores 11.5: past the threshold the boosted deviation starts
    from the one after the games, which for a new player is far below 350, so the
    step is smaller.  In Weng-Lin, for every player and first
    opponent, some run of later wins leaves the player rated higher after a draw in
    the first game than after a win, because the win makes the later wins count less.
    In TrueSkill, for every player and usual configuration, a win over a much weaker
    opponent can be worse than a loss: the loss lowers the uncertainty more, so a later
    loss against a hopeless opponent costs less.
27. **DWZ juniors above 2000** (C123, C108).  The acceleration factor is
    `rating / 2000.0` without the upper limit 1, so above 2000 it slows players under
    20 down: a 19-year-old rated 2100 gains less from a win than a 20-year-old, and
    drifts down when results follow the expected scores.
28. **Glicko after every game** (C124).  With the default c = 63.2 and one `glicko()`
    call per game a deviation of at least 141 never falls below 141, however many
    games are played: every call adds c^2 to the variance before it takes one game's
    information away.  Rating periods of m games lower the bound as computed there.
29. **Games that move a rating without limit** (C129).  One game against an opponent
    with an extreme rating moves a TrueSkill, Ingo or provisional USCF rating by any
    amount.  So does Sticko with a positive lambda, whatever the result: in the
    default configuration (lambda = 2) the loser of a game between players 1000 or
    more points apart gains points and the winner loses points when the favourite
    wins.
30. **A win that lowers the winner's expected score** (C131).  A win should make the
    winner look better in a rematch.  For the lower rated player it does.  A favourite
    who beats a far weaker opponent gains almost no rating, but in Glicko (`c` not 0),
    Glicko-2 and TrueSkill (`tau` not 0) both deviations grow a little with every game,
    and that pulls the expected score towards 1/2: for every player (Glicko: RD below 350, Glicko-2: tau^2 sigma^2 at most 0.1) there is
    an opponent for whom the win lowers the prediction.  Ingo does so whenever the
    expected score was above 1, USCF between provisional players more than 400 points
    apart, and EGF against a player rated -900, whose bonus outweighs the loss.
31. **A draw between equals that pays both** (C133).  In EGF two equally rated
    players who draw both gain the bonus term, for every rating from -900 to 3300, so
    agreed draws inflate the pool (`C133_equal_egf_refuted`); the same happens in
    Sticko with a positive `beta` (`C133_equal_sticko_refuted`).  Both are part of the
    published formulas.

32. *A less certain opponent can count more* (C134, `C134_fresh_glicko_refuted`,
    `C134_favourite_glicko_refuted`, `C134_favourite_weng_lin_refuted`). A Glicko player with
    the default deviation of 350 gains more by beating an equal with RD 30 than an equal with
    RD 1, because the better known opponent also shrinks the player's own deviation more. The
    effect ends at a deviation of 347. And a clear favourite gains more by beating the
    opponent whose rating is less certain, in Glicko and in Weng-Lin.

33. *The higher rated team need not be the expected winner* (C136, `C136_trueskill_refuted`).
    `expected_score_multi_team` of TrueSkill adds up pairwise chances.  For any two ratings
    a lower rated but less certain team can get the higher expected score when a third, much
    stronger team takes part, since only the less certain team has a chance against it.
34. *Certainty does not always make a match of several teams better* (C137,
    `C137_certain_quality_refuted`).  Among unequal TrueSkill teams, larger uncertainties can
    raise `match_quality_multi_team`, since the strength difference then counts less.
35. *One more win can lower the first DWZ* (C138, `C138_one_more_game_refuted`).
    `get_first_dwz` averages the opponents' ratings.  An additional win against a weak enough
    opponent lowers the average by more than the better percentage gains; an additional loss
    against a strong enough opponent raises the first rating.
36. *A favourite can lose from taking in a player with a positive rating* (C141,
    `C141_weng_lin_one_more_player_refuted`, `C141_trueskill_one_more_player_refuted`).  The
    newcomer adds to the rating sum but also to the joint uncertainty (in TrueSkill also one
    more beta^2), which moves the expected score towards one half.
37. *A very uncertain TrueSkill favourite is expected to lose* (C142,
    `C142_trueskill_favourite_refuted`).  `erfc(0)` is slightly above 1, so Phi jumps down just
    right of 0: for every rating lead there is an uncertainty from which on the favourite's
    expected score is below 1/2 (by less than 1e-7).

38. *Draws in one rating period carry a Glicko player past the opponent* (C144,
    `C144_glicko_draws_pass_refuted`).  The update of a period is a single Newton step from the
    old rating, so n draws against one opponent move the rating towards
    `r - sinh(u)/(q g)` with `u = q g (r - ro)`, and `sinh u > u`.  Two players who only ever draw
    with each other in one long period can therefore swap places.  The same happens in Glicko-2
    (`C144_glicko2_draws_pass_refuted`, whenever the period returns) and in DWZ to
    players at most 50 points apart (`C144_dwz_draws_pass_refuted`).  The code follows the
    published formulas.

39. *One large Weng-Lin game freezes everyone* (C145, `C145_large_game`).  The changes of a
    multi-team game are sums over all opponents.  From 17 players with default ratings on, a
    single game multiplies every uncertainty by sqrt(kappa) = 0.001, also for those who draw or
    lose, and moves the winner from 25 to above 66.  After that nobody's rating moves by more
    than 0.0083 per game and opponent (C129, `C145_team_shares`).  The code follows the
    published algorithm, which leaves the damping factor gamma open; the library fixes it to
    sigma/c.

40. *FIFA knock-out losses never correct a rating* (C147, `C147_fifa_knockout_refuted`).  Outside
    knock-out matches a wrong starting rating is forgotten, whatever the results.  A team that
    only loses knock-out matches keeps any starting rating for ever.  The code follows the
    published rule.

41. *Being boosted pays for being rated lower* (C95, `C95_order_boost_refuted`).  In Glicko-Boost
    the boost sets in with a jump.  Of two players with the same deviation who beat the same
    opponent, the one rated slightly lower, just past the threshold, ends higher.  A boosted
    win also creates points between equally certain players (`C135_equal_boost`).  In Sticko
    the same happens for every lambda above 100 (`C95_order_sticko_refuted`), far from the
    default 2.  Both follow the published formulas.

## 7. Wrong programs

`seeded/LOG.jsonl` has one line per edit of the model: what was edited, which
claim it breaks, which theorems no longer prove, and what was tightened when a
theorem survived although its claim had become false.  Edits that survived
because they do not change the claim (for instance a different but equal
formula) say so.
