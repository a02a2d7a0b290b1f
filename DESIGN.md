# Formal model of seldon-code/seldon in Rocq (Coq 8.16.1)

## 1. Approach

* **Executable model, function by function.** Every C++ function listed in section 3 becomes a Gallina
  function in a file `theories/M*.v`; each definition carries a comment with file and lines in `/repo`.
* **Outcomes.** `res A := Ok a | Throw e | UB u | NoFuel`. A C++ exception is `Throw`, an access
  the standard leaves undefined (vector index out of range, `top()` of an empty queue, `% 0`, an invalid
  distribution range) is `UB`, an exhausted loop budget of the *model* is `NoFuel` (theorems exclude it
  or use it to express non-termination).
* **Arithmetic.** All numeric code is written once against a record `Arith` (operations and comparisons,
  no laws). Instances: `RA` (real numbers, exact arithmetic), `EA` (reals plus +inf, -inf, NaN with IEEE rules
  but no rounding), `FA` (Flocq IEEE-754 binary64, round to nearest even). Theorems quantified over
  `Arith` hold for the doubles the program uses; theorems at `RA`/`EA` are about exact arithmetic and say so.
  libm functions (`pow`, `log`, `tanh`, ...) are a second record `Libm`.
* **Randomness.** `std::mt19937` and the standard distributions are an oracle `Rng` (a state type and one
  function per distribution) whose contract `rng_ok` is the one the C++ standard gives (draws in range,
  `std::sample` returns a stable sample of size min(k,n)). Theorems hold for every such oracle, i.e.
  for every seed and every implementation. A concrete oracle meeting the contract is exhibited.
* **Unspecified choices** (`std::sort` tie order, `std::priority_queue` tie order) are universally quantified.
* **Text.** Files are `list ascii`. `find`, `substr`, `stoi`, integer formatting and padding are modelled concretely;
  double formatting/parsing (`fmt`, `std::stod`) is a pair of functions with a round-trip contract.
* **Layout.** `Base/Arith` foundations; `M*.v` model only; `S*.v` small specifications which do not use the
  model's helpers; `P*.v` proofs; `T*.v` only the property theorems, each closed by `exact`, with `Print Assumptions`
  and an `Example` that a concrete case meets the hypotheses.

## 2. Properties and plan

See `properties.jsonl` for the statements, `MANIFEST.json` for the status.

| Ids | Modelled | How proved |
|---|---|---|
| C01-C03 | `Network::toggle/transpose/switch` | loop invariants; edge lists up to `Permutation`; exact row order |
| C04 | `remove_double_counting`, any sort permutation | merge invariant over sorted runs; sums in `RA` |
| C05-C07 | all `Network` mutators as an operation machine | invariant by induction over operation lists; frame lemmas; int wrap of the counter |
| C08-C11 | `TarjanConnectivityAlgo` with fuel | DFS invariant (stack, numbering, tree paths); partition and soundness proved; maximality refuted by a 3-node witness, proved for symmetric graphs |
| C12-C14 | `draw_unique_k_from_n`, `reservoir_sampling_A_ExpJ` | oracle contract; invariants on the heap contents; `EA` for zero weights |
| C15-C18 | generators | loop invariants, sums in `RA`, index arithmetic |
| C19-C24 | file writers/readers | scanner lemmas for `find/substr`, print/parse lemmas, induction on rows |
| C25-C28 | DeGroot | generic in arithmetic; convexity in `RA`; contraction argument for convergence |
| C29-C37 | Deffuant (scalar, vector) | per-encounter lemmas lifted over schedules; Flocq rounding lemmas for the double statement |
| C38-C46 | activity-driven model | equality with independent RK4 spec; convexity of RK4 coefficients; set/list invariants for the contact graph |
| C47-C49 | distributions, erfinv | real analysis (Coquelicot derivative), polynomial positivity |
| C50 | inertial model | equality with Verlet spec |
| C51-C53 | configuration, factory, main dispatch | case analysis; record equalities |
| C54-C56 | `Simulation::run` and construction | induction on iterations; event trace |
| C57-C59 | vector Deffuant bias, mean-field weights, whole program | invariants over runs; totality of every modelled path |
| C60-C62 | reservoir sampling and contacts as probabilities | expectations as iterated Riemann integrals over the uniform variates a tape generator hands out; induction on the remaining candidates |
| C63-C64 | the whole sample and the contacts of an active agent | order statistics of the keys: integrals of generalised polynomials over chains, sum over all completions, ties excluded pointwise |
| C65 | text of the written files | equality with an independent description of the layout |
| C66-C68 | accuracy of `erfinv`, truncated normal, Gaussian copula | Gaussian integral (Coquelicot); the derivative of erf(erfinv x) - x is bounded branch by branch through certified polynomial inequalities (Bernstein coefficients, checked by the kernel) and certified bounds for exp and pi |
| C69 | hand-written agent files | the general text lemmas of C21-C23, induction on the columns; with C56, for the agents of the model the program creates from the file on the command line (TColumns2) |
| C70 | infinite encounter histories of a Deffuant run (SConverge), constructed from the generator | telescoping the sum of squares, which an encounter over a gap z lowers by 2 mu (1-mu) z^2 |
| C71 | limits of the opinions along a history | hinge functions are convex, so their totals decrease and converge; so do tents (second differences); an oscillating opinion would make n+1 disjoint tents non-empty at once (pigeonhole); mu = 1 is refuted |
| C72 | the law of the edge list as nested sums over the rows of contacts and the coins (SProb2: over_rows, row_law, over_coins), independent of the model | programs that read boundedly many variates (`reads`, PProb10) compose: what follows sees fresh variates; rows by induction with C63, coins by induction; edge list from update_probabilistic_ok |
| C73 | two complete runs of `main`, the second on files of the first; `same_deterministic_model`, `readable` (SRestart) | simulation relation `agree` (same agents, same parameters up to the limit; networks equal from the first iteration on) kept by every iteration because the mean-field network and the DeGroot average depend on it only; the files give back the saved state by C19/C21; files matched by number with C54 |
| C74 | runs of `degroot_run` and of `main` without a limit; `keeps_share` (SSteady) | the changes of the opinions evolve by the same averaging, so their largest value cannot grow; an agent whose change is almost largest has had almost that change for N steps already, which would move it out of the range of the opinions; so each window of N steps lowers the largest change by a fixed amount. Convergence: an accumulation point (Bolzano-Weierstrass) is a fixed point, to which the distance cannot grow |
| C75 | `stationary`, `weighted_mean`, `listens` (SSteady) | linearity: the consensus from unit vectors gives the weights; positivity from the contraction argument of C27; double sums |
| C76 | runs of `activity_run` at `RA`; `decay` (SRelax) | the four stages written as functions of the opinions (`step_stages`); a row of weight 0 has no pull; alternating series of exp |
| C77 | `bot_target`, `bots_in_place` | the stages of the bots differ from their opinions by O(dt); Lipschitz bound of tanh; geometric sum of the errors |
| C78 | `social_pull`, `total_weight` (SRelax) | the Runge-Kutta step is a mixture with non-negative coefficients of the old opinion and four pulls (`rk4_contracts`), each at most c times the largest opinion |
| C79 | `consensus_value`, `hears_evenly` | tanh is concave on the positive half line: uniqueness; intermediate value theorem: existence; derivative at p below 1: contraction of the step around p |
| C80 | `hears_at_least`, `even_weight`, `contact_chance` | monotonicity and concavity of the pull along the stages (`positive_step`); chord bound for the rate; closed form of the mean-field weights without homophily |
| C81 | `energy`, `energy_rate` (SInertia), runs of `inertial_run` at `RA` | one iteration as a Verlet step (`inertial_components`), polynomial identity for the balance, quadratic-form bound for the rate |
| C82 | `damped_oscillator`, closed forms (SInertia) | Taylor bounds for the oscillator, contraction in the energy norm, sum of the local errors; uniqueness by the energy of a difference |
| C83 | `bot_target`, `inertial_bots_in_place` | hidden bot velocities stay below force / friction; perturbed Verlet steps |
| C84 | `values`, `small_finite`, mean of the values | `met_drift`: the run is a list of meetings (`met`, PDeffuant); per meeting the two roundings of `x + mu (y - x)` and the convex-hull lemma of C32 bound the change of the sum; induction over the meetings. Exact conservation refuted by opinions 1 and 2^-60. |
| C85 | `exact_degroot`, `rows_bounded`, `drift_bound` | forward error analysis of the weighted sum (`row_err`), the step (`step_err`) and the run (`run_err`) against the exact model `exact_degroot`; standard (1+u)^j factors plus underflow terms. Keeping agreement refuted by evaluation for ten agents. |
| C86 | `moderate_state`, `weight_rows`, `tanh_bounded` (SFinite) | slopes are minus the opinion plus a pull below M/2 (`slope_pull`), stages and update up to rounding (`stage_near`, `update_near`), the step as a mixture with pulls that absorb the rounding (`perturbed_step`); rows of the contact graph from C42 |
| C87 | `uni_rng`, `selection` (SLaw): all draws computed from one tape of uniform variates, std::sample by Knuth's algorithm S; `sublists`, `mean_of` | `law` (expectation of everything computed afterwards), binomial recursion for the selection, composed over rows |
| C88 | as C87 | `pair_law`, `pair_law_network` |
| C89 | `average`, `dispersion`, `spread_below` (SLaw) | the change of both quantities in the encounter of a pair, averaged over all pairs (`mean_dispersion`, `mean_deviation`); `grows` iterates it |
| C90 | `component_law` (SLaw), `over_rows` (SProb2) | two coins per differing component (`law_coin2`, `settle_law`), product over components |
| C91 | `products` (SLaw) | one integer draw per component (`bit_law`, `population_law`) |
| C92 | `votes`, `balanced`, `favour` (SVote) | mean of a component after an encounter (`mean_component`, `update_votes`); `favour` is antisymmetric and selection on a balanced network symmetric (`balanced_total`); the lattice is balanced (`lattice_balanced`); `grows` iterates it |
| C93 | `inertial_run` (MActivity), `total_weight`, `energy_rate` | one step contracts the norm sqrt((1 - dt^2/4) x^2 + v^2) up to the pull (`contracted_step`, `pulled_step`), geometric series by `inertial_track`; contact networks give at most n unit weights (C42) |
| C94 | pairs of runs of `main`; `same_except`, `writes_nothing` (SSame) | every run does what the run without output does (`loop_silent`), runs are unique up to fuel; files by the schedule of C54 |
| C95 | as C94; `limit_of`, `shorter` | changing the limit commutes with construction and iteration of every model (`set_limit`), induction on the loop (`loop_prefix`) |
| C96 | as C94; `same_but_seed` | by parsing; the DeGroot loop never touches the generator |
| C97 | as C94 | by parsing, section by section |
| C98 | activity iteration in exact arithmetic; SOde.v says what a solution of the differential equation is | one Runge-Kutta step differs from the solution's Taylor step by O(dt^2) for a Lipschitz field (mean value theorem), errors summed by the discrete Gronwall inequality; first order only, because bots drift inside a step (C77); without a priori bound on the solution, which is derived |
| C99 | inertial iteration in exact arithmetic; SOde2.v says what a solution is | as C98, for pairs (opinion, velocity); the solution is bounded by an energy argument |
| C100 | DeGroot runs in exact arithmetic; SEquiv.v says which models share a graph | induction on the iterations using the characterisation of a run by `iterate` (TDeGroot); the order claim is refuted for negative weights |
| C101 | as C100, plus the stopping rule; second theorem for every `Arith` (including doubles) | sums and maxima do not depend on the order (exact); in any arithmetic each sum is literally the same if the rows are listed in the same order; 1 + 2^-60 - 1 refutes the claim for other listings |
| C102 | Taylor expansion of the solution to fourth order with the `PTaylor` big-O calculus; local error of one step O(dt^5), stages close to the solution, Lipschitz accumulation over the run | hypotheses: bags as queues, ltanh = tanh; rows of the network constant along the run; mean-field corollary has no such hypothesis. With a bot an explicit lower bound dt * c * t e^-t and a refutation of second order |
| C103 | as C102 with the energy bound of C99 for the solution: local errors of position (Taylor) and velocity (trapezoidal rule) are O(dt^3), the implicit friction factor 1 + mu dt/2 only helps | as C102; friction >= 0 |
| C104 | a relation between opinions that is preserved by the two update formulas and by the threshold test is preserved by runs (`PDefSym.run_related`, any arithmetic); instantiated with y = c x + d (exact) and "opposite up to the sign of zero" (doubles, with Flocq, overflow and NaN included); shift refuted in doubles by computation | none besides c <> 0 |
| C105 | the mean-weight matrix of the renumbered model is the renumbered matrix (contact probabilities, reciprocity and affinities are functions of the agents, not of their numbers), so the field commutes with the renumbering, so does one Runge-Kutta / Verlet step, and runs by induction (`PRenum`, `TRenum`); both runs are proved to exist and to leave the generator untouched | stochastic mode (draws are consumed in the order of the numbers); refuted for doubles by computation |
| C106 | the law of an encounter is a mean over pairs of the law of the update; both commute with a renumbering (unordered pairs need the symmetry of the basic update, ordered neighbour pairs do not); composition over encounters and iterations (`PRelabel.Erun_agree`), for a tape of independent uniform variates | at least two agents; the binary-vector claim without a network is refuted by the exact law of two agents (3/4 against 1/4) |
| C107 | the exact law of the network (C72) is a product over agents of successive sampling followed by independent coins; such products are indexed by the agents, hence invariant under a renumbering of the factors (`PNetNumber.over_keys_perm`), and successive sampling and the coins commute with it | exact arithmetic (extended reals, all values finite), at least one contact and fewer contacts than agents; `C107_network_law` for one update, `C107_run_law` for the opinions after any number of iterations (from C108) |
| C108 | the network law (C72) with an arbitrary continuation on the rest of the tape (`PNetRun.network_then`), finiteness of the Runge-Kutta step in extended reals (`step_fin`: it equals the real one and depends on the contacts only as a multiset), induction over iterations | extended reals with finite values and the real tanh; ideal independent uniform variates; contact numbers between 1 and n-1 |
| C109 | C72 with the indicator of an edge; product laws over a set of keys reduced to the two agents concerned (`PEdge.over_keys_two`, rows that sum to one by `successive_total`), coins reduced to one; closer agents by exchanging two agents in every arrangement (`heavier_more_often`); equal weights by induction on the number drawn; mean-field weights from C45 | extended reals with finite values; ideal independent uniform variates; contact numbers between 1 and n-1; the mean-field side in real arithmetic |
| C110 | as C108: the network law with a continuation (`PNetRun.network_then`), what follows the update of the network as a function of the network (`PInertiaRun.after_contacts_ok`), finiteness of drift and Verlet formulas in extended reals (`inertial_field_fin`, `after_contacts_described`), induction over iterations; C107 for inertial runs by renumbering the chain | extended reals with finite values and the real tanh; ideal independent uniform variates; contact numbers between 1 and n-1; 1 + friction dt / 2 nonzero |
| C111 | linearity of expectation over C109 and the fact that `k` different agents are drawn whatever the weights (`PDegree.drawn_sum`); mean-field sum by bounding each round by the share | proved |
| C112 | the quantile function composed with the normal distribution function is differentiated (`TCopula.activity_derive`), integrals are transported by the change of variables of Coquelicot (`is_RInt_comp`), the ends by continuity of the primitive; needs exact `erf`, `sqrt`, `pow` (`math_libm`) | proved |

## 3. Trusted base

**Kernel and axioms.** Coq 8.16.1's kernel (including its virtual machine, used by `vm_compute` in examples and
refutations). No axiom is declared, no kernel check is switched off, there is no `Admitted`. Every `T*.v` file ends
with `Print Assumptions` for its theorems, and `tools/assumptions.py` prints them for all theorems of `MANIFEST.json`;
its output is `ASSUMPTIONS.txt`. In short: the theorems on networks, components, files, configuration defaults, simulation
schedule and everything quantified over an arbitrary arithmetic are closed under the global context; those about real
numbers, IEEE doubles (Flocq) or integrals (Coquelicot) use the four standard-library axioms
`ClassicalDedekindReals.sig_forall_dec`, `ClassicalDedekindReals.sig_not_dec`,
`FunctionalExtensionality.functional_extensionality_dep`, `Classical_Prop.classic` and nothing else.

**Modelled** (each definition cites file and lines):

| File | Code |
|---|---|
| `MNetwork.v` | `network.hpp` (all members), `connectivity.hpp` is in `MTarjan.v` |
| `MNetGen.v` | `network_generation.hpp` (all generators; reading a file is in `MNetFile.v`) |
| `MText.v`, `MNetFile.v`, `MAgents.v` | `misc.hpp` (`parse_comma_separated_list`, `hamming_distance` in `MDeffuant.v`), `network_io.hpp`, `agent_io.hpp`, `agent_generation.hpp`, `agents/*.hpp` |
| `MRandom.v`, `MDist.v` | `util/math.hpp`, `util/erfinv.hpp` |
| `MDeGroot.v`, `MDeffuant.v`, `MActivity.v` | `model.hpp`, `models/*.hpp`, `src/models/*.cpp` |
| `MConfig.v` | `config_parser.hpp/.cpp` (defaults, parsing, validation), `model_factory.hpp` |
| `MSimulation.v` | `simulation.hpp`, `main.cpp` |

**Not modelled, or assumed:**

* terminal output (`print_settings`, progress lines), timing, `argparse`: the program starts from its parsed arguments;
* toml++: the configuration is a table of tables of typed values; `value<T>()` follows toml++'s documented conversions
  (exact integer/double, no narrowing);
* `fmt` for doubles and `std::stod`: a pair of functions; the round-trip theorems state what they need of it
  (`printable`); integers, padding and `std::stoi` are modelled concretely;
* the file system: reading is a function of the name, writing (and creating directories) succeeds; memory allocation succeeds,
  the recursion of the component search does not exhaust the C++ stack;
* `std::mt19937` and the standard distributions: an oracle `Rng` with the contract of the C++ standard. Where a theorem needs
  a contract (`real_ok`, `int_ok`, `sample_ok`) it is a hypothesis and a witness is exhibited. The probability theorems
  (C60-) replace the generator by a tape of independent uniform variates in (0,1), computed with exact extended reals;
  finitely many exceptional values per variate may be ignored (they form a null set);
* `std::sort`, `std::priority_queue`: any implementation that meets the contract (sorted permutation, smallest element on top);
* `pow`, `log`, `tanh`, ... : a record `Libm`; theorems at `RA`/`EA` use the real functions, theorems over arbitrary arithmetic
  use no property of them. For IEEE doubles, no fused multiply-add contraction and no extended precision are assumed
  (the accuracy theorems C66-C68 use exact real arithmetic, `sqrt`, `exp`, `log1p`, `erf` being the mathematical functions: `math_libm`);
* data races and exceptions from the allocator do not occur: the program is single-threaded.

**Simplifications.** References and spans are values; where the code keeps a span across a mutation that would invalidate it the
model answers `UB`. `size_t` is `nat` except where the code mixes signed and unsigned or may wrap (counters, `n_edges`, parsed
indices), where it is `Z` with explicit reduction. Loops that need not end carry fuel in the model; the theorems either show that
enough fuel exists or speak about all amounts of fuel.

**Findings** (claims a user would make that are false of the code, each with a machine-checked refutation `..._refuted`): the
component search misses cross edges (C10); `n_edges` wraps (C07); two leading zero weights break one-slot sampling (C14, C60);
saving an outgoing network loses the direction (C20); empty vectors and empty rows cannot be saved (C21, C24); a middle empty entry of a
list (C22); DeGroot without self-interaction need not converge (C27); NaN counts as converged (C28); rounding can leave the convex hull
(C32); `m = 0` re-uses the previous agent's contacts (C44); mean-field weights can exceed 1 (C46) and ignore drawn activities (C58);
`power_law_distribution::pdf/mean` (C48); validation does not make a configuration usable (C51); zero output interval (C54); a second
`run` of DeGroot (C55); lattice and mean-field options override the network file (C56); the vector model never convinces agent 0 for
mu >= 1 (C57); Deffuant with mu = 1 is accepted but opinions may swap for ever (C71); restarting a mean-field run overwrites its network
file with another network (C73); time steps of 3 and more are accepted but make isolated agents diverge (C76); bots move inside an
iteration, between the Runge-Kutta stages (C77); the critical controversialness of the project's mean-field test is not that of the
code (C80); time steps of 3 make isolated inertial agents diverge (C81); inertial bots acquire a velocity, which is written to the
output, and are displaced when the second force of an iteration is computed (C83); in double precision Deffuant does not conserve the
mean exactly (C84), and DeGroot leaves agreement (C85: ten agents with weights 0.1); with
dt = 10 opinions overflow, and the mean-field approximation with a single agent gives NaN in the first iteration (C86); in the binary-vector
Deffuant model the agent selected first is favoured, (1+mu)/2 against (1-mu)/2 per differing component (C90), and without a network the
lower-numbered agent is always selected first, std::sample being stable (C88),
so that lower-numbered agents are favoured in expectation (C92).

**Bots cost the integrator three orders (C102).** Runge-Kutta 4 integrates the agents with fourth order when there are no bots. With bots it is only a first-order method: the stages move the bots' opinions and they are put back only after the step (C77), so an agent that hears a bot sees it too weak by O(dt) in every step.

**Summation order (C105).** The opinions produced by a mean-field model in double precision depend on how the agents are numbered (`C105_double_refuted`: exchanging the last two of four agents changes the first agent's opinion).

- The mean-field weights are the edge probabilities of the stochastic model only with one contact and activity 1 (C109). With m = 2 of three agents and homophily 0 every agent draws both others, so every edge is present with probability 1, but the mean-field weight is 3/4: the formula ((-w)^(k+1)+w)/(w+1) summed over rounds does not describe sampling without replacement. (It ignores activities below 1 as well, C58.)

## 4. Testing the theorems

`seeded/LOG.jsonl` has one line per wrong program: the definition edited, the edit, the claim it breaks, the theorems that are no longer
proved for the edited model (proof scripts that break are admitted one by one, and a theorem counts as failed if it is admitted itself or
rests on an admitted lemma), and the theorems added or tightened because a wrong program survived or only broke a proof script
although the English claim had become false.
