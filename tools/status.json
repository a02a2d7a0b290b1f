{
 "C01": [
  "proved",
  "Exact definedness condition (iff) and graph preservation for every well-formed network."
 ],
 "C02": [
  "proved",
  "All moves of the table, for every well-formed network."
 ],
 "C03": [
  "proved",
  "Exact row contents after toggle; double toggle = stable sort; identity on sorted rows."
 ],
 "C04": [
  "proved",
  "For any std::sort behaviour on ties; the kept weight is the sum in some order for any addition (so also for doubles) and in stored order for an associative-commutative one."
 ],
 "C05": [
  "proved",
  "Induction over arbitrary call sequences."
 ],
 "C06": [
  "proved",
  "Exact after-state of each setter, throwing calls included."
 ],
 "C07": [
  "proved",
  "n_edges() accumulates in int: the true count reduced to 32 bits (C07_n_edges_general), exact below 2^31 edges, wrong at 2^32 edges (C07_n_edges_refuted)."
 ],
 "C08": [
  "proved",
  "Termination (fuel n+1 always suffices), no UB, partition."
 ],
 "C09": [
  "proved",
  "All graphs with in-range indices."
 ],
 "C10": [
  "proved",
  "Proved for networks with symmetric edges; that it fails for directed networks is C10_maximal_refuted."
 ],
 "C100": [
  "proved",
  "linearity, order, non-expansion, scaling in exact arithmetic; order refuted with negative weights"
 ],
 "C101": [
  "proved",
  "exact arithmetic for any listing; every arithmetic for the corresponding listing; refuted for other listings in doubles"
 ],
 "C102": [
  "proved",
  "Fourth order on any constant network without bots, for every solution of the equation and with a constant independent of the time step and the run; mean-field corollary with existence of the run; with a bot an explicit first-order lower bound, and second order refuted."
 ],
 "C103": [
  "proved",
  "Second order of opinions and velocities on any constant network without bots, constant independent of time step and run; mean-field corollary with existence of the run; instance with the closed-form damped oscillation."
 ],
 "C104": [
  "proved",
  "Affine equivariance of whole runs in exact arithmetic, mirror symmetry in double precision for all values including overflow and NaN; shift invariance in doubles refuted."
 ],
 "C105": [
  "proved",
  "any libm, any number of iterations, activity-driven and inertial; runs exist and do not touch the generator; agents, contact rows and stopping decision are renumbered. The same claim in double precision is refuted."
 ],
 "C106": [
  "proved",
  "basic model with and without network, binary vectors on a network; the same claim for binary vectors without a network is refuted."
 ],
 "C107": [
  "proved",
  "Equality of the laws of one update of the probabilistic contact network, and of the opinions after any number of iterations, under any renumbering of agents and bots."
 ],
 "C108": [
  "proved",
  "Exact law of the opinions after any number of iterations as an explicit Markov chain."
 ],
 "C109": [
  "proved",
  "edge probabilities of the stochastic network in closed form; relation to the mean-field weights (equal for one contact and activity 1, refuted for two contacts)"
 ],
 "C11": [
  "proved",
  "Follows for every graph although C10 fails."
 ],
 "C110": [
  "proved",
  "exact law of a run of the inertial model with probabilistic contacts, in extended reals with finite values; independent of the numbering (C107_inertial_run_law)"
 ],
 "C111": [
  "proved",
  "expected number of contacts and edges of the stochastic network in closed form, bounds; the mean-field contact probabilities of an agent add up to at most its number of contacts"
 ],
 "C112": [
  "proved",
  "exact law of the initial activities (power law on [eps,1]) over the normal number they are computed from, mean activity in closed form, link to the constructor; exact real arithmetic and exact erf/sqrt/pow"
 ],
 "C12": [
  "proved",
  "For every generator meeting std::sample's contract; the surplus case k > population is characterised exactly."
 ],
 "C13": [
  "proved",
  "For every arithmetic, math library, generator, weight callback and priority queue satisfying the bag laws."
 ],
 "C14": [
  "proved",
  "Extended reals (IEEE infinities, no rounding), draws strictly in (0,1); two zero weights refute it (C14_two_zero_weights_refuted)."
 ],
 "C15": [
  "proved",
  "k < n_agents; the unvalidated case k >= n_agents is characterised exactly (padding with agent 0)."
 ],
 "C16": [
  "proved",
  "Row = successive draws divided by their sum for any arithmetic; row sums to one in exact arithmetic."
 ],
 "C17": [
  "proved",
  "Both overloads, any arithmetic."
 ],
 "C18": [
  "proved",
  "Every edge length that fits an int."
 ],
 "C19": [
  "proved",
  "std::stod / fmt round trip of each weight is the hypothesis 'printable' (std contract, shown satisfiable)"
 ],
 "C20": [
  "proved",
  "positive for Incoming, exact transpose for Outgoing (refuted as stated)"
 ],
 "C21": [
  "proved",
  "four agent kinds; empty discrete vector refuted"
 ],
 "C22": [
  "proved",
  "exact description; documented contract refuted for every middle entry"
 ],
 "C23": [
  "proved",
  ""
 ],
 "C24": [
  "proved",
  "refuted in general: UB whenever an agent has no neighbours; exact contents otherwise"
 ],
 "C25": [
  "proved",
  "any arithmetic; constructor included"
 ],
 "C26": [
  "proved",
  "exact reals"
 ],
 "C27": [
  "proved",
  "exact reals; also: without self-interaction it is false (refuted theorem)"
 ],
 "C28": [
  "proved",
  "exact reals for the criterion; zero tolerance in real, extended and IEEE arithmetic; NaN finding"
 ],
 "C29": [
  "proved",
  "any arithmetic, any generator meeting the std contracts"
 ],
 "C30": [
  "proved",
  "basic and network mode; UB characterised for an agent without neighbours"
 ],
 "C31": [
  "proved",
  "exact reals"
 ],
 "C32": [
  "proved",
  "exact reals for 0<=mu<=1; IEEE binary64 for 0<=mu<=1/2; mu=1 with rounding refuted by a concrete run"
 ],
 "C33": [
  "proved",
  "exact reals"
 ],
 "C34": [
  "proved",
  "exact reals"
 ],
 "C35": [
  "proved",
  "any arithmetic; runs of any length; dimension below 2^31"
 ],
 "C36": [
  "proved",
  "length below 2^31 (int counter)"
 ],
 "C37": [
  "proved",
  "population at most 2^53 agents (exact double conversion), IEEE sqrt"
 ],
 "C38": [
  "proved",
  "activity-driven and inertial, any arithmetic, runs of any length; n_bots above the number of agents is undefined behaviour"
 ],
 "C39": [
  "proved",
  "any arithmetic; total for usable settings"
 ],
 "C40": [
  "proved",
  "exact reals; in-degree bound for the probabilistic network"
 ],
 "C41": [
  "proved",
  "exact reals; whole runs including the network draws; activity-driven and inertial"
 ],
 "C42": [
  "proved",
  "any arithmetic; no self contact in extended-real arithmetic; more contacts than agents is undefined behaviour"
 ],
 "C43": [
  "proved",
  "exact reals and binary64"
 ],
 "C44": [
  "proved",
  "the stated claim is false: refuted by a concrete run, and the actual behaviour (previous contacts reused) is proved in general"
 ],
 "C45": [
  "proved",
  "any arithmetic for the weights, exact reals for the sums"
 ],
 "C46": [
  "proved",
  "the stated claim is false in general: refuted by a concrete run; bounds proved, and the claim for at most two contacts"
 ],
 "C47": [
  "proved",
  "exact reals, gamma > 1"
 ],
 "C48": [
  "proved",
  "the stated claim is false: both refuted for all parameters (pdf at every point of (0,1), mean by an explicit positive gap)"
 ],
 "C49": [
  "proved",
  "extended reals with exact sqrt and log1p; accuracy of the approximation is not claimed"
 ],
 "C50": [
  "proved",
  "any arithmetic for the step; exact reals for the implicit equation and rest states"
 ],
 "C51": [
  "proved",
  "validate_settings on doubles (Flocq binary64): accepts iff in range, throws otherwise, never accepts NaN; defaults valid; unchecked combinations refuted"
 ],
 "C52": [
  "proved",
  "every option of every model, exact acceptance condition, unknown entries ignored; toml++ value<T> conversions are a modelled contract"
 ],
 "C53": [
  "proved",
  "Incompatible-type and bad-variant exceptions unreachable from main for every configuration, file contents and random stream (assuming stod/file reading throw only their documented exceptions); the model created has the configured parameters."
 ],
 "C54": [
  "proved",
  "Exact list of files, in order, with contents; zero intervals refuted (accepted by validation, then modulo by zero)."
 ],
 "C55": [
  "proved",
  "Exactly the limit for counting models, at most for DeGroot; no limit or a negative limit never stops; a converged DeGroot model does nothing when run again (refuted)."
 ],
 "C56": [
  "proved",
  "Files used as stated, including the two cases in which the network file is overridden (refuted theorems) and the unchecked agent count."
 ],
 "C57": [
  "proved",
  "exact reals for mu>=1, binary64 for mu=1.0"
 ],
 "C58": [
  "proved",
  "any arithmetic"
 ],
 "C59": [
  "proved",
  "For every generator satisfying the sampling/range contracts."
 ],
 "C60": [
  "proved",
  "Exact probability as an iterated integral over the uniform variates, exact extended-real arithmetic; refuted when the first two weights are zero (always the last index)."
 ],
 "C61": [
  "proved",
  "Every function of the drawn list has the expectation it has under A-Res whenever the latter exists as an iterated integral; A-Res shown to select the top k keys."
 ],
 "C62": [
  "proved",
  "One probabilistic contact step with m=1, exact arithmetic."
 ],
 "C63": [
  "proved",
  "Any k, any sequence; also the expectation of every function of the output."
 ],
 "C64": [
  "proved",
  "One probabilistic contact step, any m < n, exact arithmetic."
 ],
 "C65": [
  "proved",
  "Exact text; number formatting of doubles is a parameter."
 ],
 "C66": [
  "proved",
  "Exact arithmetic; the C library functions sqrt and log1p are assumed exact (math_libm). Erf is defined as the integral and C66_Erf_is_erf shows it is the error function."
 ],
 "C67": [
  "proved",
  "Exact arithmetic, C library functions exact (math_libm). The 1e-9 relative bound needs the probabilities involved to be at least 1e-250; C67_inverse_cdf_always has no such restriction."
 ],
 "C68": [
  "proved",
  "Exact arithmetic, C library functions exact (math_libm). C68_covariance is for any expectation operator under which the two normal variates are standard and uncorrelated."
 ],
 "C69": [
  "proved",
  "Files whose numbers are readable back (printable); inertial rows shorter than 2^31 characters. C69_program_columns is the statement about the agents the program creates."
 ],
 "C70": [
  "proved",
  "encounter-indexed infinite histories, which exist for every run (C70_history); exact arithmetic"
 ],
 "C71": [
  "proved",
  "exact arithmetic; C71_run_converges is the per-iteration view; C71_mu_one_refuted shows that mu < 1 is needed although the settings accept mu = 1"
 ],
 "C72": [
  "proved",
  "exact (extended real) arithmetic with exact pow and log; uniform variates independent on (0,1); 1 <= m < n for every agent (for m = 0 the sampler reuses the previous agent's contacts and for m = n it selects the agent itself, see DESIGN section 3)"
 ],
 "C73": [
  "proved",
  "complete statement, for the models that draw no random numbers while running; hypotheses: doubles in the two files read back, sizes as in C59, limits below 2^31 / 2^64"
 ],
 "C74": [
  "proved",
  "exact real arithmetic; no connectivity assumed; for the program the uniform variates are assumed bounded away from 0 (a zero own weight would break self-interaction)"
 ],
 "C75": [
  "proved",
  "exact real arithmetic"
 ],
 "C76": [
  "proved",
  "step, run, exponential error bound, silent populations; divergence for dt >= 3; exact real arithmetic"
 ],
 "C77": [
  "proved",
  "explicit first-order error bound; the stronger 'bots are fixed within an iteration' is refuted"
 ],
 "C78": [
  "proved",
  "conditional on a bound of the coupling along the run; C78_settings discharges it from the settings"
 ],
 "C79": [
  "proved",
  "values, stationarity, attraction; evenly coupled runs shown to exist for mean-field populations"
 ],
 "C80": [
  "proved",
  "invariant and geometric approach; the formula of the project's test is refuted"
 ],
 "C81": [
  "proved",
  "exact balance, geometric decay, limit; boundedness for every time step is refuted (dt = 3)"
 ],
 "C82": [
  "proved",
  "second-order bound, closed forms, uniqueness"
 ],
 "C83": [
  "proved",
  "explicit first-order error bound; 'bots stay at rest' and 'bots are fixed within an iteration' are refuted"
 ],
 "C84": [
  "proved",
  "IEEE binary64, run with abstract generator"
 ],
 "C85": [
  "proved",
  "IEEE binary64 against exact_degroot"
 ],
 "C86": [
  "proved",
  "IEEE binary64; contract on tanh; probabilistic mode unconditional in the networks, general mode for given weights"
 ],
 "C87": [
  "proved",
  "exact probabilities; all draws computed from one tape of independent uniform variates (std::sample as selection sampling)"
 ],
 "C88": [
  "proved",
  "exact probabilities; all draws computed from one tape of independent uniform variates (std::sample as selection sampling)"
 ],
 "C89": [
  "proved",
  "exact probabilities; all draws computed from one tape of independent uniform variates (std::sample as selection sampling)"
 ],
 "C90": [
  "proved",
  "exact probabilities; all draws computed from one tape of independent uniform variates (std::sample as selection sampling)"
 ],
 "C91": [
  "proved",
  "exact probabilities; all draws computed from one tape of independent uniform variates (std::sample as selection sampling)"
 ],
 "C92": [
  "proved",
  "exact expectations; all draws computed from one tape of independent uniform variates (std::sample as selection sampling)"
 ],
 "C93": [
  "proved",
  "exact arithmetic; friction > 0, dt in (0,1], dt * friction < 4"
 ],
 "C94": [
  "proved",
  "all models, arbitrary arithmetic"
 ],
 "C95": [
  "proved",
  "all models, arbitrary arithmetic"
 ],
 "C96": [
  "proved",
  "arbitrary arithmetic"
 ],
 "C97": [
  "proved",
  "arbitrary arithmetic"
 ],
 "C98": [
  "proved",
  "C98_follows_the_equation for any constant network (bots included), C98_mean_field for the mean-field mode without homophily; first order in dt"
 ],
 "C99": [
  "proved",
  "C99_follows_the_equations for any constant network (bots included), C99_mean_field for the mean-field mode without homophily; first order in dt"
 ]
}