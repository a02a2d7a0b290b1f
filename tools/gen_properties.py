#!/usr/bin/env python3
"""Writes /verif/properties.jsonl (one JSON object per property)."""
import json, os
P = []
def p(title, statement, quantifier, why, anchors):
    P.append(dict(id="C%02d" % (len(P)+1), title=title, statement=statement,
                  quantifier=quantifier, why_tests_cant=why, anchors=anchors))

NET="include/network.hpp"; CON="include/connectivity.hpp"; GEN="include/network_generation.hpp"
NIO="include/network_io.hpp"; AIO="include/agent_io.hpp"; MATH="include/util/math.hpp"; MISC="include/util/misc.hpp"
ADM="include/models/ActivityDrivenModel.hpp"; ADC="src/models/ActivityDrivenModel.cpp"; DEF="include/models/DeffuantModel.hpp"
DEFC="src/models/DeffuantModel.cpp"; DEFV="src/models/DeffuantModelVector.cpp"; DG="src/models/DeGroot.cpp"
INE="src/models/InertialModel.cpp"; CFG="src/config_parser.cpp"; SIM="include/simulation.hpp"; MOD="include/model.hpp"
FAC="include/model_factory.hpp"; ERF="include/util/erfinv.hpp"; MAIN="src/main.cpp"

# ---- Network class
p("toggle keeps the directed graph",
  "toggle_incoming_outgoing() changes only the representation: afterwards direction() is the other value, the agents are untouched, and the multiset of weighted directed edges (source, target, weight) described by get_neighbours/get_weights/direction is the same as before. It is free of out-of-bounds access exactly when every stored neighbour index is below n_agents() and every stored edge has a weight.",
  "all networks (any number of agents, parallel edges and self loops included), all weight types",
  "Tests toggle one 20-agent network; the claim is about every edge multiset, including duplicate edges that a std::set based test cannot even count.",
  [NET+": toggle_incoming_outgoing", NET+": get_neighbours", NET+": get_weights"])
p("transpose and switch obey the documented table",
  "transpose() reverses every edge and keeps direction(); switch_direction_flag() reverses every edge and flips direction() without touching the stored lists; switch equals toggle followed by transpose as a graph; transposing or toggling twice gives back the same graph; all six moves of the table in the class comment hold.",
  "all well-formed networks and both directions",
  "The table is an algebraic law over all networks.",
  [NET+": transpose", NET+": switch_direction_flag", NET+": toggle_incoming_outgoing"])
p("toggle produces sorted rows in a predictable order",
  "After toggle_incoming_outgoing() the row of agent k lists, in increasing order of agent index i, every stored edge i-k with its weight, parallel edges in their old relative order; hence toggling twice stably sorts each row by neighbour index and is the identity on rows that are already sorted.",
  "all well-formed networks",
  "Exact output order for all inputs, including ties.",
  [NET+": toggle_incoming_outgoing"])
p("remove_double_counting sums parallel edges and nothing else",
  "After remove_double_counting() every row's neighbours are strictly increasing, agent j is a neighbour of i exactly when it was before, and the weight stored for (i,j) is the sum of all weights stored for (i,j) before; agents and direction() are unchanged; running it again changes nothing.",
  "all networks in which every neighbour has a weight, and every order in which std::sort may leave equal keys",
  "std::sort is unstable: the claim covers every tie order; sums over arbitrary many parallel edges.",
  [NET+": remove_double_counting"])
p("every history of Network calls keeps the adjacency lists consistent",
  "Starting from any constructor, after any sequence of set_weights, set_neighbours_and_weights, push_back_neighbour_and_weight, transpose, toggle, switch, remove_double_counting and clear calls with in-range indices, there is one neighbour list and one weight list per agent, both of equal length, and all neighbour indices are below n_agents(); no call in such a history is undefined.",
  "all operation sequences of any length",
  "Reachable-state invariant over unbounded histories.",
  [NET+": Network", NET+": set_weights", NET+": set_neighbours_and_weights", NET+": push_back_neighbour_and_weight", NET+": clear"])
p("setters change exactly one row, and a rejected call changes nothing",
  "set_weights / set_neighbours_and_weights / push_back_neighbour_and_weight leave every other agent's row, the agents and the direction alone and make get_neighbours/get_weights of that agent return exactly the data passed; when the buffer lengths disagree they throw and the network is as before.",
  "all networks, indices, buffers",
  "Frame conditions range over all other rows.",
  [NET+": set_weights", NET+": set_neighbours_and_weights", NET+": push_back_neighbour_and_weight"])
p("n_edges counts edges",
  "n_edges() is the sum over agents of n_edges(i), that is the number of weighted edges, as a 32-bit int (the code accumulates in an int): it is exact for fewer than 2^31 edges and wraps beyond, e.g. it is 0 for the complete graph with self-loops on 65536 agents. It is invariant under toggle, transpose and switch, and 0 after clear().",
  "all networks",
  "Needs a sum over arbitrary many rows and 2^31 edges for the overflow.",
  [NET+": n_edges", NET+": clear"])
# ---- Tarjan
p("every agent is reported in exactly one component",
  "strongly_connected_components() terminates without out-of-bounds access for every adjacency list whose neighbour indices are in range, and its components, concatenated, are a permutation of all agent indices (no agent missing or repeated, no empty component).",
  "all directed graphs",
  "Termination and a partition claim over all graphs.",
  [CON+": TarjanConnectivityAlgo", NET+": strongly_connected_components"])
p("reported components are strongly connected",
  "Any two agents in the same reported component can reach each other along the stored edges.",
  "all directed graphs",
  "Existence of paths in every graph.",
  [CON+": depth_first_search"])
p("mutually reachable agents are reported together in undirected networks",
  "In a network in which every edge has a reverse edge, two agents that can reach each other are in the same reported component, i.e. the components are maximal. For directed networks in general this is false of this code, although a user of strongly_connected_components() expects it (the search tests `processed` where Tarjan's algorithm needs `on the stack`): there is a three-agent strongly connected network that is reported as two components.",
  "all networks with symmetric edges; one directed network for the refutation",
  "A counterexample needs a particular cross edge that the single 10-node test graph does not have.",
  [CON+": depth_first_search", NET+": strongly_connected_components"])
p("no warning means strongly connected",
  "If constructing a DeGroot model prints no 'strongly connected components' warning (the number of components is 1) then every agent can reach every other agent.",
  "all networks",
  "Quantifies over all graphs and pairs of agents.",
  [DG+": DeGrootModel::DeGrootModel", CON+": run"])
# ---- sampling
p("draw_unique_k_from_n draws distinct admissible indices",
  "When at least k admissible indices exist, the buffer ends up holding exactly k distinct indices below n in increasing order, none equal to ignore_idx, whatever the buffer held before. (With k larger than the population the surplus entries are left over from the old buffer or zero, so the claim needs the bound.)",
  "all k, n, ignore_idx (absent, below n, equal to n or above), old buffers and generator states",
  "All sizes and all random streams.",
  [MATH+": draw_unique_k_from_n"])
p("weighted reservoir sampling returns k distinct indices",
  "For 1 <= k <= n reservoir_sampling_A_ExpJ fills the buffer with exactly k pairwise distinct indices below n, whatever the weights (zero, infinite or NaN included) and random draws; for k > n it is undefined behaviour; for k = 0 the buffer keeps its old contents.",
  "all k, n, weight callbacks, random streams, and every tie order of the priority queue",
  "All random streams, all tie-breaking choices.",
  [MATH+": reservoir_sampling_A_ExpJ"])
p("a zero-weight index is never sampled",
  "If one index has weight zero, all others have positive weight, and k < n, reservoir_sampling_A_ExpJ never returns the zero-weight index (exact arithmetic with IEEE infinities, draws strictly between 0 and 1). With two zero-weight indices the claim fails.",
  "all k, n, positive weights, draws in (0,1)",
  "A probability-zero claim: testing can only sample draws.",
  [MATH+": reservoir_sampling_A_ExpJ", ADM+": homophily_weight"])
# ---- generation
p("generate_n_connections gives every agent the requested neighbours",
  "With n_connections < n_agents every agent has exactly n_connections distinct incoming neighbours other than itself, in increasing order, followed by itself exactly when self_interaction is set; one weight per neighbour; direction Incoming. (No validation enforces n_connections < n_agents; without it agents get padding edges from agent 0.)",
  "all n_agents, n_connections, flags and generator states",
  "All sizes and random streams.",
  [GEN+": generate_n_connections", MATH+": draw_unique_k_from_n"])
p("generated weights are row-normalised",
  "Networks from generate_n_connections and the random generate_fully_connected have non-negative weights and each agent's incoming weights sum to one (exact arithmetic) whenever the drawn weights do not all vanish; each weight is the drawn value divided by the row's total.",
  "all sizes and generator states",
  "All random streams; sums over rows of any length.",
  [GEN+": generate_n_connections", GEN+": generate_fully_connected"])
p("fully connected networks are fully connected",
  "generate_fully_connected (both overloads) gives every agent the incoming neighbours 0..n_agents-1 in order; with a constant weight every edge has that weight.",
  "all n_agents, weights, generator states",
  "All sizes.",
  [GEN+": generate_fully_connected"])
p("the square lattice is a 4-regular torus",
  "generate_square_lattice(L) has L*L agents; agent x+L*y has exactly the neighbours x±1 (mod L) and y±1 (mod L) with the given weight; the neighbour relation is symmetric with multiplicities; indices are in range for every L >= 1; for L >= 3 the four neighbours are distinct and different from the agent.",
  "all edge lengths L that fit in a C++ int, all weights",
  "All sizes, boundary wrap-around included.",
  [GEN+": generate_square_lattice"])
# ---- I/O
p("network files round-trip",
  "Writing a network with network_to_file and reading it with generate_from_file yields the same neighbour lists and weight lists in the same order, direction Incoming and as many agents, for every well-formed network whose indices fit a C++ int.",
  "all well-formed networks, including agents without neighbours in any position and empty networks; any number printer/parser pair that round-trips the weights in it",
  "All networks and all layouts of separators and line ends.",
  [NIO+": network_to_file", GEN+": generate_from_file"])
p("the network file preserves the directed graph",
  "Reading back a written network gives the same directed graph. (True for direction Incoming; for a network stored as Outgoing the file does not record the direction and the graph comes back transposed.)",
  "all well-formed networks, both directions",
  "Needs both representations of all networks.",
  [NIO+": network_to_file", GEN+": generate_from_file", NET+": direction"])
p("agent files round-trip",
  "agents_to_file followed by agents_from_file gives the same agents in the same order for simple, activity-driven, inertial and (non-empty) discrete-vector agents: every field returns to its own place.",
  "all agent lists; all integers representable as C++ int for vector agents; any number printer/parser that round-trips",
  "All agent populations and field values.",
  [AIO+": agents_to_file", AIO+": agents_from_file", "include/agents/simple_agent.hpp", "include/agents/activity_agent.hpp", "include/agents/inertial_agent.hpp", "include/agents/discrete_vector_agent.hpp"])
p("parse_comma_separated_list visits every entry once, in order",
  "The callback is invoked once per comma-separated entry with indices 0,1,2,... and a string that starts with that entry. The documented contract - the string is exactly the entry - holds for the first entry and the last one but is false in between (the code passes an end position as a length), so numbers parse correctly only because stoi/stod stop at the comma.",
  "all strings shorter than 2^31 characters",
  "All strings, any number of commas.",
  [MISC+": parse_comma_separated_list"])
p("comment lines are ignored and an empty line ends a file",
  "generate_from_file and agents_from_file skip every line starting with '#' wherever it stands, produce one agent per remaining line, and stop silently at the first empty line; the result does not depend on anything after it, nor on the value in the first column of a network file; reading always terminates.",
  "all file contents",
  "All texts; termination.",
  [GEN+": generate_from_file", AIO+": agents_from_file"])
p("network_to_dot_file is defined for every network",
  "network_to_dot_file writes one line per agent listing exactly its neighbours. (It is undefined behaviour as soon as one agent has no neighbours: size()-1 wraps around.)",
  "all networks",
  "All networks; the failure is undefined behaviour which a test cannot observe reliably.",
  [NIO+": network_to_dot_file"])
# ---- DeGroot
p("a DeGroot iteration is one synchronous averaging step",
  "After iteration() every agent's opinion is the weighted sum of the opinions all its neighbours had before the iteration; the network is unchanged, the iteration counter increases by one, and no opinion already updated in this iteration is used.",
  "all well-formed networks, opinions and weights, in any arithmetic (real or IEEE)",
  "Synchronous update has to hold for all topologies and agent orders.",
  [DG+": DeGrootModel::iteration"])
p("DeGroot opinions stay within the initial range",
  "If weights are non-negative and each row sums to one, no opinion ever leaves the interval spanned by the initial opinions, so the maximum never grows and the minimum never falls; a consensus is a fixed point.",
  "all row-stochastic networks, opinions and numbers of iterations (exact arithmetic)",
  "Unbounded iteration count.",
  [DG+": DeGrootModel::iteration"])
p("DeGroot converges to consensus on strongly connected networks",
  "If all weights are positive, rows sum to one, every agent listens to itself and every agent can reach every other, then the spread of opinions tends to zero; therefore for every positive convergence_tol the simulation loop terminates even without max_iterations.",
  "all such networks, initial opinions and tolerances (exact arithmetic)",
  "A limit statement.",
  [DG+": DeGrootModel::iteration", DG+": DeGrootModel::finished", SIM+": Simulation::run"])
p("DeGroot stops exactly when converged or out of iterations",
  "finished() is true exactly when the iteration limit is reached or the largest opinion change of the last iteration is below convergence_tol; that largest change is the maximum over all agents; before the first iteration only the limit counts; with convergence_tol = 0 and no limit the run never stops.",
  "all networks, tolerances, limits, histories",
  "Histories of any length, non-termination.",
  [DG+": DeGrootModel::finished", DG+": DeGrootModel::iteration", MOD+": finished"])
# ---- Deffuant
p("a Deffuant encounter changes only the selected pair, and only below the threshold",
  "An iteration consists of n_agents encounters; each encounter leaves all agents but the two selected unchanged, and leaves these unchanged too unless their opinions differ by less than homophily_threshold.",
  "all populations, random streams and parameters, any arithmetic",
  "All random schedules.",
  [DEF+": iteration", DEFC+": update_rule"])
p("Deffuant selects two valid agents",
  "Without a network and with at least two agents the selected pair are two different agents below n_agents; with a network the second agent is a neighbour of the first; with the lattice the constructor builds, selection is always defined.",
  "all populations and random streams",
  "All random streams.",
  [DEF+": select_interacting_agent_pair", MATH+": draw_unique_k_from_n"])
p("Deffuant conserves the mean opinion",
  "The sum of all opinions is the same after any number of iterations (exact arithmetic).",
  "all populations, random streams, mu, thresholds, iteration counts",
  "Unbounded schedules.",
  [DEF+": iteration", DEFC+": update_rule"])
p("Deffuant opinions stay within the initial range",
  "For 0 <= mu <= 1 no opinion ever leaves the interval spanned by the initial opinions (exact arithmetic); for 0 <= mu <= 1/2 this also holds for IEEE double arithmetic with rounding; for mu = 1 rounding can break it.",
  "all populations, random streams, thresholds, iteration counts; all finite doubles",
  "All doubles and all schedules; rounding corner cases.",
  [DEFC+": update_rule", DEF+": iteration", CFG+": validate_settings"])
p("opinion groups separated by the threshold never interact",
  "If the agents split into a low and a high group and the gap between the groups is at least homophily_threshold, then it stays that way forever: no opinion crosses, the gap does not shrink, and each group keeps its own mean.",
  "all populations, splits, random streams, 0 <= mu <= 1, iteration counts",
  "The 16x16 test checks a single instance; the claim is an invariant over all schedules.",
  [DEFC+": update_rule", DEF+": iteration"])
p("Deffuant dispersion never grows",
  "The sum of squared opinions never increases for 0 <= mu <= 1, and each effective encounter lowers it by exactly 2*mu*(1-mu)*difference^2; the pair's difference is multiplied by exactly 1-2*mu.",
  "all populations, random streams, iteration counts (exact arithmetic)",
  "Unbounded schedules.",
  [DEFC+": update_rule"])
p("vector Deffuant: an effective encounter makes both agents agree",
  "If two agents' vectors have Hamming distance below the threshold, afterwards both hold the same vector, each component of which was held by one of them before; otherwise nothing changes; vectors of different lengths throw and change nothing; components stay binary and dimensions never change in any run.",
  "all vectors, random streams, schedules",
  "All random streams.",
  [DEFV+": update_rule", DEFV+": initialize_agents", MATH+": hamming_distance"])
p("hamming_distance is a metric",
  "hamming_distance counts the differing positions; it is symmetric, zero exactly for equal vectors, bounded by the length and satisfies the triangle inequality; different lengths throw.",
  "all vectors",
  "All vectors of all lengths.",
  [MATH+": hamming_distance"])
p("the lattice option accepts exactly square populations",
  "With use_network the Deffuant constructor succeeds exactly when the number of agents is a perfect square and then installs the lattice with that many agents; otherwise it throws.",
  "all agent counts below 2^52, computed with the double-precision square root the code uses",
  "All counts; rounding of sqrt.",
  [DEF+": DeffuantModelAbstract", GEN+": generate_square_lattice"])
# ---- Activity
p("bot opinions never change",
  "In the activity-driven and inertial models the first n_bots agents have exactly the configured bot opinions after construction and after every iteration.",
  "all settings, networks, random streams, iteration counts, any arithmetic",
  "Unbounded runs, all random streams.",
  [ADM+": get_agents_from_power_law", ADC+": iteration", INE+": iteration"])
p("the activity-driven step is a classical Runge-Kutta step",
  "For agents that are not bots, iteration() advances the opinions by one classical fourth-order Runge-Kutta step of dx_i/dt = -x_i + K/m_i * sum_j w_ij tanh(alpha x_j) on the network of this iteration.",
  "all networks, parameters, opinions (any arithmetic for the stage structure, exact for the formula)",
  "All networks and parameters.",
  [ADC+": iteration", ADM+": get_euler_slopes"])
p("activity-driven opinions stay bounded",
  "For 0 < dt <= 1 no opinion's absolute value ever exceeds the larger of its initial bound and K * (largest total incoming weight) / reluctance; in the probabilistic model the total incoming weight is at most n_agents-1.",
  "all networks per step, random streams, iteration counts (exact arithmetic)",
  "Unbounded iteration counts.",
  [ADC+": iteration", ADM+": get_euler_slopes"])
p("opinion dynamics are odd",
  "Negating all opinions (and bot opinions) before a step negates them after it, for a given network: no opinion sign is favoured; the all-zero state is a fixed point.",
  "all networks, parameters, opinions",
  "Symmetry over all states.",
  [ADM+": get_euler_slopes", ADC+": iteration", INE+": iteration"])
p("probabilistic network update builds a simple contact graph",
  "After an iteration's network update every stored edge is a contact made by an activated agent this round or the reciprocation of one; each contact produces exactly one edge, there are no parallel edges, weights are all 1, an inactive agent initiates nothing, an active one contacts exactly m distinct agents, and the network is stored as incoming edges again.",
  "all populations with m <= n_agents, settings and random streams",
  "All random streams.",
  [ADM+": update_network_probabilistic"])
p("reciprocity extremes",
  "With reciprocity 0 no contact is reciprocated; with reciprocity >= 1 every contact is, so the resulting network is symmetric; an edge that already exists in both directions is never duplicated.",
  "all populations and random streams",
  "All random streams.",
  [ADM+": update_network_probabilistic"])
p("an agent with m = 0 contacts nobody",
  "An activated agent whose m (or bot_m) is 0 has no outgoing contacts in that round. (False: the reservoir sampler returns early and the agent re-uses the contact list of the previously activated agent.)",
  "all populations and random streams",
  "Depends on which agents were active earlier in the same round.",
  [ADM+": update_network_probabilistic", MATH+": reservoir_sampling_A_ExpJ"])
p("mean-field weights follow the contact probabilities",
  "After the mean-field update the incoming weight at i from j is P(j,i) + (1-P(j,i)) * reciprocity * P(i,j), where P(i,j) = max(1, activity_i) * sum over rounds 1..m of ((-w)^(k+1)+w)/(w+1) with w the normalised homophily weight; self weights are zero; the normalised homophily weights of an agent sum to one.",
  "all populations, opinions, settings (exact arithmetic for the sums)",
  "Order of accumulation over all pairs.",
  [ADM+": update_network_mean", ADM+": homophily_weight"])
p("mean-field contact probabilities are probabilities",
  "P(i,j) lies in [0,1]. (False in general: it exceeds 1 when m is large relative to the number of agents; it is bounded by max(1,activity_i)*m*w.)",
  "all populations and settings",
  "Needs all opinion configurations.",
  [ADM+": update_network_mean"])
p("activities lie in [eps,1]",
  "power_law_distribution's inverse_cdf maps [0,1] increasingly onto [eps,1], inverts the cumulative distribution belonging to the documented density, hence every drawn activity lies in [eps,1].",
  "all 0 < eps < 1, gamma > 2 (the validated range), all draws",
  "Continuum of inputs.",
  [MATH+": power_law_distribution", ADM+": get_agents_from_power_law"])
p("power_law_distribution::pdf and mean match the documented density",
  "pdf(x) equals (1-gamma)/(1-eps^(1-gamma)) * x^(-gamma), and mean() is the expectation of that density. (Both are false: a parenthesis is misplaced in pdf, and mean drops a term.)",
  "all parameters in the validated range",
  "Formula identity over a continuum.",
  [MATH+": power_law_distribution::pdf", MATH+": power_law_distribution::mean"])
p("erfinv is odd, sign-preserving and guarded",
  "erfinv returns NaN outside [-1,1], plus/minus infinity at plus/minus 1, zero at 0, is odd, and is positive on (0,1).",
  "all arguments",
  "Continuum of inputs, three polynomial branches.",
  [ERF+": erfinv"])
p("the inertial step is a damped velocity Verlet step",
  "iteration() advances positions by x + v dt + (a - friction v) dt^2/2 using the forces at the old positions, then velocities by the implicit-friction Verlet formula using old and new forces on the same network; a force-free agent at rest stays at rest.",
  "all networks, parameters, states",
  "All states.",
  [INE+": calc_position", INE+": calc_velocity", INE+": iteration"])
# ---- Config / simulation
p("validated settings are in range",
  "If validate_settings returns, every checked parameter lies in its documented range and is not NaN, and every bot list is at least n_bots long; if any is out of range it throws; the default settings pass.",
  "all option records, all doubles including NaN and infinities",
  "All combinations of values.",
  [CFG+": validate_settings", CFG+": check"])
p("unspecified options keep their defaults",
  "parse_config_file sets an option exactly when the corresponding table entry is present with a usable type, otherwise the documented default remains; bot lists default to n_bots copies of the default value and otherwise contain the numeric array elements in order; an unknown model name throws.",
  "all TOML tables",
  "All tables.",
  [CFG+": parse_config_file", CFG+": parse_activity_settings", CFG+": set_if_specified"])
p("main always pairs a model with its own agent type",
  "For every parsed configuration the simulation created has the agent type its model needs, so 'Incompatible agent and model type!' and a bad variant access are never raised.",
  "all configurations",
  "All option combinations.",
  [MAIN+": main", FAC+": create_model_*", SIM+": create_model"])
p("output files appear exactly on schedule",
  "A run writes opinions_k/network_k for the initial state (k = start_numbering_from) if output_initial, and after iteration i (k = i + start_numbering_from) exactly when i >= start_output and i is a multiple of n_output_agents / n_output_network; each file holds the state after that iteration; no file is written twice. (An interval of 0 is undefined behaviour and is not rejected.)",
  "all models, settings, run lengths",
  "All iteration counts and settings.",
  [SIM+": Simulation::run"])
p("a run performs exactly max_iterations iterations",
  "With max_iterations = k a Deffuant, activity-driven or inertial run performs exactly k iterations and stops; a DeGroot run performs at most k; calling run() again restarts the count; without a limit the former never stop.",
  "all models, limits, random streams",
  "All run lengths, non-termination.",
  [SIM+": Simulation::run", MOD+": finished", MOD+": initialize_iterations"])
p("command line files override generated input",
  "A network file given on the command line overrides all network settings: the simulated neighbours and weights are those of the file (except for Deffuant with use_network, which always builds a lattice, and activity models with mean_weights, which always build a fully connected network). An agent file replaces the initial agents after the model is constructed and changes nothing else. An unreadable file stops the program with the read error. The number of agents in the agent file is not checked: a DeGroot iteration that succeeds implies the counts fit, otherwise it accesses a vector out of range.",
  "all files and settings",
  "All file contents.",
  [SIM+": create_network", SIM+": create_model"])
p("vector Deffuant with mu >= 1 never convinces the first agent",
  "With mu >= 1 and no network, the vector Deffuant model never changes the opinion of agent 0 in any run, whatever is drawn: influence is one-directional, from the lower to the higher index (a bias of the update rule and of the ordered selection; with mu < 1 the first agent can be convinced).",
  "all populations, dimensions, thresholds, random streams, run lengths",
  "All random streams and run lengths.",
  ["src/models/DeffuantModelVector.cpp: update_rule", "include/util/math.hpp: draw_unique_k_from_n"])
p("mean-field weights ignore activities below 1",
  "In mean-field mode two populations that differ only in activities that are at most 1 (the whole range the power law can produce) get the same weights and the same opinions in the next iteration: the contact probability uses max(1, activity), so drawn activities have no effect.",
  "all populations, settings, random streams, any arithmetic",
  "All populations and activities.",
  ["include/models/ActivityDrivenModel.hpp: update_network_mean"])
p("a configuration whose sizes fit runs to completion",
  "If a configuration parses and validates, its sizes fit together (fewer connections than agents, at most n_agents bots, contacts between 0 and n_agents, a square population for Deffuant on a lattice), it sets a non-negative iteration limit and non-zero output intervals, then the program ends normally, having simulated the configured model with the configured parameters and population; no exception, out-of-range access or empty-queue pop occurs, whatever the random generator returns.",
  "all configurations with fitting sizes, all random streams",
  "All configurations and random streams; absence of undefined behaviour on every path.",
  [MAIN+": main", SIM+": Simulation"])
p("weighted sampling of one index is proportional to the weights",
  "Asked for one index, the weighted sampler returns index i with probability w_i / (w_0 + ... + w_{n-1}), for every list of finite non-negative weights in which at most one of the first two is zero; if the first two weights are both zero it always returns the last index instead (so the claim is refuted there).",
  "all weight functions, all n, exact real arithmetic, independent uniform draws",
  "A probability over a continuum of random streams; tests only sample frequencies.",
  ["include/util/math.hpp: reservoir_sampling_A_ExpJ"])
p("weighted sampling of k indices has the law of the k largest keys",
  "For every k <= n the exponential-jump sampler draws k distinct indices with exactly the distribution of the reference algorithm A-Res, i.e. of the k indices with the largest keys u_i^(1/w_i), u_i independent uniform: jumping over candidates does not bias the sample.",
  "all k <= n, all weights with at most one zero, any function of the drawn set",
  "Equality of two distributions over continuous random streams.",
  ["include/util/math.hpp: reservoir_sampling_A_ExpJ"])
p("an active agent picks its single contact by homophily",
  "With m = 1, in one probabilistic contact step an agent is active with probability equal to its activity, and it contacts agent j != i with probability activity * p_j / sum_{l != i} p_l where p_l = max(1e-10, |x_i - x_l|)^(-homophily); it never contacts itself.",
  "all populations, opinions, activities in [0,1], homophily values",
  "A probability over a continuum of random streams.",
  ["include/models/ActivityDrivenModel.hpp: update_network_probabilistic", "include/models/ActivityDrivenModel.hpp: homophily_weight"])
p("weighted sampling of k indices is successive sampling without replacement",
  "For every k <= n the weighted sampler produces each sequence of k different indices with the probability of drawing them one after the other without replacement, each in proportion to its weight among the indices not yet drawn: w_{i1}/W * w_{i2}/(W - w_{i1}) * ...; the expectation of any function of the output follows. At most one weight is zero, and none if k = n.",
  "all k <= n, all weights with at most one zero, all sequences of indices; exact arithmetic, independent uniform draws",
  "A probability over a continuum of random streams.",
  ["include/util/math.hpp: reservoir_sampling_A_ExpJ"])
p("an active agent picks its contacts by homophily without replacement",
  "In one probabilistic contact step an agent is active with probability equal to its activity and then draws its m < n contacts one after the other without replacement, each in proportion to max(1e-10, |x_i - x_j|)^(-homophily) among the agents not yet contacted, never itself.",
  "all populations, opinions, activities in [0,1], homophily values, m < n, all contact sequences",
  "A probability over a continuum of random streams.",
  ["include/models/ActivityDrivenModel.hpp: update_network_probabilistic", "include/models/ActivityDrivenModel.hpp: homophily_weight"])
p("output files have the documented layout",
  "Every agent file consists of a header line naming the columns of the agent type in order and one line per agent in index order: the index right-aligned in 5 characters, a comma, and the agent's numbers in the order of the header, separated by a comma and a space, right-aligned in 25 characters. Every network file consists of its header line and one line per agent with the index, the number of neighbours, the neighbours and the weights, separated by a comma and a space; lines are separated by newlines.",
  "all agent types, all populations, all networks, all number formats",
  "All populations and networks, character by character.",
  ["include/agent_io.hpp: agents_to_file", "include/network_io.hpp: network_to_file", "include/agents/"])
p("erfinv inverts the error function",
  "For every x in (-1,1) the value y = erfinv(x) satisfies |erf(y) - x| <= 1e-9 * |x|, and also |erf(y) - x| <= 1e-9 * (1 - |x|) whenever |x| <= 1 - 1e-250, where erf is the integral of 2/sqrt(pi) exp(-t^2) from 0; all coefficients of the rational approximations matter.",
  "all x in (-1,1), a continuum; exact arithmetic",
  "An accuracy bound over a continuum of arguments against a function that has no closed form.",
  ["include/util/erfinv.hpp: erfinv"])
p("the truncated normal distribution samples the truncated normal law",
  "inverse_cdf inverts the distribution function of the normal distribution (mean, sigma) conditioned on being above eps, up to 1e-9; pdf is the density of that distribution above eps (to 15 digits) and 0 below; a draw is the quantile of one uniform variate.",
  "all means, all sigma > 0, all truncation points, all probabilities",
  "Statements about a continuum of parameters against integrals with no closed form.",
  ["include/util/math.hpp: truncated_normal_distribution"])
p("activities and reluctances are coupled by a Gaussian copula",
  "The bivariate normal distribution has standard components with the requested covariance. In the reluctance mode of the activity-driven model every agent that is not a bot starts with an opinion uniform on [-1,1], an activity that is the power-law quantile of Phi(n1), and a reluctance that is the truncated-normal quantile (to 1e-9) of Phi(cov n1 + sqrt(1-cov^2) n2) with n1, n2 the normal variates drawn for that agent.",
  "all populations, seeds, covariances, distribution parameters",
  "All parameters and random streams; involves the exact distribution functions.",
  ["include/util/math.hpp: bivariate_normal_distribution, bivariate_gaussian_copula", "include/models/ActivityDrivenModel.hpp: get_agents_from_power_law"])
p("missing and additional columns of an agent file",
  "In an agent file written by hand, an activity-driven agent without a third number has reluctance 1, an inertial agent's missing velocity and activity are 0 and its missing reluctance is 1, and numbers beyond the known columns are ignored; the first column (the index) is never used. (An activity-driven line with a single number takes it for both opinion and activity.)",
  "all files, all numbers of columns, all numbers of spaces, all printable values",
  "All files and values.",
  ["include/agents/activity_agent.hpp: agent_from_string", "include/agents/inertial_agent.hpp: agent_from_string", "include/agents/simple_agent.hpp: agent_from_string", "include/agent_io.hpp: agents_from_file"])
p("a Deffuant run makes only boundedly many large moves",
  "In a run with mu in [0,1] the number of encounters of two different agents whose opinions differ by at least d and less than the threshold is at most (sum of squared distances of the initial opinions from any point) / (2 mu (1-mu) d^2), however long the run is.",
  "all populations, networks, generators, run lengths, gaps d",
  "Infinitely many runs and no bound on their length.",
  ["include/models/DeffuantModel.hpp: iteration", "src/models/DeffuantModel.cpp: update_rule"])
p("every Deffuant run converges to opinion clusters",
  "For 0 < mu < 1 the opinion of every agent converges, whatever pairs the generator selects. The limits have the initial sum; two agents with different limits eventually meet only beyond the threshold; two agents that keep meeting end up with equal opinions or at least the threshold apart. (For mu = 1, which the configuration accepts, opinions may swap for ever.)",
  "all populations, networks, generators, infinite schedules of encounters",
  "A statement about infinite runs under every schedule.",
  ["include/models/DeffuantModel.hpp: iteration, select_interacting_agent_pair", "src/models/DeffuantModel.cpp: update_rule"])
p("the law of the random contact network",
  "One probabilistic network update of the activity-driven model draws a network from the documented distribution: independently, each agent contacts nobody with probability 1 - activity and otherwise draws its m contacts successively without replacement in proportion to max(1e-10, |x_i - x_j|)^(-homophily); each contact that is not mutual is reciprocated independently with probability r; the edges are the contacts and the reciprocations. The expectation of every function of the edge set is the one under this law.",
  "all populations, opinions, activities, homophilies, contact counts below the population size, reciprocities in [0,1], all functions of the network",
  "A statement about a probability distribution over all networks; tests can only estimate frequencies.",
  ["include/models/ActivityDrivenModel.hpp: update_network_probabilistic", "include/util/math.hpp: reservoir_sampling_A_ExpJ"])
p("a deterministic run can be continued from its files",
  "If a run of the DeGroot model, or of the (inertial) activity-driven model in the mean-field approximation, has written network_N.txt and opinions_N.txt, and the program is started again on these two files with the same model parameters and output numbering from N, then it runs to its end and every file that both runs write has the same contents: opinions_n.txt for all n, network_n.txt for all n > N (and n = N for DeGroot). (In the mean-field case the network file is ignored on restart and network_N.txt is overwritten with another network.)",
  "all configurations, seeds of either run, limits, tolerances, output intervals, numbers N, populations, arithmetic incl. binary64, every printing of doubles that reads back",
  "All crash/continuation points of all runs; needs the file formats to be lossless for every state.",
  ["include/simulation.hpp: Simulation::create_network, create_model, run", "include/agent_io.hpp", "include/network_io.hpp", "include/models/DeGroot.hpp", "include/models/ActivityDrivenModel.hpp: update_network_mean", "src/main.cpp"])
p("a DeGroot simulation comes to rest on every network",
  "If the weights of every row are non-negative and sum to one and every agent gives its own opinion a positive weight, every opinion converges, whatever the connectivity, and with a positive tolerance the model stops even without a limit on the iterations. The number of iterations is bounded in terms of the smallest own weight, the width of the initial opinions and the tolerance alone: not of the number of agents. For the whole program: a DeGroot run on a generated network ends after a number of iterations that depends only on the tolerance, connections_per_agent and a positive lower bound of the uniform variates.",
  "all networks and populations, all opinions, tolerances, configurations without or with a limit (exact arithmetic)",
  "Termination for every network and a bound uniform in the population size; tests see single runs.",
  ["src/models/DeGroot.cpp: DeGrootModel::iteration, finished", "include/network_generation.hpp: generate_n_connections", "include/simulation.hpp: Simulation::run", "src/main.cpp"])
p("the DeGroot consensus is a fixed weighted mean",
  "On a strongly connected network (row sums one, positive weights, self-interaction) there are positive weights, one per agent and depending on the network only, such that from any initial opinions all opinions converge to the weighted mean of the initial opinions. These weights are stationary under the averaging, any stationary weights give the same value and keep their weighted mean at every iteration, and if the incoming shares of every agent sum to one the consensus is the plain mean.",
  "all strongly connected networks, all initial opinions (exact arithmetic)",
  "A limit of infinitely many iterations, for all networks and initial states.",
  ["src/models/DeGroot.cpp: DeGrootModel::iteration"])
p("an agent that hears nobody decays exponentially",
  "In the activity-driven model an agent (not a bot) without incoming weight has its opinion multiplied in each iteration by 1 - dt + dt^2/2 - dt^3/6 + dt^4/24, so after k iterations it is the initial opinion times exp(-k dt) up to k dt^5/120 relative to the initial opinion (dt <= 1); in particular so in a population in which nobody is ever active (or makes no contacts in the mean-field approximation). (A time step of 3 or more passes validation, and then such opinions grow without bound.)",
  "all populations, networks, schedules of contacts, generators, numbers of iterations, time steps (exact arithmetic)",
  "All runs of all lengths, compared with an exponential.",
  ["include/models/ActivityDrivenModel.hpp: iteration, get_euler_slopes, update_network_probabilistic, update_network_mean"])
p("an agent that hears only bots relaxes to the opinion the bots impose",
  "In the activity-driven model an agent whose incoming weights come from bots follows (x0 - C) exp(-k dt) + C with C = (K/reluctance) * sum of w_b tanh(alpha bot_opinion_b), up to an error of first order in dt that is given explicitly; for one bot and one agent in the mean-field approximation this is the analytic solution of the project's test. Bots hold their configured opinion after each iteration. (Inside an iteration they do not: the bots' own slopes enter the later stages of the Runge-Kutta step, which is why the error is not of fourth order.)",
  "all populations, bot opinions, time steps in (0,1], numbers of iterations, generators (exact arithmetic)",
  "An error bound against an analytic solution for all parameters and run lengths.",
  ["include/models/ActivityDrivenModel.hpp: iteration, reset_bot opinions, get_euler_slopes", "test/test_activity.cpp"])
p("weakly coupled populations become neutral",
  "If in every iteration (|K|/reluctance_i) * (total absolute incoming weight of i) * |alpha| <= c for every agent, with c (1 + 2/3 dt^2) < 1 and dt <= 1, and bots (if any) are neutral, then all opinions converge to 0 geometrically, at a rate that depends on dt and c only, whatever the random contacts are. It suffices that |K|/reluctance * n_agents * |alpha| <= c.",
  "all populations, initial opinions, schedules of random contacts, generators, reluctances (exact arithmetic)",
  "A limit statement uniform over all random networks.",
  ["include/models/ActivityDrivenModel.hpp: iteration, get_euler_slopes, update_network_probabilistic, update_network_mean"])
p("the consensus values of an evenly coupled population",
  "If every agent hears the others with non-negative weights whose sum times K/reluctance is S, then a population that agrees on p with S tanh(alpha p) = p stays at p for ever, for every time step. For alpha S <= 1 the only such value is 0; for alpha S > 1 there are exactly three: 0 and +-p with S - 1/alpha <= p < S; and p attracts a neighbourhood geometrically for small time steps. A mean-field population without homophily and with equal reluctances is evenly coupled, and two agents in contact have S = K/reluctance (the project's two-agent test).",
  "all couplings, controversialness, populations, initial opinions near the value, run lengths (exact arithmetic)",
  "A fixed-point equation without closed form, limits of infinite runs.",
  ["include/models/ActivityDrivenModel.hpp: iteration, get_euler_slopes, update_network_mean", "test/test_activity.cpp"])
p("strongly coupled populations do not become neutral",
  "If every agent's incoming weights are non-negative with K/reluctance times their sum at least S in every iteration, dt <= 1/2 and p = (1-dt) S tanh(alpha p) > 0, then opinions that are all at least mu >= 0 stay at least min(mu, p) for ever and approach p from below geometrically. For the mean-field model without homophily S is a closed formula of the number of agents, m and reciprocity; it does not involve activities up to 1, so the critical controversialness used in the project's test is not that of the code.",
  "all populations, schedules of contacts, initial opinions, run lengths (exact arithmetic)",
  "Invariants of infinite runs, uniform in the population.",
  ["include/models/ActivityDrivenModel.hpp: iteration, get_euler_slopes, update_network_mean", "test/test_activity.cpp: meanfield test"])
p("an inertial agent that hears nobody loses energy",
  "In the inertial activity-driven model let E = v^2 + (1 - dt^2/4) x^2 for the opinion x and velocity v of an agent that hears nobody. One iteration changes E by exactly -(mu dt/2) ((v+v')^2 + dt^2/4 (x+x')^2 + dt^2/4 mu (x+x')(v+v')), mu the friction coefficient. Without friction E is conserved for every time step; with dt < 2 and 0 < mu dt < 4 it decays geometrically, so (dt <= 1) opinion and velocity tend to 0, uniformly in everything but the initial size. For dt = 3 (accepted) opinions grow without bound.",
  "all populations, initial opinions and velocities, time steps, frictions, run lengths, generators (exact arithmetic)",
  "A conservation law and a limit over runs of arbitrary length and all parameters.",
  ["include/models/InertialModel.hpp: iteration, calc_position, calc_velocity"])
p("an inertial agent that hears nobody follows the damped oscillator",
  "The opinion and velocity of an inertial agent that hears nobody stay within t dt^2 (1+mu)^3/2 * M of the solution of y'' = -y - mu y' with the same initial values after k iterations (t = k dt, M the initial size, dt <= 1, dt mu <= 4): the integration is second-order accurate. The solution starting at rest is unique and has the closed over- and under-damped forms.",
  "all initial values, frictions, time steps up to 1, run lengths, generators (exact arithmetic)",
  "An error bound against the solution of a differential equation for all parameters and run lengths.",
  ["include/models/InertialModel.hpp: iteration, calc_position, calc_velocity", "test/test_activity_inertial.cpp"])
p("an inertial agent that hears only bots relaxes like the damped oscillator",
  "An inertial agent whose incoming weights come from bots follows the damped oscillator around C = (K/reluctance) * sum of w_b tanh(alpha bot_opinion_b), up to an explicitly given error of first order in dt; for one bot and one agent in the mean-field approximation this is the analytic solution of the project's test. After each iteration bots hold their configured opinion. (Bots do not stay at rest: they acquire a velocity, which is written to the output, and the second force of an iteration sees displaced bots.)",
  "all populations, bot opinions, frictions > 0, time steps up to 1, run lengths, generators (exact arithmetic)",
  "An error bound against an analytic solution for all parameters and run lengths.",
  ["include/models/InertialModel.hpp: iteration, calc_position, calc_velocity", "include/models/ActivityDrivenModel.hpp: reset_bot opinions", "test/test_activity_inertial.cpp"])
p("Deffuant with doubles almost conserves the mean",
  "In IEEE double precision with mu <= 1/2 and opinions of absolute value at most M, every iteration of the Deffuant model changes the mean opinion by at most 2^-52 M, so k iterations change it by at most k 2^-52 M; opinions stay finite and at most M in size. The mean is not exactly conserved.",
  "all populations, networks, initial opinions, thresholds, mu <= 1/2, generators and run lengths (IEEE binary64)",
  "An error bound for accumulated rounding over runs of arbitrary length.",
  ["include/models/DeffuantModel.hpp: update_rule, iteration"])
p("DeGroot with doubles follows the exact run",
  "A DeGroot run in IEEE double precision stays finite and, for rows of at most d entries whose absolute weights sum up to at most W, stays within an explicit bound of the run in exact arithmetic from the same weights and opinions: 12 k (d+1) 2^-53 M after k iterations when W^k <= 2, k (d+1) <= 2^52 and opinions are at most M in size. Exact agreement is not kept: ten agents that agree on 1 and listen to each other with weight 0.1 leave 1 after one iteration.",
  "all networks, finite weights and opinions, run lengths (IEEE binary64)",
  "An error bound for accumulated rounding over runs of arbitrary length and networks of every size.",
  ["include/models/DeGroot.hpp: iteration"])
p("activity-driven opinions never become NaN or infinite",
  "In IEEE double precision, with a time step between 2^-20 and 1, finite parameters and reluctances of moderate size (2^-100 to 2^100), at most 2^40 agents and a C library tanh that returns values in [-1,1], opinions of size at most M >= 4 (K/reluctance) n (also those of the bots) stay finite and at most M in size in every run of the activity-driven model, whatever the generator draws; with given weights, n may be replaced by a bound on the absolute row sums. This fails for time steps such as 10 (opinions overflow), and for the mean-field approximation with a single agent (0/0).",
  "all populations, parameters, contacts, generators and run lengths (IEEE binary64)",
  "An invariant of rounded Runge-Kutta steps over runs of every length.",
  ["src/models/ActivityDrivenModel.cpp: iteration", "include/models/ActivityDrivenModel.hpp: get_euler_slopes, update_network_probabilistic, update_network_mean"])
p("random selections are uniform",
  "A draw of k different indices from n (with or without an excluded index) returns every set of k eligible indices with the same probability, one in (number of eligible indices choose k), and nothing else. Consequently every network with k distinct other neighbours per agent is generated with the same probability by the network generator with n_connections = k.",
  "all n, k, excluded indices, network sizes",
  "A statement about the exact probabilities of all outcomes; a test sees samples.",
  ["include/util/math.hpp: draw_unique_k_from_n", "include/network_generation.hpp: generate_n_connections"])
p("the law of the Deffuant pair selection",
  "Without a network every pair of agents is selected with probability 2/(n(n-1)), and always with the lower-numbered agent first; with a network the first agent is uniform and the second is uniform among the entries of its neighbour list.",
  "all networks and all pairs",
  "A statement about exact probabilities for populations of every size.",
  ["include/models/DeffuantModel.hpp: select_interacting_agent_pair"])
p("expected convergence of the Deffuant model",
  "If all opinions are closer to each other than the threshold and no network is used, after k iterations of the Deffuant model the expected sum of the squared distances from the mean opinion is exactly (1 - 4 mu (1-mu)/(n-1))^(k n) times the initial one, and the expected distance of every agent's opinion from the mean is (1 - 2 mu/(n-1))^(k n) times the initial one.",
  "all populations of at least two agents, opinions, mu in [0,1], run lengths (exact arithmetic)",
  "Exact expectations over all random runs of arbitrary length.",
  ["include/models/DeffuantModel.hpp: iteration, update_rule, select_interacting_agent_pair"])
p("the law of an encounter of binary vector agents",
  "In an encounter of two agents of the binary-vector Deffuant model that differ in fewer components than the threshold, every differing component settles independently on the value of the agent that was selected first with probability (1+mu)/2 and on the other with probability (1-mu)/2. So the agent that was selected first imposes all its opinions with probability ((1+mu)/2)^d; the two agents are not treated alike unless mu = 0.",
  "all populations, vectors of any length, thresholds, mu in [0,1]",
  "A statement about exact probabilities for vectors of every length.",
  ["src/models/DeffuantModelVector.cpp: update_rule"])
p("initial opinions of the binary vector model are uniform",
  "The initial opinions of the binary-vector Deffuant model: every assignment of vectors of dim zeros and ones to the n agents has probability 2^-(n dim).",
  "all numbers of agents and dimensions",
  "A statement about the exact probabilities of all outcomes.",
  ["src/models/DeffuantModelVector.cpp: initialize_agents"])
p("binary vector opinions are unbiased on the lattice, and biased without a network",
  "In the binary-vector Deffuant model on a network with equally many neighbours for everybody and mutual neighbourhoods (such as the square lattice the model uses), the expected number of agents holding a one in a given component is the same after every number of iterations, for all thresholds and mu in [0,1]. Without a network this holds for mu = 0 only; otherwise an encounter changes the expectation by mu times the mean over all pairs i < j close enough of the difference of the component of i and that of j, i.e. in favour of lower-numbered agents.",
  "all populations, vectors of any length, thresholds, mu in [0,1], run lengths",
  "Exact expectations over all random runs of arbitrary length.",
  ["include/models/DeffuantModel.hpp: iteration, select_interacting_agent_pair", "src/models/DeffuantModelVector.cpp: update_rule", "include/network_generation.hpp: generate_square_lattice"])
p("the inertial model with friction stays bounded for ever",
  "In the inertial activity model with positive friction, a time step in (0, 1] and dt * friction < 4, every agent's opinion and velocity (bots included) stay bounded for ever in exact arithmetic: what remains of the initial values decays geometrically at the rate of the discrete damped oscillator, and the rest is at most (2 dt P + |bot opinion|) / (1 - rate) where P bounds |K / reluctance| times the total incoming weight. On contact networks P = |K / reluctance| * n_agents, so the bound depends on neither the number of iterations nor the generator.",
  "all populations, settings with friction > 0 and dt in (0,1], generators, run lengths",
  "The bound must hold at every iteration of every run of every length, for all random networks.",
  ["src/models/InertialModel.cpp: iteration, calc_position, calc_velocity", "include/models/ActivityDrivenModel.hpp: get_euler_slopes, update_network"])
p("what is written does not influence what is computed",
  "Two configurations that differ only in section [io] end, from the same seed and files, in the same state of the model and the generator. If both number their files from the same start, files of the same name have the same contents. A valid configuration that asks for no files at all ends in the same state and writes nothing.",
  "all configurations (all models), seeds, network and agent files, run lengths",
  "A relation between all pairs of complete runs.",
  ["include/simulation.hpp: run", "src/config_parser.cpp: parse_config_file", "src/main.cpp"])
p("a longer run extends a shorter one",
  "Two configurations that differ only in max_iterations (0 <= n <= n', or no limit for the second): if the longer run succeeds, so does the shorter one, and the files of the shorter run are exactly the first files of the longer run, in the same order.",
  "all configurations (all models), seeds, limits, network and agent files",
  "A relation between all pairs of complete runs of arbitrary length.",
  ["include/simulation.hpp: run", "include/model.hpp: finished, iteration", "src/config_parser.cpp: parse_config_file"])
p("runs are reproducible",
  "With rng_seed in the configuration the outcome does not depend on std::random_device. A DeGroot run from a network file gives the same final state and files for all seeds.",
  "all configurations, seeds, files",
  "A relation between all pairs of runs with different seeds.",
  ["src/config_parser.cpp: parse_config_file", "include/simulation.hpp: Simulation", "src/models/DeGroot.cpp"])
p("other models' settings are ignored",
  "Only the sections simulation, io, model, network and the one named after the chosen model are read: configurations that agree in those give the same run, so the tables of other models may stay in the file.",
  "all configurations, seeds, files",
  "A relation between all pairs of configurations.",
  ["src/config_parser.cpp: parse_config_file, parse_activity_settings", "src/main.cpp"])
p("the activity-driven model follows its differential equation",
  "On a network that does not change between iterations (for example in mean-field mode without homophily) the opinions after k iterations are those of the solution of dx_i/dt = -x_i + K/reluctance_i * sum_j w_ij tanh(alpha x_j), bots at their configured opinions, at time k*dt, up to dt times a constant that depends only on the couplings, the initial opinions and the final time (exact arithmetic).",
  "all networks, settings, initial opinions, solutions, time steps with dt * L <= 1, run lengths",
  "A convergence statement: it ranges over all time steps and all run lengths.",
  ["include/models/ActivityDrivenModel.hpp: iteration, get_euler_slopes, update_network_mean"])
p("the inertial model follows its differential equations",
  "On a network that does not change between iterations, opinions and velocities after k iterations of the inertial model are those of the solution of dx_i/dt = v_i, dv_i/dt = -x_i - friction v_i + K/reluctance_i * sum_j w_ij tanh(alpha x_j) at time k*dt up to dt times a constant that depends only on couplings, initial state, friction and final time; bots keep their opinions while their velocities follow the second equation (exact arithmetic).",
  "all networks, settings, initial states, solutions, time steps with dt * L <= 1, run lengths",
  "A convergence statement: it ranges over all time steps and all run lengths.",
  ["src/models/InertialModel.cpp: iteration, calc_position, calc_velocity", "include/models/ActivityDrivenModel.hpp: get_euler_slopes, update_network_mean"])
p("the DeGroot model is linear, order preserving and non-expansive",
  "In exact arithmetic a DeGroot run from a linear combination of two initial states is the same combination of the two runs; with nonnegative weights agents who start with higher opinions keep them, and with weights summing to one two runs never move apart (largest difference) and rescaling or shifting all opinions rescales or shifts all later ones. With a negative weight the order need not be kept.",
  "all networks, initial opinions, coefficients, numbers of iterations",
  "Relations between pairs and triples of runs of any length.",
  ["src/models/DeGroot.cpp: iteration"])
p("the numbering of DeGroot agents is irrelevant",
  "Renumbering the agents of a DeGroot network (and listing neighbours in any order) renumbers all later states and leaves the stopping iteration unchanged in exact arithmetic. In double precision (in fact in any arithmetic) this holds bit by bit if the neighbours are listed in the corresponding order, and not otherwise.",
  "all networks, renumberings, initial opinions, numbers of iterations",
  "A relation between all pairs of isomorphic networks.",
  ["src/models/DeGroot.cpp: iteration, finished"])
p("without bots the activity-driven integrator is of fourth order, with bots of first",
  "On a network that does not change between iterations and without bots, the opinions after k iterations differ from the solution of dx_i/dt = -x_i + K/reluctance_i * sum_j w_ij tanh(alpha x_j) at time k*dt by at most a constant times dt^4, where the constant depends only on couplings, network, solution and final time. With a bot the error of an agent that hears it is at least a positive constant times dt, because bots are reset only after all stages of a step (exact arithmetic).",
  "all networks, couplings, solutions, time steps, run lengths",
  "A convergence order: it ranges over all time steps and all run lengths.",
  ["include/models/ActivityDrivenModel.hpp: iteration, get_euler_slopes, update_network_mean", "src/models/ActivityDrivenModel.cpp"])
p("without bots the inertial integrator is of second order",
  "On a network that does not change between iterations and without bots, opinions and velocities after k iterations of the inertial model differ from the solution of dx_i/dt = v_i, dv_i/dt = -x_i - friction v_i + K/reluctance_i * sum_j w_ij tanh(alpha x_j) at time k*dt by at most a constant times dt^2, where the constant depends only on couplings, friction, network, solution and final time (exact arithmetic).",
  "all networks, couplings, frictions, solutions, time steps, run lengths",
  "A convergence order: it ranges over all time steps and all run lengths.",
  ["src/models/InertialModel.cpp: iteration, calc_position, calc_velocity", "include/models/ActivityDrivenModel.hpp: get_euler_slopes, update_network_mean"])
p("the Deffuant model has no preferred origin, unit or sign",
  "Replacing all opinions by c*x+d (c not 0) and the threshold by |c| times the threshold replaces all later opinions by c*x+d, for the same random numbers (exact arithmetic). In double precision negating all opinions negates all later ones bit by bit except for the sign of zeros, including overflow and NaN; shifting them does not.",
  "all models, opinions, thresholds, mu, networks, random numbers, numbers of iterations",
  "A relation between all pairs of runs.",
  ["src/models/DeffuantModel.cpp: update_rule", "include/models/DeffuantModel.hpp: iteration, select_interacting_agent_pair"])
p("the numbering of the agents of a mean-field model is irrelevant",
  "If the agents of a mean-field activity-driven (or inertial) model are numbered differently (bots keeping the first numbers, with their opinions, contact numbers and homophilies), every later state, the contact network of every iteration and the stopping decision are the same up to that renumbering, whatever the generator (exact arithmetic). In double precision the opinions can differ in the order of summation.",
  "all models with mean_weights, all renumberings, parameters, libm functions, generators, numbers of iterations",
  "A relation between all pairs of runs; a test fixes one numbering.",
  ["include/models/ActivityDrivenModel.hpp: update_network_mean, get_euler_slopes", "include/models/InertialModel.hpp: iteration", "src/models/ActivityDrivenModel.cpp: iteration"])
p("the law of a Deffuant run does not depend on the numbering of the agents",
  "If the agents of a Deffuant model are numbered differently (and their neighbours, if a network is used, are renamed with them and listed in any order), every quantity of the opinions after any number of iterations has the same expectation, with the numbers translated back; for binary vectors this holds on a network. For binary vectors without a network it is false: the agent with the smaller number prevails more often.",
  "all models, opinions, thresholds, mu, networks, renumberings, numbers of iterations, functions of the opinions",
  "Equality of two probability laws.",
  ["include/models/DeffuantModel.hpp: select_interacting_agent_pair, iteration", "src/models/DeffuantModel.cpp: update_rule", "src/models/DeffuantModelVector.cpp: update_rule"])
p("the law of the contact network does not depend on the numbering of the agents",
  "Two populations that differ only by the numbering of the agents (bots keeping the first numbers, with their contact numbers and homophilies): after one probabilistic update of the network of the activity-driven model every event about the set of contacts has the same probability in both, with the numbers translated back, although agents draw in the order of their numbers and weighted sampling scans the agents in that order.",
  "all populations, opinions, activities, homophilies, contact numbers below the number of agents, reciprocities, renumberings, functions of the set of edges",
  "Equality of two probability laws.",
  ["include/models/ActivityDrivenModel.hpp: update_network_probabilistic", "include/util/math.hpp: reservoir_sampling_A_ExpJ"])
p("the opinions of the activity-driven model with probabilistic contacts form a known Markov chain",
  "With exact arithmetic and independent uniform variates the opinions after any number of iterations have the law of the Markov chain whose transition is: every agent independently is active with its activity and then draws its contacts successively without replacement in proportion to closeness^(-homophily); non-mutual contacts are reciprocated independently; then one classical Runge-Kutta step of x_i' = -x_i + K/reluctance_i sum tanh(alpha x_j) over the contacts of i, after which bots return to their opinions.",
  "all populations with finite values, activities in [0,1], nonzero reluctances, at least one contact and fewer contacts than agents; all numbers of iterations and functions of the opinions",
  "The law of a random trajectory: infinitely many outcomes, each with its own probability.",
  ["src/models/ActivityDrivenModel.cpp: iteration", "include/models/ActivityDrivenModel.hpp: update_network_probabilistic, get_euler_slopes", "include/util/math.hpp: reservoir_sampling_A_ExpJ"])
p("the probability of every edge of the stochastic contact network, and how the mean-field weights relate to it",
  "With exact arithmetic and independent uniform variates, the network after a probabilistic update has the edge from i to another agent j with probability c(i,j) + (1 - c(i,j)) r c(j,i), where c(i,j) is the activity of i times the probability that j is among the agents i draws successively without replacement in proportion to closeness^(-homophily). Without reciprocity and with non-negative homophily the closer of two agents is contacted at least as often. With homophily 0, c(i,j) = activity * m / (n - 1). When all agents have activity 1 and one contact, the mean-field weight of the edge is that probability; with two contacts it is not (the mean-field formula draws with replacement).",
  "all populations with finite values, activities in [0,1], at least one contact and fewer contacts than agents, reciprocities in [0,1]; all pairs of different agents",
  "A probability of a network of dependent edges; the tests check frequencies in a sample with wide tolerances.",
  ["include/models/ActivityDrivenModel.hpp: update_network_probabilistic, update_network_mean", "include/util/math.hpp: reservoir_sampling_A_ExpJ"])
p("the positions and velocities of the inertial model with probabilistic contacts form a known Markov chain",
  "With exact arithmetic and independent uniform variates the positions and velocities after any number of iterations have the law of the Markov chain whose transition is: contacts are drawn, given the positions, as in the activity-driven model (independent activity, successive sampling without replacement in proportion to closeness^(-homophily), independent reciprocation), then one damped velocity Verlet step with these contacts, after which the positions of bots return to their opinions. This law does not depend on the numbering of the agents.",
  "all populations with finite values, activities in [0,1], nonzero reluctances, at least one contact and fewer contacts than agents, 1 + friction dt / 2 nonzero; all numbers of iterations and functions of positions and velocities",
  "The law of a random trajectory: infinitely many outcomes, each with its own probability.",
  ["src/models/InertialModel.cpp: iteration, calc_position, calc_velocity", "include/models/ActivityDrivenModel.hpp: update_network_probabilistic, get_euler_slopes", "include/util/math.hpp: reservoir_sampling_A_ExpJ"])
p("how many agents an agent contacts on average",
  "With exact arithmetic and independent uniform variates, after a probabilistic update of the contact network the expected number of other agents to which agent i has an edge is its activity times its number of contacts plus what reciprocated contacts add (r times the sum over the others of (1 - c(i,j)) c(j,i)); without reciprocity neither opinions nor homophily matter, and the expected number of edges is the sum of activity times contacts over the agents. It is always between activity times contacts and n - 1. The contact probabilities that the mean-field model computes for an agent of activity at most 1 add up to at most its number of contacts.",
  "all populations with finite values, activities in [0,1], at least one contact and fewer contacts than agents, reciprocities in [0,1]; for the mean-field sum all populations of at least two agents",
  "An expectation over all draws; a sample mean only approximates it.",
  ["include/models/ActivityDrivenModel.hpp: update_network_probabilistic, update_network_mean", "include/util/math.hpp: reservoir_sampling_A_ExpJ"])
p("the law of the initial activities",
  "With exact arithmetic and exact normal numbers, the activity that every agent other than a bot of an activity-driven or inertial model starts with (mean_activities off) has exactly the documented power law with parameters eps and gamma on [eps,1], whatever the covariance factor and the distribution of the reluctances: the activity is an increasing function of the normal number it is computed from, with values strictly between eps and 1, the average of every continuous function of the activity over that normal number is its average under the documented density, and the average activity is (1-gamma)/(2-gamma) (1 - eps^(2-gamma))/(1 - eps^(1-gamma)) for gamma other than 2. Its opinion is a number drawn uniformly from [-1,1) when it is its turn.",
  "all eps in (0,1), gamma above 1, covariances, reluctance distributions, generators, networks and continuous functions of the activity",
  "An integral over the whole real line; a sample can only approximate it.",
  ["include/util/math.hpp: bivariate_gaussian_copula, power_law_distribution", "include/models/ActivityDrivenModel.hpp: get_agents_from_power_law"])
out = os.path.join(os.path.dirname(os.path.dirname(os.path.abspath(__file__))), "properties.jsonl")
with open(out, "w") as f:
    for q in P: f.write(json.dumps(q) + "\n")
print(len(P))
