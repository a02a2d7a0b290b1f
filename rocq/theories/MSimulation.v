(** Model of /repo/include/model_factory.hpp, /repo/include/simulation.hpp and /repo/src/main.cpp
    (without the argument parser and the messages printed on the terminal). *)
From Verif Require Import Base Arith64 MRandom MNetwork MNetGen MText MNetFile MAgents MDeGroot MDeffuant MActivity MConfig.

(** The agent types for which Simulation<AgentType> is instantiated: agents/*.hpp *)
Inductive agent_kind : Type := Simple | Activity | Inertial | Vector.
Definition agent_of (D : Type) (k : agent_kind) : Type :=
  match k with
  | Simple => simple_agent D
  | Activity => activity_agent D
  | Inertial => inertial_agent D
  | Vector => vector_agent
  end.

(** What the world outside provides: doubles as text, the file system (reading a file by name,
    misc.hpp:12-32), the mathematical library, the generator and its seeding (std::mt19937( seed )),
    the priority queue. *)
Record world (a : Arith) : Type := mkWorld {
  w_lm : Libm a;
  w_gen : Rng a;
  w_pq : PQ a;
  w_seed : Z -> rst w_gen;
  w_fmt : F a -> text;
  w_stod : text -> res (F a);
  w_trunc : F a -> option Z;
  w_read : text -> res text
}.
Arguments w_lm {a}. Arguments w_gen {a}. Arguments w_pq {a}. Arguments w_seed {a}. Arguments w_fmt {a}.
Arguments w_stod {a}. Arguments w_trunc {a}. Arguments w_read {a}.

Section Simulation.
Context {a : Arith} (w : world a).
Notation D := (F a).
Notation g := (w_gen w).

(** The default-constructed agent of each type: agents/*.hpp *)
Definition default_agent (k : agent_kind) : agent_of D k :=
  match k return agent_of D k with
  | Simple => mkSimple (f0 a)
  | Activity => mkActivity (f0 a) (f0 a) (f1 a)
  | Inertial => mkInertial (f0 a) (f0 a) (f1 a) (f0 a)
  | Vector => mkVector []
  end.
(** The text of the agent file for a list of agents (agent_io.hpp:38-62), and reading one (64-102) *)
Definition write_agents (k : agent_kind) : list (agent_of D k) -> res text :=
  match k return list (agent_of D k) -> res text with
  | Simple => agents_to_file simple_columns (fun x => Ok (simple_to_string (w_fmt w) x))
  | Activity => agents_to_file activity_columns (fun x => Ok (activity_to_string (w_fmt w) x))
  | Inertial => agents_to_file inertial_columns (fun x => Ok (inertial_to_string (w_fmt w) x))
  | Vector => agents_to_file vector_columns vector_to_string
  end.
Definition read_agents (k : agent_kind) : text -> res (list (agent_of D k)) :=
  match k return text -> res (list (agent_of D k)) with
  | Simple => agents_from_file (simple_from_string (w_stod w))
  | Activity => agents_from_file (activity_from_string (f1 a) (w_stod w))
  | Inertial => agents_from_file (inertial_from_string (f0 a) (f1 a) (w_stod w))
  | Vector => agents_from_file vector_from_string
  end.

(** std::unique_ptr<Model<AgentT>>: one of the concrete models. Each holds a reference to the network
    of the simulation, which is part of its state here. *)
Inductive model : Type :=
| MDeGroot (x : degroot a)
| MDeffuant (x : deffuant (a:=a) (simple_agent D))
| MVector (x : deffuant (a:=a) vector_agent)
| MActivity (x : ad_model (a:=a) (activity_agent D))
| MInertial (x : inertial_model (a:=a)).

(** The agent type of a model (its member type AgentT). *)
Definition kind_of (x : model) : agent_kind :=
  match x with
  | MDeGroot _ | MDeffuant _ => Simple
  | MVector _ => Vector
  | MActivity _ => Activity
  | MInertial _ => Inertial
  end.
(** simulation.network, through the model *)
Definition net_of (x : model) : network (agent_of D (kind_of x)) D :=
  match x return network (agent_of D (kind_of x)) D with
  | MDeGroot x => dg_net x
  | MDeffuant x => df_net x
  | MVector x => df_net x
  | MActivity x => ad_net x
  | MInertial x => ad_net (im_ad x)
  end.
Definition base_of (x : model) : base :=
  match x with
  | MDeGroot x => dg_base x
  | MDeffuant x => df_base x
  | MVector x => df_base x
  | MActivity x => ad_base x
  | MInertial x => ad_base (im_ad x)
  end.

(** network.agents = l *)
Definition put_agents (x : model) : list (agent_of D (kind_of x)) -> model :=
  match x return list (agent_of D (kind_of x)) -> model with
  | MDeGroot x => fun l => MDeGroot (mkDeGroot (dg_base x) (convergence_tol x) (max_opinion_diff x)
                              (with_agents (dg_net x) l) (agents_current_copy x))
  | MDeffuant x => fun l => MDeffuant (mkDeffuant (df_base x) (homophily_threshold x) (mu x) (use_network x)
                              (with_agents (df_net x) l))
  | MVector x => fun l => MVector (mkDeffuant (df_base x) (homophily_threshold x) (mu x) (use_network x)
                              (with_agents (df_net x) l))
  | MActivity x => fun l => MActivity (mkAD (ad_base x) (ad_set x) (with_agents (ad_net x) l) (contact_prob_list x))
  | MInertial x => fun l => MInertial (mkIM (mkAD (ad_base (im_ad x)) (ad_set (im_ad x))
                              (with_agents (ad_net (im_ad x)) l) (contact_prob_list (im_ad x))) (friction_coefficient x))
  end.

(** ** Model factory. `if constexpr (is_same_v<AgentT, ...>)` is a match on the agent type. *)
(** model_factory.hpp:33-47 *)
Definition create_model_degroot (k : agent_kind) : network (agent_of D k) D -> model_settings D -> res model :=
  match k return network (agent_of D k) D -> model_settings D -> res model with
  | Simple => fun net v =>
      s <- get_degroot v ;;
      '(x, _) <- degroot_ctor (dg_max_iterations s) (dg_convergence_tol s) net ;;
      Ok (MDeGroot x)
  | _ => fun _ _ => Throw ExIncompatible
  end.
(** model_factory.hpp:49-64 *)
Definition create_model_activity_driven (k : agent_kind)
  : network (agent_of D k) D -> model_settings D -> rst g -> res (model * rst g) :=
  match k return network (agent_of D k) D -> model_settings D -> rst g -> res (model * rst g) with
  | Activity => fun net v s =>
      st <- get_activity_driven v ;;
      '(x, s) <- ad_ctor (w_lm w) g (activity_ops D) (default_agent Activity) st net s ;;
      Ok (MActivity x, s)
  | _ => fun _ _ _ => Throw ExIncompatible
  end.
(** model_factory.hpp:66-81 *)
Definition create_model_activity_driven_inertial (k : agent_kind)
  : network (agent_of D k) D -> model_settings D -> rst g -> res (model * rst g) :=
  match k return network (agent_of D k) D -> model_settings D -> rst g -> res (model * rst g) with
  | Inertial => fun net v s =>
      st <- get_inertial v ;;
      '(x, s) <- inertial_ctor (w_lm w) g (default_agent Inertial) (in_activity st) (in_friction st) net s ;;
      Ok (MInertial x, s)
  | _ => fun _ _ _ => Throw ExIncompatible
  end.
(** model_factory.hpp:83-98 *)
Definition create_model_deffuant (k : agent_kind)
  : network (agent_of D k) D -> model_settings D -> rst g -> res (model * rst g) :=
  match k return network (agent_of D k) D -> model_settings D -> rst g -> res (model * rst g) with
  | Simple => fun net v s =>
      st <- get_deffuant v ;;
      x <- deffuant_ctor (default_agent Simple) (df_max_iterations st) (df_homophily_threshold st) (df_mu st)
             (df_use_network st) net ;;
      l <- initialize_agents_simple (agents (df_net x)) ;;
      Ok (put_agents (MDeffuant x) l, s)
  | _ => fun _ _ _ => Throw ExIncompatible
  end.
(** model_factory.hpp:100-116 *)
Definition create_model_deffuant_vector (k : agent_kind)
  : network (agent_of D k) D -> model_settings D -> rst g -> res (model * rst g) :=
  match k return network (agent_of D k) D -> model_settings D -> rst g -> res (model * rst g) with
  | Vector => fun net v s =>
      st <- get_deffuant v ;;
      x <- deffuant_ctor (default_agent Vector) (df_max_iterations st) (df_homophily_threshold st) (df_mu st)
             (df_use_network st) net ;;
      '(l, s) <- initialize_agents_vector g (Z.to_nat (df_dim st)) (agents (df_net x)) s ;;
      Ok (put_agents (MVector x) l, s)
  | _ => fun _ _ _ => Throw ExIncompatible
  end.

(** ** Simulation<AgentType> *)
(** simulation.hpp:43-61  create_network. n_agents goes through an int (size_t -> int -> size_t). *)
Definition create_network (k : agent_kind) (o : options D) (cli_network_file : option text) (s : rst g)
  : res (network (agent_of D k) D * rst g) :=
  let file := match cli_network_file with Some f => Some f | None => net_file (opt_network o) end in
  match file with
  | Some f =>
      contents <- w_read w f ;;
      net <- generate_from_file (default_agent k) (w_stod w) contents ;;
      Ok (net, s)
  | None =>
      let n_agents := Z.to_nat (to_size_t (to_int32 (net_n_agents (opt_network o)))) in
      let n_connections := Z.to_nat (net_n_connections (opt_network o)) in
      generate_n_connections g (default_agent k) n_agents n_connections true s
  end.

(** simulation.hpp:63-94  create_model *)
Definition create_model (k : agent_kind) (net : network (agent_of D k) D) (o : options D)
           (cli_agent_file : option text) (s : rst g) : res (model * rst g) :=
  '(x, s) <-
    (match opt_model o with
     | DeGroot => x <- create_model_degroot k net (opt_settings o) ;; Ok (x, s)
     | ActivityDriven => create_model_activity_driven k net (opt_settings o) s
     | ActivityDrivenInertial => create_model_activity_driven_inertial k net (opt_settings o) s
     | Deffuant =>
         st <- get_deffuant (opt_settings o) ;;
         if df_use_binary_vector st then create_model_deffuant_vector k net (opt_settings o) s
         else create_model_deffuant k net (opt_settings o) s
     end) ;;
  match cli_agent_file with
  | Some f =>
      contents <- w_read w f ;;
      l <- read_agents (kind_of x) contents ;;
      Ok (put_agents x l, s)
  | None => Ok (x, s)
  end.

(** simulation.hpp:96-106  constructor *)
Definition simulation_ctor (k : agent_kind) (o : options D) (cli_network_file cli_agent_file : option text)
  : res (model * rst g) :=
  let s := w_seed w (opt_rng_seed o) in
  '(net, s) <- create_network k o cli_network_file s ;;
  create_model k net o cli_agent_file s.

(** The virtual members of Model (model.hpp:19-46 and the overriding ones) *)
Definition model_initialize_iterations (x : model) : model :=
  match x with
  | MDeGroot x => MDeGroot (mkDeGroot (initialize_iterations (dg_base x)) (convergence_tol x) (max_opinion_diff x)
                              (dg_net x) (agents_current_copy x))
  | MDeffuant x => MDeffuant (mkDeffuant (initialize_iterations (df_base x)) (homophily_threshold x) (mu x) (use_network x) (df_net x))
  | MVector x => MVector (mkDeffuant (initialize_iterations (df_base x)) (homophily_threshold x) (mu x) (use_network x) (df_net x))
  | MActivity x => MActivity (mkAD (initialize_iterations (ad_base x)) (ad_set x) (ad_net x) (contact_prob_list x))
  | MInertial x => MInertial (mkIM (mkAD (initialize_iterations (ad_base (im_ad x))) (ad_set (im_ad x))
                              (ad_net (im_ad x)) (contact_prob_list (im_ad x))) (friction_coefficient x))
  end.
Definition n_iterations (x : model) : Z := iterations (base_of x).
Definition model_finished (x : model) : bool :=
  match x with
  | MDeGroot x => degroot_finished x
  | MDeffuant x => deffuant_finished x
  | MVector x => deffuant_finished x
  | MActivity x => base_finished (ad_base x)
  | MInertial x => base_finished (ad_base (im_ad x))
  end.
Definition model_iteration (x : model) (s : rst g) : res (model * rst g) :=
  match x with
  | MDeGroot x => x <- degroot_iteration x ;; Ok (MDeGroot x, s)
  | MDeffuant x => '(x, s) <- simple_iteration g x s ;; Ok (MDeffuant x, s)
  | MVector x => '(x, s) <- vector_iteration g x s ;; Ok (MVector x, s)
  | MActivity x => '(x, s) <- activity_iteration (w_lm w) g (w_pq w) x s ;; Ok (MActivity x, s)
  | MInertial x => '(x, s) <- inertial_iteration (w_lm w) g (w_pq w) x s ;; Ok (MInertial x, s)
  end.

(** ** Simulation::run. The files written are recorded as (name in the output directory, contents), in
    the order of writing. Writing is taken to succeed. *)
Definition output : Type := (text * text)%type.
(** fmt::format( "opinions_{}.txt", n ) *)
Definition opinions_name (n : Z) : text := lit "opinions_" ++ fmt_Z n ++ lit ".txt".
Definition network_name (n : Z) : text := lit "network_" ++ fmt_Z n ++ lit ".txt".
Definition write_network (x : model) (n : Z) : res output :=
  c <- network_to_file (w_fmt w) (net_of x) ;; Ok (network_name n, c).
Definition write_opinions (x : model) (n : Z) : res output :=
  c <- write_agents (kind_of x) (agents (net_of x)) ;; Ok (opinions_name n, c).

(** simulation.hpp:150-151 and 158-159  the condition for writing after an iteration; && evaluates the
    modulo only when the other conditions hold *)
Definition due (n_output : option Z) (start_output n : Z) : res bool :=
  match n_output with
  | None => Ok false
  | Some k =>
      if (start_output <=? n)%Z then
        if (k =? 0)%Z then UB UbDivZero else Ok (n mod k =? 0)%Z
      else Ok false
  end.

(** simulation.hpp:132-165  the loop; [fuel] bounds the number of tests of the loop condition *)
Fixpoint run_loop (fuel : nat) (os : output_settings) (x : model) (s : rst g) (log : list output)
  : res (model * rst g * list output) :=
  match fuel with
  | 0 => NoFuel
  | S fuel' =>
      if model_finished x then Ok (x, s, log)
      else
        '(x, s) <- model_iteration x s ;;
        b <- due (n_output_agents os) (start_output os) (n_iterations x) ;;
        log <- (if b : bool then
                  f <- write_opinions x (to_size_t (n_iterations x + start_numbering_from os)) ;; Ok (log ++ [f])
                else Ok log) ;;
        b <- due (n_output_network os) (start_output os) (n_iterations x) ;;
        log <- (if b : bool then
                  f <- write_network x (to_size_t (n_iterations x + start_numbering_from os)) ;; Ok (log ++ [f])
                else Ok log) ;;
        run_loop fuel' os x s log
  end.

(** simulation.hpp:108-175  run *)
Definition run (fuel : nat) (os : output_settings) (x : model) (s : rst g) : res (model * rst g * list output) :=
  log <- (if output_initial os then
            f1 <- write_network x (start_numbering_from os) ;;
            f2 <- write_opinions x (start_numbering_from os) ;;
            Ok [f1; f2]
          else Ok []) ;;
  run_loop fuel os (model_initialize_iterations x) s log.

(** main.cpp:62-96  the choice of the simulation's agent type *)
Definition main_simulation (o : options D) (network_file agent_file : option text) : res (model * rst g) :=
  match opt_model o with
  | DeGroot => simulation_ctor Simple o network_file agent_file
  | ActivityDriven => simulation_ctor Activity o network_file agent_file
  | ActivityDrivenInertial => simulation_ctor Inertial o network_file agent_file
  | Deffuant =>
      st <- get_deffuant (opt_settings o) ;;
      if df_use_binary_vector st then simulation_ctor Vector o network_file agent_file
      else simulation_ctor Simple o network_file agent_file
  end.

(** main.cpp:15-101  main: [root] is the parsed configuration file, [random_seed] what
    std::random_device gives. The result is the final state and the files written. *)
Definition main (fuel : nat) (root : list (text * toml D)) (random_seed : Z) (network_file agent_file : option text)
  : res (model * rst g * list output) :=
  o <- parse_config (w_trunc w) root random_seed ;;
  _ <- validate_settings o ;;
  _ <- print_settings o ;;
  '(x, s) <- main_simulation o network_file agent_file ;;
  run fuel (opt_output o) x s.
End Simulation.
