(** Specification vocabulary for simulations: trajectories, the schedule of output files. *)
From Verif Require Import Base Arith64 MRandom MNetwork MText MNetFile MAgents MDeGroot MDeffuant MActivity MConfig MSimulation.

Section Spec.
Context {a : Arith} (w : world a).
Notation state := (model (a:=a) * rst (w_gen w))%type.

(** [st 0], [st 1], ..., [st k] are successive states: each is obtained from the previous one by one
    iteration, and the model was not finished before it. *)
Definition trajectory (st : nat -> state) (k : nat) : Prop :=
  forall i, i < k -> model_finished (fst (st i)) = false /\
    model_iteration w (fst (st i)) (snd (st i)) = Ok (st (S i)).

(** A file that should be written: which kind, its number, and the state it shows. *)
Inductive file_kind : Type := OpinionsFile | NetworkFile.
Definition planned : Type := (file_kind * Z * model (a:=a))%type.

(** The file on disk is the planned one: its name is opinions_N.txt or network_N.txt, its contents are
    what writing the agents / the network of that state produces. *)
Definition shows (p : planned) (f : text * text) : Prop :=
  match p with
  | (OpinionsFile, n, x) => fst f = lit "opinions_" ++ fmt_Z n ++ lit ".txt" /\
      write_agents w (kind_of x) (agents (net_of x)) = Ok (snd f)
  | (NetworkFile, n, x) => fst f = lit "network_" ++ fmt_Z n ++ lit ".txt" /\
      network_to_file (w_fmt w) (net_of x) = Ok (snd f)
  end.

(** After iteration [i], output with interval [every] is due. *)
Definition is_due (every : option Z) (start : Z) (i : nat) : bool :=
  match every with
  | Some k => (start <=? Z.of_nat i)%Z && (Z.of_nat i mod k =? 0)%Z
  | None => false
  end.

(** All files of a run of [k] iterations, in the order of writing. [x0] is the state before the run,
    [st i] the state after iteration i. *)
Definition schedule (os : output_settings) (x0 : model (a:=a)) (st : nat -> state) (k : nat) : list planned :=
  let first := start_numbering_from os in
  (if output_initial os then [(NetworkFile, first, x0); (OpinionsFile, first, x0)] else []) ++
  flat_map (fun i =>
    let n := (Z.of_nat i + first)%Z in
    (if is_due (n_output_agents os) (start_output os) i then [(OpinionsFile, n, fst (st i))] else []) ++
    (if is_due (n_output_network os) (start_output os) i then [(NetworkFile, n, fst (st i))] else [])) (seq 1 k).

(** The model is one of those without a convergence criterion. *)
Definition counts_only (x : model (a:=a)) : Prop := forall d, x <> MDeGroot d.
End Spec.

(** The agent type that a configuration needs. *)
Definition needs {D : Type} (o : options D) (k : agent_kind) : Prop :=
  match opt_settings o with
  | DeGrootSettings _ => k = Simple
  | ActivityDrivenSettings _ => k = Activity
  | ActivityDrivenInertialSettings _ => k = Inertial
  | DeffuantSettings d => if df_use_binary_vector d then k = Vector else k = Simple
  end.
(** The model that a configuration asks for, with the parameters it gives. *)
Definition runs_as {a : Arith} (o : options (F a)) (x : model (a:=a)) : Prop :=
  match opt_settings o, x with
  | DeGrootSettings d, MDeGroot y => convergence_tol y = dg_convergence_tol d
  | ActivityDrivenSettings st, MActivity y => ad_set y = st
  | ActivityDrivenInertialSettings st, MInertial y =>
      ad_set (im_ad y) = in_activity st /\ friction_coefficient y = in_friction st
  | DeffuantSettings d, MDeffuant y => df_use_binary_vector d = false /\ use_network y = df_use_network d /\
      homophily_threshold y = df_homophily_threshold d /\ mu y = df_mu d
  | DeffuantSettings d, MVector y => df_use_binary_vector d = true /\ use_network y = df_use_network d /\
      homophily_threshold y = df_homophily_threshold d /\ mu y = df_mu d
  | _, _ => False
  end.
(** The limit on iterations that a configuration sets (an int). *)
Definition configured_limit {D : Type} (o : options D) : option Z :=
  match opt_settings o with
  | DeGrootSettings d => dg_max_iterations d
  | ActivityDrivenSettings st => ad_max_iterations st
  | ActivityDrivenInertialSettings st => ad_max_iterations (in_activity st)
  | DeffuantSettings d => df_max_iterations d
  end.

(** What std::stod and reading a file may throw. *)
Definition stod_throws {D : Type} (stod : text -> res D) : Prop :=
  forall t e, stod t = Throw e -> e = ExInvalidArgument \/ e = ExOutOfRange.
Definition read_throws (read : text -> res text) : Prop := forall t e, read t = Throw e -> e = ExRuntime.

(** The sizes in a configuration fit together, for a population without input files. *)
Definition activity_sizes {D : Type} (st : ad_settings D) (n : Z) : Prop :=
  (0 <= m st <= n)%Z /\ (Z.of_nat (n_bots st) <= n)%Z /\
  n_bots st <= length (bot_m st) /\ n_bots st <= length (bot_homophily st) /\
  n_bots st <= length (bot_opinion st) /\ n_bots st <= length (bot_activity st) /\
  forall i, i < n_bots st -> (0 <= nth i (bot_m st) 0 <= n)%Z.
Definition sizes_fit {D : Type} (o : options D) : Prop :=
  net_file (opt_network o) = None /\
  (0 <= net_n_connections (opt_network o) < net_n_agents (opt_network o))%Z /\
  (net_n_agents (opt_network o) < 2 ^ 31)%Z /\
  match opt_settings o with
  | DeGrootSettings _ => True
  | ActivityDrivenSettings st => activity_sizes st (net_n_agents (opt_network o))
  | ActivityDrivenInertialSettings st => activity_sizes (in_activity st) (net_n_agents (opt_network o))
  | DeffuantSettings d =>
      (df_use_network d = true -> exists L, net_n_agents (opt_network o) = (L * L)%Z) /\ (0 <= df_dim d < 2 ^ 31)%Z
  end.
