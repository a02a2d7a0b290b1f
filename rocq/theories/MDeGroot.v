(** Model of /repo/include/model.hpp and of /repo/src/models/DeGroot.cpp. *)
From Verif Require Import Base Arith64 MNetwork MTarjan MAgents.

(** model.hpp:48-50  data members of Model<AgentT>; size_t values are integers below 2^64 *)
Record base : Type := mkBase { max_iterations : option Z; iterations : Z }.
(** model.hpp:16-17. The argument is the std::optional<int> of the settings; it is converted to
    std::optional<size_t>, so a negative limit becomes one just below 2^64. *)
Definition base_ctor (max : option Z) : base := mkBase (option_map to_size_t max) 0.
(** model.hpp:19-22 *)
Definition initialize_iterations (b : base) : base := mkBase (max_iterations b) 0.
(** model.hpp:24-27; the counter wraps around *)
Definition base_iteration (b : base) : base := mkBase (max_iterations b) (to_size_t (iterations b + 1)).
(** model.hpp:34-44 *)
Definition base_finished (b : base) : bool :=
  match max_iterations b with
  | Some m => (m <=? iterations b)%Z
  | None => false
  end.

(** Replace the agents of a network (network.agents is a public member). *)
Definition with_agents {A W : Type} (g : network A W) (l : list A) : network A W :=
  mkNet l (neigh g) (wts g) (dir g).

Section DeGroot.
Variable a : Arith.
Notation agent := (simple_agent (F a)).
Notation net := (network agent (F a)).

(** DeGroot.hpp:23-27 (and the base class). The network is a reference to the simulation's network; it
    is part of the state here. *)
Record degroot : Type := mkDeGroot {
  dg_base : base;
  convergence_tol : F a;
  max_opinion_diff : option (F a);
  dg_net : net;
  agents_current_copy : list agent
}.

(** DeGroot.cpp:24-27  opinions i/n *)
Definition spread_opinions (l : list agent) : res (list agent) :=
  for_n (length l) (fun i l =>
    vset l i (mkSimple (fdiv a (fofZ a (Z.of_nat i)) (fofZ a (Z.of_nat (length l)))))) l.

(** DeGroot.cpp:9-28  constructor; the second component tells how many components were reported in
    the warning (None: no warning). *)
Definition degroot_ctor (max : option Z) (tol : F a) (g : net) : res (degroot * option nat) :=
  components <- strongly_connected_components g ;;
  let n_components := length components in
  let warning := if n_components =? 1 then None else Some n_components in
  l <- spread_opinions (agents g) ;;
  Ok (mkDeGroot (base_ctor max) tol None (with_agents g l) (agents g), warning).

(** DeGroot.cpp:37-48  the averaging loop, filling agents_current_copy *)
Definition degroot_average (g : net) (copy : list agent) : res (list agent) :=
  for_n (n_agents g) (fun i copy =>
    neighbour_buffer <- get_neighbours g i ;;
    weight_buffer <- get_weights g i ;;
    copy <- vset copy i (mkSimple (f0 a)) ;;
    for_n (length neighbour_buffer) (fun j copy =>
      j_index <- vget neighbour_buffer j ;;
      weight <- vget weight_buffer j ;;
      c <- vget copy i ;;
      x <- vget (agents g) j_index ;;
      vset copy i (mkSimple (fadd a (s_opinion c) (fmul a weight (s_opinion x))))) copy) copy.

(** DeGroot.cpp:50-58  the largest change, and copying back *)
Definition degroot_update (copy : list agent) (l : list agent) : res (F a * list agent) :=
  for_n (length l) (fun i st =>
    let '(diff, l) := st in
    x <- vget l i ;;
    c <- vget copy i ;;
    let diff := fmax a diff (fabs a (fsub a (s_opinion x) (s_opinion c))) in
    l <- vset l i c ;;
    Ok (diff, l)) (f0 a, l).

(** DeGroot.cpp:30-59  iteration *)
Definition degroot_iteration (m : degroot) : res degroot :=
  copy <- degroot_average (dg_net m) (agents_current_copy m) ;;
  '(diff, l) <- degroot_update copy (agents (dg_net m)) ;;
  Ok (mkDeGroot (base_iteration (dg_base m)) (convergence_tol m) (Some diff)
        (with_agents (dg_net m) l) copy).

(** DeGroot.cpp:61-70  finished *)
Definition degroot_finished (m : degroot) : bool :=
  base_finished (dg_base m) ||
  match max_opinion_diff m with Some d => flt a d (convergence_tol m) | None => false end.

(** [k] calls of iteration(). *)
Fixpoint degroot_run (k : nat) (m : degroot) : res degroot :=
  match k with
  | 0 => Ok m
  | S k' => m' <- degroot_iteration m ;; degroot_run k' m'
  end.
End DeGroot.
Arguments dg_base {a}. Arguments convergence_tol {a}. Arguments max_opinion_diff {a}. Arguments dg_net {a}.
Arguments agents_current_copy {a}. Arguments mkDeGroot {a}.
Arguments degroot_ctor {a}. Arguments degroot_average {a}. Arguments degroot_update {a}.
Arguments degroot_iteration {a}. Arguments degroot_finished {a}. Arguments degroot_run {a}.
Arguments spread_opinions {a}.
