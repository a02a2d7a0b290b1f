(** Specification vocabulary: models that differ by a change of the opinions or of the numbering of the agents. *)
From Verif Require Import Base Arith64 MNetwork SNetwork MAgents MDeGroot SDeGroot.
From Coq Require Import Reals Permutation.
Local Open Scope R_scope.

(** The opinion of agent [i]. *)
Definition dg_opinion (m : degroot RA) (i : nat) : R := nth i (@opinions RA (dg_net m)) 0.
(** The same numbers of agents, neighbours and weights. *)
Definition same_graph (m m' : degroot RA) : Prop :=
  n_agents (dg_net m) = n_agents (dg_net m') /\ neigh (dg_net m) = neigh (dg_net m') /\ wts (dg_net m) = wts (dg_net m').

(** [sg] renumbers the agents 0, ..., n - 1. *)
Definition renumbering (n : nat) (sg : nat -> nat) : Prop :=
  (forall i, (i < n)%nat -> (sg i < n)%nat) /\ forall i j, (i < n)%nat -> (j < n)%nat -> sg i = sg j -> i = j.
(** [m'] is [m] with agent [i] called [sg i]; the neighbours may be listed in any order. *)
Definition renumbered (sg : nat -> nat) (m m' : degroot RA) : Prop :=
  n_agents (dg_net m) = n_agents (dg_net m') /\ convergence_tol m = convergence_tol m' /\ dg_base m = dg_base m' /\ max_opinion_diff m = max_opinion_diff m' /\
  forall i, (i < n_agents (dg_net m))%nat -> dg_opinion m' (sg i) = dg_opinion m i /\
    Permutation (row (dg_net m') (sg i)) (map (fun p => (sg (fst p), snd p)) (row (dg_net m) i)).
