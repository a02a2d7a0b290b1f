(** Specification vocabulary: Deffuant models (basic or binary vectors) that differ by the numbering of the agents. *)
From Verif Require Import Base Arith64 MNetwork MAgents MDeffuant SEquiv.
From Coq Require Import Permutation.

(** [l'] is [l] with agent [i] called [sg i]. *)
Definition relabelled {A} (sg : nat -> nat) (l l' : list A) : Prop :=
  length l' = length l /\ forall i, (i < length l)%nat -> nth_error l' (sg i) = nth_error l i.
(** The agents of [l'] listed in the order of the old numbers. *)
Definition old_order {A} (d : A) (sg : nat -> nat) (l' : list A) : list A := map (fun i => nth (sg i) l' d) (seq 0 (length l')).

(** [m'] is [m] with agent [i] called [sg i]: the same parameters, the same agents, and (if the network is used) the same
    neighbours under their new numbers, listed in any order. *)
Definition df_renumbered {A} (sg : nat -> nat) (m m' : deffuant (a:=RA) A) : Prop :=
  homophily_threshold m' = homophily_threshold m /\ mu m' = mu m /\ use_network m' = use_network m /\
  relabelled sg (agents (df_net m)) (agents (df_net m')) /\
  (use_network m = true -> forall i, (i < n_agents (df_net m))%nat ->
     Permutation (nth (sg i) (neigh (df_net m')) []) (map sg (nth i (neigh (df_net m)) []))).
