(** Specification vocabulary: infinite Deffuant runs, encounter by encounter. *)
From Verif Require Import Base Arith64 MRandom MNetwork SNetwork MAgents MDeGroot SDeGroot MDeffuant SDeffuant.

(** [history g m s X ps]: started in model [m] with generator state [s], encounter number [t] is one of
    the pair [ps t], which is the pair that the selection returns, and it turns the opinions [X t]
    into [X (S t)]; after [k] iterations the model shows the opinions after [k * n] encounters. *)
Definition history {a : Arith} (g : Rng a) (m : deffuant (simple_agent (F a))) (s : rst g)
           (X : nat -> list (F a)) (ps : nat -> nat * nat) : Prop :=
  X 0 = opinions (df_net m) /\
  (exists st : nat -> rst g, st 0 = s /\ forall t,
     select_interacting_agent_pair g (use_network m) (df_net m) (st t) = Ok ([fst (ps t); snd (ps t)], st (S t))) /\
  (forall t, meets (homophily_threshold m) (mu m) (fst (ps t)) (snd (ps t)) (X t) (X (S t))) /\
  (forall k, exists m' s', simple_run g k m s = Ok (m', s') /\ opinions (df_net m') = X (k * n_agents (df_net m))).

(** [i] and [j] are selected together at encounter [t], in either order. *)
Definition pair_meets (ps : nat -> nat * nat) (i j t : nat) : Prop := ps t = (i, j) \/ ps t = (j, i).
