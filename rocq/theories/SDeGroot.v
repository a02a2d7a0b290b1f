(** Specification vocabulary for the DeGroot model. *)
From Verif Require Import Base Arith64 MNetwork SNetwork MAgents MDeGroot.

Section Spec.
Context {a : Arith}.

(** The opinions in a network, in agent order. *)
Definition opinions (g : network (simple_agent (F a)) (F a)) : list (F a) := map s_opinion (agents g).

(** Sum of weight * opinion over a row of (neighbour, weight) pairs, left to right from 0. *)
Definition weighted_sum (xs : list (F a)) (r : list (nat * F a)) : F a :=
  fold_left (fun acc p => fadd a acc (fmul a (snd p) (nth (fst p) xs (f0 a)))) r (f0 a).

(** The state a model is in between calls: the adjacency lists are consistent and the scratch copy has
    one slot per agent. *)
Definition ready (m : degroot a) : Prop :=
  wf (dg_net m) /\ length (agents_current_copy m) = n_agents (dg_net m).
End Spec.

(** Convex averaging (real weights): every row has non-negative weights that sum to one. *)
From Verif Require Import RFacts.
From Coq Require Import Reals.
Definition stochastic (g : network (simple_agent R) R) : Prop :=
  forall i, i < n_agents g ->
    Forall (fun w => (0 <= w)%R) (nth i (wts g) []) /\ Rsum (nth i (wts g) []) = 1%R.
(** All weights positive. *)
Definition positive_weights (g : network (simple_agent R) R) : Prop :=
  forall i, i < n_agents g -> Forall (fun w => (0 < w)%R) (nth i (wts g) []).
(** Every agent listens to itself. *)
Definition self_listening (g : network (simple_agent R) R) : Prop :=
  forall i, i < n_agents g -> In i (nth i (neigh g) []).
