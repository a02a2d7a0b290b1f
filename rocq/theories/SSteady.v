(** Specification vocabulary for the long-run behaviour of the DeGroot model. *)
From Verif Require Import Base Arith64 MNetwork SNetwork MAgents MDeGroot SDeGroot RFacts.
From Coq Require Import Reals.
Local Open Scope R_scope.

(** Every agent gives its own opinion a weight of at least [delta]. *)
Definition keeps_share (delta : R) (g : network (simple_agent R) R) : Prop :=
  forall i, (i < n_agents g)%nat -> exists w, In (i, w) (row g i) /\ delta <= w.

(** The total weight that agent [i] gives to the opinion of agent [j]. *)
Definition listens (g : network (simple_agent R) R) (i j : nat) : R :=
  Rsum (map snd (filter (fun p => (fst p =? j)%nat) (row g i))).

(** Weights [pi] on the agents (summing to one) that one round of averaging does not change: the weight of
    [j] is what the agents listening to it pass on. *)
Definition stationary (pi : list R) (g : network (simple_agent R) R) : Prop :=
  length pi = n_agents g /\ Rsum pi = 1 /\
  forall j, (j < n_agents g)%nat -> Rsum (map (fun i => nth i pi 0 * listens g i j) (seq 0 (n_agents g))) = nth j pi 0.

(** The mean of the values [xs] with weights [pi]. *)
Definition weighted_mean (pi xs : list R) : R := Rsum (map (fun p => fst p * snd p) (combine pi xs)).

(** After enough iterations from [m], all opinions are and stay arbitrarily close to those in [ys]. *)
Definition opinions_tend_to (m : degroot RA) (ys : list R) : Prop :=
  forall eps, 0 < eps -> exists T, forall k, (T <= k)%nat ->
    exists m', degroot_run k m = Ok m' /\
      Forall2 (fun x y => Rabs (x - y) < eps) (@opinions RA (dg_net m')) ys.
