(** Vocabulary for the expected opinions of the binary-vector Deffuant model. *)
From Verif Require Import Base Arith64 MNetwork MAgents SProb SLaw SDeffuant.
From Coq Require Import Reals.
Local Open Scope R_scope.

(** The sum over all agents of component [c] (for zeros and ones: how many agents hold a one). *)
Definition votes (c : nat) (l : list vector_agent) : R := total (fun x => IZR (nth c (v_opinion x) 0%Z)) l.

(** [balanced net d]: every agent has [d] entries in its list of neighbours, all of them agents, and [j]
    is as often a neighbour of [i] as [i] is a neighbour of [j]. *)
Definition balanced {A W : Type} (net : network A W) (d : nat) : Prop :=
  forall i, (i < length (agents net))%nat -> length (nth i (neigh net) []) = d /\
    forall j, (j < length (agents net))%nat ->
      count_occ Nat.eq_dec (nth i (neigh net) []) j = count_occ Nat.eq_dec (nth j (neigh net) []) i.

(** How much the encounter of agents [i] (selected first) and [j] changes the expectation of [votes c]. *)
Definition favour (thr mu : R) (c : nat) (l : list vector_agent) (i j : nat) : R :=
  let u := v_opinion (nth i l (mkVector [])) in
  let v := v_opinion (nth j l (mkVector [])) in
  if Rlt_dec (INR (differing u v)) thr then mu * (IZR (nth c u 0%Z) - IZR (nth c v 0%Z)) else 0.
