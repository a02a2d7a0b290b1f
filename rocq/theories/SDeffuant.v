(** Specification vocabulary for the Deffuant models. *)
From Verif Require Import Base Arith64 MRandom MNetwork SNetwork MAgents MDeGroot SDeGroot MDeffuant.

Section Spec.
Context {a : Arith} (g : Rng a).

(** Selection is defined: no network is used, or every agent has at least one neighbour (and sizes
    fit a size_t). *)
Definition can_select {A : Type} (use : bool) (net : network A (F a)) : Prop :=
  use = false \/
  (wf net /\ (Z.of_nat (n_agents net) <= 18446744073709551616)%Z /\
   forall i, i < n_agents net -> 0 < length (nth i (neigh net) []) /\
     (Z.of_nat (length (nth i (neigh net) [])) <= 18446744073709551616)%Z).

(** [ps] are the pairs that successive calls of select_interacting_agent_pair return, starting with
    generator state [s] and ending with [s']. *)
Inductive pairs_drawn {A : Type} (use : bool) (net : network A (F a)) : rst g -> list (nat * nat) -> rst g -> Prop :=
| drawn_nil s : pairs_drawn use net s [] s
| drawn_cons s i j s1 ps s2 :
    select_interacting_agent_pair g use net s = Ok ([i; j], s1) ->
    pairs_drawn use net s1 ps s2 -> pairs_drawn use net s ((i, j) :: ps) s2.

(** A selected pair: both are agents; without a network they are two different agents, in increasing
    order (when there are two); with a network the second is a neighbour of the first. *)
Definition valid_pair {A : Type} (use : bool) (net : network A (F a)) (p : nat * nat) : Prop :=
  fst p < n_agents net /\ snd p < n_agents net /\
  (use = false -> 2 <= n_agents net -> fst p < snd p) /\
  (use = true -> In (snd p) (nth (fst p) (neigh net) [])).

(** One encounter of agents [i] and [j] turns opinions [xs] into [xs']. *)
Definition meets (threshold mu : F a) (i j : nat) (xs xs' : list (F a)) : Prop :=
  length xs' = length xs /\
  (forall k, k <> i -> k <> j -> nth_error xs' k = nth_error xs k) /\
  forall x y, nth_error xs i = Some x -> nth_error xs j = Some y ->
    let d := fsub a x y in
    if flt a (fabs a d) threshold then
      (i <> j -> nth_error xs' i = Some (fsub a x (fmul a mu d)) /\
                 nth_error xs' j = Some (fadd a y (fmul a mu d))) /\
      (i = j -> nth_error xs' i = Some (fadd a (fsub a x (fmul a mu d)) (fmul a mu d)))
    else xs' = xs.

(** A sequence of encounters. *)
Inductive met (threshold mu : F a) : list (F a) -> list (nat * nat) -> list (F a) -> Prop :=
| met_nil xs : met threshold mu xs [] xs
| met_cons xs i j xs1 ps xs2 :
    meets threshold mu i j xs xs1 -> met threshold mu xs1 ps xs2 -> met threshold mu xs ((i, j) :: ps) xs2.
End Spec.

(** Number of positions in which two vectors differ. *)
Definition differing (u v : list Z) : nat :=
  length (filter (fun p => negb (fst p =? snd p)%Z) (combine u v)).

(** ** Vectors of opinions *)
Section VectorSpec.
Context {a : Arith} (g : Rng a).

(** [settled mu u v s w s']: the vectors [u] of the first agent and [v] of the second become the common
    vector [w], the draws taking the generator from [s] to [s']. Components that agree are kept. For
    a differing component a fair coin is thrown; on 0 a number of [0,1) is drawn, and if it is greater
    than mu the first agent takes the value of the second. In all other cases the second takes the
    value of the first. *)
Inductive settled (mu : F a) : list Z -> list Z -> rst g -> list Z -> rst g -> Prop :=
| settled_nil s : settled mu [] [] s [] s
| settled_same o u v s w s' : settled mu u v s w s' -> settled mu (o :: u) (o :: v) s (o :: w) s'
| settled_first o1 o2 u v s s1 x s2 w s' : o1 <> o2 ->
    r_int g 0 1 s = (0%Z, s1) -> r_real g (f0 a) (f1 a) s1 = (x, s2) -> flt a mu x = true ->
    settled mu u v s2 w s' -> settled mu (o1 :: u) (o2 :: v) s (o2 :: w) s'
| settled_second_draw o1 o2 u v s s1 x s2 w s' : o1 <> o2 ->
    r_int g 0 1 s = (0%Z, s1) -> r_real g (f0 a) (f1 a) s1 = (x, s2) -> flt a mu x = false ->
    settled mu u v s2 w s' -> settled mu (o1 :: u) (o2 :: v) s (o1 :: w) s'
| settled_second o1 o2 u v s z s1 w s' : o1 <> o2 ->
    r_int g 0 1 s = (z, s1) -> z <> 0%Z ->
    settled mu u v s1 w s' -> settled mu (o1 :: u) (o2 :: v) s (o1 :: w) s'.

(** One encounter of the agents [i] and [j]. *)
Definition vector_meets (threshold mu : F a) (i j : nat) (l : list vector_agent) (s : rst g)
           (l' : list vector_agent) (s' : rst g) : Prop :=
  length l' = length l /\
  (forall k, k <> i -> k <> j -> nth_error l' k = nth_error l k) /\
  forall u v, nth_error l i = Some (mkVector u) -> nth_error l j = Some (mkVector v) ->
    if flt a (fofZ a (Z.of_nat (differing u v))) threshold
    then exists w, settled mu u v s w s' /\ nth_error l' i = Some (mkVector w) /\ nth_error l' j = Some (mkVector w)
    else l' = l /\ s' = s.

(** [n] encounters of successively selected pairs. *)
Inductive vector_encounters (threshold mu : F a) (use : bool) (net : network vector_agent (F a)) :
  nat -> list vector_agent -> rst g -> list vector_agent -> rst g -> Prop :=
| ve_nil l s : vector_encounters threshold mu use net 0 l s l s
| ve_cons n l s i j s1 l1 s2 l' s' :
    select_interacting_agent_pair g use (with_agents net l) s = Ok ([i; j], s1) ->
    vector_meets threshold mu i j l s1 l1 s2 ->
    vector_encounters threshold mu use net n l1 s2 l' s' ->
    vector_encounters threshold mu use net (S n) l s l' s'.
End VectorSpec.
