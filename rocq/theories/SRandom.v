(** Contracts of the C++ library facilities used by the sampling code. *)
From Verif Require Import Base Arith64 MRandom.
From Coq Require Import Permutation Sorting.Sorted.

Section Spec.
Context {a : Arith}.

(** std::sample with forward iterators is stable: the selected elements appear in increasing
    position; it selects min(k, population) of them, without repetition. *)
Definition sample_ok (g : Rng a) : Prop :=
  forall pop k s,
    let ps := fst (r_sample g pop k s) in
    length ps = Nat.min k pop /\ StronglySorted lt ps /\ Forall (fun p => p < pop) ps.

(** uniform_int_distribution(lo, hi) gives a value in [lo, hi]. *)
Definition int_ok (g : Rng a) : Prop :=
  forall lo hi s, (lo <= hi)%Z -> (lo <= fst (r_int g lo hi s) <= hi)%Z.

(** uniform_real_distribution(lo, hi) gives a value in [lo, hi). *)
Definition real_ok (g : Rng a) : Prop :=
  forall lo hi s, flt a lo hi = true ->
    fle a lo (fst (r_real g lo hi s)) = true /\ flt a (fst (r_real g lo hi s)) hi = true.

(** A priority queue is a bag: push adds an item, a non-empty queue has a top, pop removes it. *)
Definition pq_bag (q : PQ a) : Prop :=
  pq_items q (pq_empty q) = [] /\
  (forall x h, Permutation (pq_items q (pq_push q x h)) (x :: pq_items q h)) /\
  (forall h, pq_items q h = [] <-> pq_top q h = None) /\
  (forall h x, pq_top q h = Some x -> Permutation (pq_items q h) (x :: pq_items q (pq_pop q h))).

(** ... whose top has a smallest key whenever the keys are comparable ([x < y] is a strict weak
    order on them; NaN keys void this guarantee, as in C++). *)
Definition pq_ordered (comparable : F a -> Prop) (q : PQ a) : Prop :=
  forall h x, pq_top q h = Some x -> Forall (fun y => comparable (snd y)) (pq_items q h) ->
    forall y, In y (pq_items q h) -> flt a (snd y) (snd x) = false.

End Spec.
