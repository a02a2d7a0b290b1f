(** Specification vocabulary: double-precision states and the exact states they stand for. *)
From Coq Require Import Reals.
From Flocq Require Import IEEE754.BinarySingleNaN.
From Verif Require Import Base Arith64 RFacts MNetwork SNetwork MAgents MDeGroot.
Local Open Scope R_scope.

Notation double := Arith64.float.
(** The real value of a finite double. *)
Notation value x := (@B2R prec emax x).
(** Unit roundoff of double precision, and half the smallest positive double. *)
Definition u64 : R := / 2 ^ 53.
Definition eta64 : R := / 2 ^ 1075.
(** A bound (about 10^301) well below the largest double. *)
Definition big : R := 2 ^ 1000.

Definition finite_double (x : double) : Prop := is_finite x = true.
(** Finite, and of absolute value at most [M]. *)
Definition small_finite (M : R) (x : double) : Prop := is_finite x = true /\ Rabs (value x) <= M.
(** The real numbers that a list of doubles stands for. *)
Definition values (xs : list double) : list R := map (fun x => value x) xs.

(** The same network, and the same DeGroot model, with real numbers in place of doubles. *)
Definition exact_net (g : network (simple_agent double) double) : network (simple_agent R) R :=
  mkNet (map (fun x => mkSimple (value (s_opinion x))) (agents g)) (neigh g) (map values (wts g)) (dir g).
Definition exact_degroot (m : degroot FA) : degroot RA :=
  mkDeGroot (a:=RA) (dg_base m) (value (convergence_tol m)) None (exact_net (dg_net m))
    (map (fun x => mkSimple (value (s_opinion x))) (agents_current_copy m)).

(** Every row has at most [d] entries, all weights finite, and absolute values that sum up to at most [W]. *)
Definition rows_bounded (g : network (simple_agent double) double) (d : nat) (W : R) : Prop :=
  forall i, (i < n_agents g)%nat -> (length (nth i (wts g) []) <= d)%nat /\
    Forall finite_double (nth i (wts g) []) /\ Rsum (map Rabs (values (nth i (wts g) []))) <= W.

(** (1 + u)^j: the largest factor by which j roundings can change a number. *)
Definition gro (j : nat) : R := (1 + u64) ^ j.
(** Bound for the difference of a double-precision DeGroot run and the exact run after [k] iterations with rows of
    at most [d] entries and absolute row sums at most [W], from opinions of size at most [M]. *)
Definition drift_bound (d : nat) (W M : R) (k : nat) : R :=
  ((gro (S d) * W) ^ k - W ^ k) * (M + INR k * (INR d * eta64)) + INR k * (INR d * eta64) * (gro (S d) * W) ^ k.
