(** Specification vocabulary: averages over a standard normal number. *)
From Coq Require Import Reals.
From Coquelicot Require Import Coquelicot.
From Verif Require Import SGauss.
Local Open Scope R_scope.

(** The average of [f z] over a standard normal [z] is [v]: the integral over the whole line, as a limit. *)
Definition normal_average (f : R -> R) (v : R) : Prop :=
  (forall T, 0 <= T -> ex_RInt (fun z => f z * normal_density 0 1 z) (- T) T) /\
  is_lim (fun T => RInt (fun z => f z * normal_density 0 1 z) (- T) T) p_infty v.
