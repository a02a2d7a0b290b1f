(** Reference definitions for the distributions, independent of the model. *)
From Coq Require Import Reals.
Local Open Scope R_scope.

(** The documented density of the power law (math.hpp:113-119) for 0 < x. *)
Definition pl_density (eps gamma x : R) : R :=
  (1 - gamma) / (1 - Rpower eps (1 - gamma)) * Rpower x (- gamma).
(** Its cumulative distribution function on [eps, 1]. *)
Definition pl_cdf (eps gamma x : R) : R :=
  (Rpower x (1 - gamma) - Rpower eps (1 - gamma)) / (1 - Rpower eps (1 - gamma)).
