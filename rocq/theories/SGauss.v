(** Reference definitions for the normal distribution, independent of the model. *)
From Coq Require Import Reals.
From Coquelicot Require Import Coquelicot.
Local Open Scope R_scope.

(** The error function. *)
Definition Erf (x : R) : R := 2 / sqrt PI * RInt (fun t => exp (- (t * t))) 0 x.

(** The density and the distribution function of the normal distribution with mean [mu] and
    standard deviation [sigma] (see TGauss.normal_cdf_spec for the relation between the two). *)
Definition normal_density (mu sigma x : R) : R :=
  / (sigma * sqrt (2 * PI)) * exp (- ((x - mu) * (x - mu)) / (2 * (sigma * sigma))).
Definition normal_cdf (mu sigma x : R) : R := / 2 * (1 + Erf ((x - mu) / (sigma * sqrt 2))).

(** ... conditioned on being at least [eps]. *)
Definition truncated_cdf (mu sigma eps x : R) : R :=
  (normal_cdf mu sigma x - normal_cdf mu sigma eps) / (1 - normal_cdf mu sigma eps).
