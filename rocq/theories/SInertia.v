(** Specification vocabulary for the inertial model (exact real arithmetic). *)
From Verif Require Import Base Arith64 MNetwork SNetwork MAgents MActivity SRelax.
From Coq Require Import Reals.
Local Open Scope R_scope.

Notation inertial := (inertial_model (a:=RA)).
(** The opinion, the velocity and the reluctance of agent [i]. *)
Definition position_of (im : inertial) (i : nat) : R := nth i (map i_opinion (agents (ad_net (im_ad im)))) 0.
Definition velocity_of (im : inertial) (i : nat) : R := nth i (map i_velocity (agents (ad_net (im_ad im)))) 0.
Definition inertial_reluctance (im : inertial) (i : nat) : R := nth i (map i_reluctance (agents (ad_net (im_ad im)))) 0.

(** The discrete energy of an agent for time step [h]. *)
Definition energy (h x v : R) : R := v ^ 2 + (1 - h ^ 2 / 4) * x ^ 2.

(** A rate at which it decays (it is below 1 when 0 < h < 2, 0 < mu, h mu < 4: see C81). *)
Definition energy_rate (h mu : R) : R := 1 - mu * h / 2 * ((1 - h * mu / 4) * (1 - h ^ 2 / 4) * h ^ 2 / ((4 + h ^ 2 / 4) * 50)).

(** [y] with derivative [z] moves like a damped oscillator around [c]: y'' = -(y - c) - mu y'. *)
Definition damped_oscillator (mu c : R) (y z : R -> R) : Prop :=
  forall t, derivable_pt_lim y t (z t) /\ derivable_pt_lim z t (- (y t - c) - mu * z t).

(** The solution that starts at [x0] at rest. *)
Definition overdamped (mu c x0 t : R) : R :=
  let w := sqrt (mu ^ 2 - 4) in let a1 := (- w - mu) / 2 in let a2 := (w - mu) / 2 in
  let c1 := (x0 - c) / (1 - a1 / a2) in let c2 := - c1 * a1 / a2 in
  c1 * exp (a1 * t) + c2 * exp (a2 * t) + c.
Definition underdamped (mu c x0 t : R) : R :=
  let w := sqrt (4 - mu ^ 2) / 2 in
  (x0 - c) * exp (- mu * t / 2) * (cos (w * t) + mu / (2 * w) * sin (w * t)) + c.
