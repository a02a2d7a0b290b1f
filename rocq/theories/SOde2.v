(** Specification vocabulary: the differential equations that the inertial model discretises. *)
From Verif Require Import Base Arith64 MNetwork MAgents MActivity SRelax SInertia.
From Coq Require Import Reals.
Local Open Scope R_scope.

(** [y i t] and [z i t] are the opinion and the velocity of agent [i] at time [t]. On the fixed network with rows [W], for 0 <= t <= T:
    d/dt y_i = z_i for ordinary agents, y_i = configured opinion for bots, and for all agents
    d/dt z_i = - y_i - friction z_i + K / reluctance_i * sum_j w_ij tanh(alpha y_j);
    initially they are the opinions and velocities in the model [im]. *)
Definition solves_inertial_ode (im : inertial) (W : nat -> list (nat * R)) (T : R) (y z : nat -> R -> R) : Prop :=
  let st := ad_set (im_ad im) in
  forall i, (i < n_agents (ad_net (im_ad im)))%nat ->
    y i 0 = position_of im i /\ z i 0 = velocity_of im i /\
    forall t, 0 <= t <= T ->
      (if (i <? n_bots st)%nat then y i t = nth i (bot_opinion st) 0 else derivable_pt_lim (y i) t (z i t)) /\
      derivable_pt_lim (z i) t (- y i t - friction_coefficient im * z i t + social_pull st (inertial_reluctance im i) (W i) (fun j => y j t)).
