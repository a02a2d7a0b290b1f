(** Specification vocabulary: the differential equation that the activity-driven model discretises. *)
From Verif Require Import Base Arith64 MNetwork MAgents MActivity SRelax.
From Coq Require Import Reals.
Local Open Scope R_scope.

(** [y i t] is the opinion of agent [i] at time [t]. On the fixed network with rows [W], for 0 <= t <= T:
    d/dt y_i = - y_i + K / reluctance_i * sum_j w_ij tanh(alpha y_j) for ordinary agents,
    y_i = configured opinion for bots; initially y_i is the opinion in the model [md]. *)
Definition solves_ode (md : ad_model (a:=RA) (activity_agent (F RA))) (W : nat -> list (nat * R)) (T : R) (y : nat -> R -> R) : Prop :=
  forall i, (i < n_agents (ad_net md))%nat ->
    y i 0 = opinion_of md i /\
    forall t, 0 <= t <= T ->
      if (i <? n_bots (ad_set md))%nat then y i t = nth i (bot_opinion (ad_set md)) 0
      else derivable_pt_lim (y i) t (- y i t + social_pull (ad_set md) (reluctance_of md i) (W i) (fun j => y j t)).
