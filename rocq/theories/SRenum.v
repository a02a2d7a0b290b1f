(** Specification vocabulary: activity-driven and inertial models that differ by the numbering of the agents. *)
From Verif Require Import Base Arith64 MNetwork MAgents MDeGroot MActivity SEquiv.

(** The settings with other lists for the bots. *)
Definition with_bot_lists {D} (bm : list Z) (ba bo bh : list D) (st : ad_settings D) : ad_settings D :=
  mkADS (ad_max_iterations st) (dt st) (m st) (eps st) (gamma st) (alpha st) (homophily st) (reciprocity st) (K st)
        (mean_activities st) (mean_weights st) (n_bots st) bm ba bo bh
        (use_reluctances st) (reluctance_mean st) (reluctance_sigma st) (reluctance_eps st) (covariance_factor st).

(** [st'] is [st] with bot [i] called [sg i]; bots remain bots. *)
Definition settings_renumbered {D} (d : D) (sg : nat -> nat) (n : nat) (st st' : ad_settings D) : Prop :=
  (exists bm ba bo bh, st' = with_bot_lists bm ba bo bh st) /\
  (forall i, (i < n)%nat -> (sg i < n_bots st)%nat <-> (i < n_bots st)%nat) /\
  forall i, (i < n_bots st)%nat ->
    nth (sg i) (bot_m st') 0%Z = nth i (bot_m st) 0%Z /\
    nth (sg i) (bot_opinion st') d = nth i (bot_opinion st) d /\
    nth (sg i) (bot_homophily st') d = nth i (bot_homophily st) d.

(** [md'] is [md] with agent [i] called [sg i]: the same agents (opinion, activity, reluctance, velocity) and bots under other
    numbers. Nothing is said about the networks: in mean-field mode they are computed from the agents in every iteration. *)
Definition ad_renumbered {a : Arith} {A} (sg : nat -> nat) (md md' : ad_model (a:=a) A) : Prop :=
  n_agents (ad_net md') = n_agents (ad_net md) /\ ad_base md' = ad_base md /\
  settings_renumbered (D:=F a) (f0 a) sg (n_agents (ad_net md)) (ad_set md) (ad_set md') /\
  forall i, (i < n_agents (ad_net md))%nat -> nth_error (agents (ad_net md')) (sg i) = nth_error (agents (ad_net md)) i.
