(** Specification vocabulary for continuing a run from the files it has written. *)
From Verif Require Import Base Arith64 MRandom MNetwork MText SText MNetFile MAgents MDeGroot MDeffuant MActivity MConfig MSimulation.

(** The settings with another limit on the number of iterations. *)
Definition with_limit {D : Type} (l : option Z) (st : ad_settings D) : ad_settings D :=
  mkADS l (dt st) (m st) (eps st) (gamma st) (alpha st) (homophily st) (reciprocity st) (K st)
    (mean_activities st) (mean_weights st) (n_bots st) (bot_m st) (bot_activity st) (bot_opinion st) (bot_homophily st)
    (use_reluctances st) (reluctance_mean st) (reluctance_sigma st) (reluctance_eps st) (covariance_factor st).

(** The two configurations ask for the same model with the same parameters (except for the limit and the
    tolerance), and this model draws no random numbers while it runs: DeGroot, or activity-driven with
    mean-field weights. *)
Definition same_deterministic_model {D : Type} (o o' : options D) : Prop :=
  match opt_settings o, opt_settings o' with
  | DeGrootSettings _, DeGrootSettings _ => True
  | ActivityDrivenSettings st, ActivityDrivenSettings st' =>
      mean_weights st = true /\ with_limit None st = with_limit None st'
  | ActivityDrivenInertialSettings st, ActivityDrivenInertialSettings st' =>
      mean_weights (in_activity st) = true /\ with_limit None (in_activity st) = with_limit None (in_activity st') /\
      in_friction st = in_friction st'
  | _, _ => False
  end.

(** The printed double stands in the text, after a space (as all numbers do in Seldon's files). *)
Definition appears {a : Arith} (w : world a) (contents : text) (y : F a) : Prop :=
  exists before after, contents = before ++ space :: w_fmt w y ++ after.
(** Every double in the file is a text of moderate length that reads back as the same double. (It is so
    for "{}" of the fmt library and std::stod, except that std::stod throws on subnormal numbers.) *)
Definition readable {a : Arith} (w : world a) (contents : text) : Prop :=
  forall y : F a, appears w contents y -> printable (w_fmt w) (w_stod w) y /\ length (w_fmt w y) <= 1000.
