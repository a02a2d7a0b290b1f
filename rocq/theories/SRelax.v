(** Specification vocabulary for the long-run behaviour of the activity-driven and inertial models
    (exact real arithmetic). *)
From Verif Require Import Base Arith64 MNetwork SNetwork MAgents MActivity RFacts.
From Coq Require Import Reals.
Local Open Scope R_scope.

(** The opinion and the reluctance of agent [i]. *)
Definition opinion_of (md : ad_model (a:=RA) (activity_agent (F RA))) (i : nat) : R :=
  nth i (map a_opinion (agents (ad_net md))) 0.
Definition reluctance_of (md : ad_model (a:=RA) (activity_agent (F RA))) (i : nat) : R :=
  nth i (map a_reluctance (agents (ad_net md))) 0.

(** The social pull on an agent with reluctance [rel] and incoming (neighbour, weight) pairs [r] when the
    opinions are [y]: (K / rel) * sum of w * tanh (alpha * y_j). *)
Definition social_pull (st : ad_settings (F RA)) (rel : R) (r : list (nat * R)) (y : nat -> R) : R :=
  K st / rel * Rsum (map (fun p => snd p * tanh (alpha st * y (fst p))) r).

(** Total absolute incoming weight. *)
Definition total_weight (r : list (nat * R)) : R := Rsum (map (fun p => Rabs (snd p)) r).

(** The Taylor polynomial of exp(-h) of degree 4. *)
Definition decay (h : R) : R := 1 - h + h ^ 2 / 2 - h ^ 3 / 6 + h ^ 4 / 24.

(** ** Populations without homophily in the mean-field model *)
(** How likely one of [n] agents contacts a given other one when it makes [mm] contacts: the sum of the
    per-round formula with share 1/(n-1). *)
Definition contact_chance (n mm : nat) : R :=
  Rsum (map (fun k => ((- (1 / (INR n - 1))) ^ (k + 1) + 1 / (INR n - 1)) / (1 / (INR n - 1) + 1)) (seq 1 mm)).
(** The resulting weight of each other agent, with reciprocity [r]. *)
Definition even_weight (n mm : nat) (r : R) : R :=
  contact_chance n mm + (1 - contact_chance n mm) * r * contact_chance n mm.

(** Everybody hears with non-negative weights whose sum, times K / reluctance, is [S]. *)
Definition hears_evenly (st : ad_settings (F RA)) (rel S : R) (r : list (nat * R)) : Prop :=
  Forall (fun p => 0 <= snd p) r /\ K st / rel * total_weight r = S.
(** ... is at least [S]. *)
Definition hears_at_least (st : ad_settings (F RA)) (rel S : R) (r : list (nat * R)) : Prop :=
  Forall (fun p => 0 <= snd p) r /\ 0 < K st / rel /\ S <= K st / rel * total_weight r.

(** A consensus value: opinion [p] reproduces itself when the total coupling is [S]. *)
Definition consensus_value (S al p : R) : Prop := S * tanh (al * p) = p.
