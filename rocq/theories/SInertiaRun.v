(** Specification vocabulary: the law of a run of the inertial model with probabilistic contacts. *)
From Verif Require Import Base Arith64 MNetwork SNetwork MAgents MActivity SActivity SProb SProb2 TProb3 SNetRun.
From Coq Require Import Reals.
Local Open Scope R_scope.

(** One damped velocity Verlet step of size h with the contacts [E] and friction [g]: the new positions
      x' = x + v h + 1/2 (drift(x) - g v) h^2
    (before bots return to their opinion), and the new velocities
      v' = (v + 1/2 h (drift(x) - g v + drift(x'))) / (1 + 1/2 g h). *)
Definition moved (c : contact_model) (g : R) (E : list (nat * nat)) (X V : nat -> R) : nat -> R :=
  let h := cm_dt c in fun i => X i + V i * h + 1 / 2 * (drift c E X i - g * V i) * h * h.
Definition next_positions (c : contact_model) (g : R) (E : list (nat * nat)) (X V : nat -> R) : nat -> R :=
  fun i => if (i <? cm_bots c)%nat then cm_bot_opinion c i else moved c g E X V i.
Definition next_velocities (c : contact_model) (g : R) (E : list (nat * nat)) (X V : nat -> R) : nat -> R :=
  let h := cm_dt c in
  fun i => (V i + 1 / 2 * h * (drift c E X i - g * V i + drift c E (moved c g E X V) i)) / (1 + 1 / 2 * g * h).

(** The mean of [f] of the positions and velocities after [k] iterations of this Markov chain. *)
Fixpoint inertial_mean (c : contact_model) (g : R) (k : nat) (f : list R -> list R -> R) (X V : nat -> R) : R :=
  match k with
  | O => f (map X (seq 0 (cm_n c))) (map V (seq 0 (cm_n c)))
  | S k => over_contacts c X (fun E => inertial_mean c g k f (next_positions c g E X V) (next_velocities c g E X V))
  end.

(** The model [im] has these parameters, friction [g], positions [X] and velocities [V]. *)
Definition described_inertial (im : inertial_model (a:=EA)) (c : contact_model) (g : R) (X V : nat -> R) : Prop :=
  let md := im_ad im in let st := ad_set md in
  n_agents (ad_net md) = cm_n c /\ n_bots st = cm_bots c /\ mean_weights st = false /\
  reciprocity st = Fin (cm_reciprocity c) /\ K st = Fin (cm_K c) /\ alpha st = Fin (cm_alpha c) /\ dt st = Fin (cm_dt c) /\
  (forall i, (i < cm_n c)%nat -> contact_count (a:=EA) st i = cm_contacts c i /\ homophily_of (a:=EA) st i = Fin (cm_homophily c i)) /\
  (forall i, (i < cm_bots c)%nat -> nth i (bot_opinion st) (Fin 0) = Fin (cm_bot_opinion c i)) /\
  friction_coefficient im = Fin g /\
  forall i, (i < cm_n c)%nat ->
    nth_error (agents (ad_net md)) i = Some (mkInertial (Fin (X i)) (Fin (cm_activity c i)) (Fin (cm_reluctance c i)) (Fin (V i))).

(** A function of the opinions and velocities at the end of a run, 0 if the run fails. *)
Definition of_motion (f : list R -> list R -> R) (r : res (inertial_model (a:=EA) * list R)) : R :=
  match r with
  | Ok (im, _) => let l := agents (ad_net (im_ad im)) in f (map finite_value (map i_opinion l)) (map finite_value (map i_velocity l))
  | _ => 0 end.
