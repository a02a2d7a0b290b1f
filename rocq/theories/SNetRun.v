(** Specification vocabulary: the law of a run of the activity-driven model with probabilistic contacts. *)
From Verif Require Import Base Arith64 MNetwork SNetwork MAgents MActivity SActivity SProb SProb2 TProb3.
From Coq Require Import Reals.
Local Open Scope R_scope.

(** The parameters, as real numbers: number of agents and of bots, activities, homophilies, contact numbers, reluctances, opinions of
    the bots, reciprocity, K, alpha and time step. *)
Record contact_model : Type := mkCM {
  cm_n : nat; cm_bots : nat; cm_activity : nat -> R; cm_homophily : nat -> R; cm_contacts : nat -> nat; cm_reluctance : nat -> R;
  cm_bot_opinion : nat -> R; cm_reciprocity : R; cm_K : R; cm_alpha : R; cm_dt : R }.

(** The right-hand side for agent [i]: -x_i + (K / reluctance_i) * sum of tanh(alpha x_j) over the contacts (j, i) in [E]. *)
Definition drift (c : contact_model) (E : list (nat * nat)) (X : nat -> R) (i : nat) : R :=
  - X i + cm_K c / cm_reluctance c i * total (fun p => if (snd p =? i)%nat then tanh (cm_alpha c * X (fst p)) else 0) E.
(** One step of the classical fourth-order Runge-Kutta method with the contacts [E]; bots then return to their opinion. *)
Definition next_opinions (c : contact_model) (E : list (nat * nat)) (X : nat -> R) : nat -> R :=
  let h := cm_dt c in
  let k1 := drift c E X in
  let k2 := drift c E (fun i => X i + h / 2 * k1 i) in
  let k3 := drift c E (fun i => X i + h / 2 * k2 i) in
  let k4 := drift c E (fun i => X i + h * k3 i) in
  fun i => if (i <? cm_bots c)%nat then cm_bot_opinion c i else X i + h / 6 * (k1 i + 2 * k2 i + 2 * k3 i + k4 i).

(** The mean of [g] over the contacts of one iteration, drawn when the opinions are [X]: independently for every agent, with probability
    1 - activity nobody, otherwise [cm_contacts] agents drawn successively without replacement in proportion to the closeness; then every
    contact that is not mutual is reciprocated, independently, with probability [cm_reciprocity]. *)
Definition over_contacts (c : contact_model) (X : nat -> R) (g : list (nat * nat) -> R) : R :=
  over_rows (map (fun i => row_law (cm_activity c i) (closeness X (cm_homophily c) i) (cm_contacts c i) (cm_n c)) (seq 0 (cm_n c)))
    (fun cs => over_coins (cm_reciprocity c) (one_way cs) (fun sel => g (contact_pairs cs ++ map reversed sel))).

(** The mean of [f] of the opinions after [k] iterations of this Markov chain from [X]. *)
Fixpoint run_mean (c : contact_model) (k : nat) (f : list R -> R) (X : nat -> R) : R :=
  match k with
  | O => f (map X (seq 0 (cm_n c)))
  | S k => over_contacts c X (fun E => run_mean c k f (next_opinions c E X))
  end.

(** The model [md] has these parameters and opinions [X]. *)
Definition described_by (md : ad_model (a:=EA) (activity_agent ext)) (c : contact_model) (X : nat -> R) : Prop :=
  let st := ad_set md in
  n_agents (ad_net md) = cm_n c /\ n_bots st = cm_bots c /\ mean_weights st = false /\
  reciprocity st = Fin (cm_reciprocity c) /\ K st = Fin (cm_K c) /\ alpha st = Fin (cm_alpha c) /\ dt st = Fin (cm_dt c) /\
  (forall i, (i < cm_n c)%nat -> contact_count (a:=EA) st i = cm_contacts c i /\ homophily_of (a:=EA) st i = Fin (cm_homophily c i)) /\
  (forall i, (i < cm_bots c)%nat -> nth i (bot_opinion st) (Fin 0) = Fin (cm_bot_opinion c i)) /\
  forall i, (i < cm_n c)%nat ->
    nth_error (agents (ad_net md)) i = Some (mkActivity (Fin (X i)) (Fin (cm_activity c i)) (Fin (cm_reluctance c i))).
(** Admissible parameters. *)
Definition admissible (c : contact_model) : Prop :=
  0 <= cm_reciprocity c <= 1 /\
  forall i, (i < cm_n c)%nat -> 0 <= cm_activity c i <= 1 /\ cm_reluctance c i <> 0 /\ (1 <= cm_contacts c i < cm_n c)%nat.

Definition finite_value (x : ext) : R := match x with Fin r => r | _ => 0 end.
(** A function of the opinions at the end of a run, 0 if the run fails. *)
Definition of_opinions (f : list R -> R) (r : res (ad_model (a:=EA) (activity_agent ext) * list R)) : R :=
  match r with Ok (md, _) => f (map finite_value (map a_opinion (agents (ad_net md)))) | _ => 0 end.

(** The same parameters with agent [tau i] called [i]. *)
Definition renumbered_model (tau : nat -> nat) (c : contact_model) : contact_model :=
  mkCM (cm_n c) (cm_bots c) (fun i => cm_activity c (tau i)) (fun i => cm_homophily c (tau i)) (fun i => cm_contacts c (tau i))
    (fun i => cm_reluctance c (tau i)) (fun i => cm_bot_opinion c (tau i)) (cm_reciprocity c) (cm_K c) (cm_alpha c) (cm_dt c).
