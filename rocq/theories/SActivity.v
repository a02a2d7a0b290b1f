(** Specification vocabulary for the activity-driven and inertial models. *)
From Verif Require Import Base Arith64 MRandom MDist MNetwork SNetwork MAgents MActivity.
From Coq Require Import Permutation.

(** The getters and setters of an agent type behave like those of a struct. *)
Definition ops_ok {D A : Type} (ops : agent_ops D A) : Prop :=
  (forall x v, get_opinion ops (set_opinion ops x v) = v) /\
  (forall x v, get_activity ops (set_opinion ops x v) = get_activity ops x) /\
  (forall x v, get_reluctance ops (set_opinion ops x v) = get_reluctance ops x) /\
  (forall x v, get_activity ops (set_activity ops x v) = v) /\
  (forall x v, get_opinion ops (set_activity ops x v) = get_opinion ops x) /\
  (forall x v, get_reluctance ops (set_activity ops x v) = get_reluctance ops x) /\
  (forall x v, get_reluctance ops (set_reluctance ops x v) = v) /\
  (forall x v, get_opinion ops (set_reluctance ops x v) = get_opinion ops x) /\
  (forall x v, get_activity ops (set_reluctance ops x v) = get_activity ops x).

Lemma activity_ops_ok D : ops_ok (activity_ops D).
Proof. repeat split. Qed.
Lemma inertial_ops_ok D : ops_ok (inertial_ops D).
Proof. repeat split. Qed.

Section Spec.
Context {a : Arith} (lm : Libm a).
Notation D := (F a).
Local Notation "x + y" := (fadd a x y). Local Notation "x * y" := (fmul a x y).
Local Notation "x / y" := (fdiv a x y).

(** The right-hand side of the opinion dynamics for agent [i], given all opinions [xs], its
    reluctance [rel] and its incoming (neighbour, weight) pairs [r]:
    -x_i + sum over r of (1/rel * K * w_ij) * tanh(alpha x_j), added from left to right. *)
Definition slope (K alpha : D) (xs : list D) (i : nat) (rel : D) (r : list (nat * D)) : D :=
  fold_left (fun acc p => acc + f1 a / rel * K * snd p * ltanh a lm (alpha * nth (fst p) xs (f0 a)))
            r (fopp a (nth i xs (f0 a))).

(** The right-hand sides of all agents of a network. *)
Definition field {A : Type} (ops : agent_ops D A) (st : ad_settings D) (net : network A D) (xs : list D) : list D :=
  map (fun i => match nth_error (agents net) i with
                | Some x => slope (K st) (alpha st) xs i (get_reluctance ops x) (row net i)
                | None => f0 a
                end) (seq 0 (n_agents net)).

(** xs + h * ks, componentwise *)
Definition axpy (xs : list D) (h : D) (ks : list D) : list D :=
  map (fun p => fst p + h * snd p) (combine xs ks).

(** One step of the classical fourth-order Runge-Kutta method for x' = f(x) with step size h. *)
Definition rk4_step (f : list D -> list D) (h : D) (xs : list D) : list D :=
  let k1 := f xs in
  let k2 := f (axpy xs (flit a 1 2 * h) k1) in
  let k3 := f (axpy xs (flit a 1 2 * h) k2) in
  let k4 := f (axpy xs h k3) in
  map (fun i => nth i xs (f0 a) +
         h * (nth i k1 (f0 a) + fofZ a 2 * nth i k2 (f0 a) + fofZ a 2 * nth i k3 (f0 a) + nth i k4 (f0 a)) / fofZ a 6)
      (seq 0 (length xs)).

(** The opinions after the bots have been put back to their configured opinions. *)
Definition with_bots (st : ad_settings D) (xs : list D) : list D :=
  map (fun i => if i <? n_bots st then nth i (bot_opinion st) (f0 a) else nth i xs (f0 a)) (seq 0 (length xs)).
End Spec.

(** ** The inertial step *)
Section Verlet.
Context {a : Arith}.
Notation D := (F a).
(** New position: x + v dt + (1/2) (drift - friction v) dt^2. *)
Definition verlet_position (dtt fr x v drift : D) : D :=
  fadd a (fadd a x (fmul a v dtt)) (fmul a (fmul a (fmul a (flit a 1 2) (fsub a drift (fmul a fr v))) dtt) dtt).
(** New velocity: (v + (1/2) dt (drift - friction v + drift')) / (1 + (1/2) friction dt). *)
Definition verlet_velocity (dtt fr v drift drift' : D) : D :=
  fdiv a (fadd a v (fmul a (fmul a (flit a 1 2) dtt) (fadd a (fsub a drift (fmul a fr v)) drift')))
         (fadd a (f1 a) (fmul a (fmul a (flit a 1 2) fr) dtt)).
End Verlet.

(** ** The contact network of one round *)
Section Contacts.
Context {a : Arith} (lm : Libm a) (g : Rng a) (q : PQ a) {A : Type} (ops : agent_ops (F a) A).
Notation D := (F a).
Notation settings := (ad_settings D).

(** How many agents agent [i] contacts when it is active. *)
Definition contact_count (st : settings) (i : nat) : nat :=
  Z.to_nat (if i <? n_bots st then nth i (bot_m st) 0%Z else m st).

(** The exponent of agent [i]'s homophily. *)
Definition homophily_of (st : settings) (i : nat) : D :=
  if i <? n_bots st then nth i (bot_homophily st) (f0 a) else homophily st.

(** The (unnormalised) weight with which [i] chooses [j]: max(1e-10, |x_i - x_j|)^(-homophily), and 0
    for itself. *)
Definition affinity (st : settings) (l : list A) (i j : nat) : D :=
  if j =? i then f0 a
  else match nth_error l i, nth_error l j with
       | Some x, Some y =>
           lpow a lm (fmax a (lit10 1 10) (fabs a (fsub a (get_opinion ops x) (get_opinion ops y))))
                (fopp a (homophily_of st i))
       | _, _ => f0 a
       end.

(** The settings fit a population of [n] agents: contact counts between 0 and [n] (and ints), bot
    lists long enough. *)
Definition settings_fit (st : settings) (n : nat) : Prop :=
  (0 <= m st <= Z.of_nat n)%Z /\ (m st < 2147483648)%Z /\
  n_bots st <= length (bot_m st) /\ n_bots st <= length (bot_homophily st) /\
  (forall i, i < n_bots st ->
     (0 <= nth i (bot_m st) 0%Z <= Z.of_nat n /\ nth i (bot_m st) 0%Z < 2147483648)%Z).

(** The contacts made in one round, agents taking turns from [i] on: agent [i] draws a uniform number
    and is active when it is below its activity; an active agent contacts the agents of a weighted
    sample (reservoir sampling with the affinities as weights; [buf] is the vector it is given to
    store its result in, shared by all agents); an inactive one contacts nobody. The relation lists
    the contacts of the agents i, i+1, ... and the final generator state. *)
Inductive contacts_drawn (st : settings) (l : list A)
  : nat -> list nat -> rst g -> list (list nat) -> rst g -> Prop :=
| cd_done buf s : contacts_drawn st l (length l) buf s [] s
| cd_active i buf s x u s1 c s2 cs s3 :
    nth_error l i = Some x ->
    r_real g (f0 a) (f1 a) s = (u, s1) -> flt a u (get_activity ops x) = true ->
    reservoir_sampling_A_ExpJ lm g q (contact_count st i) (length l)
      (fun j => Ok (affinity st l i j)) buf s1 = Ok (c, s2) ->
    contacts_drawn st l (S i) c s2 cs s3 ->
    contacts_drawn st l i buf s (c :: cs) s3
| cd_idle i buf s x u s1 cs s2 :
    nth_error l i = Some x ->
    r_real g (f0 a) (f1 a) s = (u, s1) -> flt a u (get_activity ops x) = false ->
    contacts_drawn st l (S i) buf s1 cs s2 ->
    contacts_drawn st l i buf s ([] :: cs) s2.

(** Agent [i] contacts agent [j] in the contact lists [cs]. *)
Definition contacted (cs : list (list nat)) (i j : nat) : bool := existsb (Nat.eqb j) (nth i cs []).

(** All contacts as (contacting, contacted) pairs. *)
Definition contact_pairs (cs : list (list nat)) : list (nat * nat) :=
  flat_map (fun i => map (fun j => (i, j)) (nth i cs [])) (seq 0 (length cs)).
(** ... and those whose target did not itself contact the contacting agent. *)
Definition one_way (cs : list (list nat)) : list (nat * nat) :=
  filter (fun p => negb (contacted cs (snd p) (fst p))) (contact_pairs cs).

(** Those pairs for which a uniform number drawn from the generator is below [r]. *)
Fixpoint coins (r : D) (ps : list (nat * nat)) (s : rst g) : list (nat * nat) * rst g :=
  match ps with
  | [] => ([], s)
  | p :: t =>
      let (u, s) := r_real g (f0 a) (f1 a) s in
      let (R, s) := coins r t s in
      (if flt a u r then p :: R else R, s)
  end.

(** Source, target and weight 1. *)
Definition unit_edge (p : nat * nat) : nat * nat * D := (fst p, snd p, f1 a).
Definition reversed (p : nat * nat) : nat * nat := (snd p, fst p).
End Contacts.

(** ** Mean-field weights *)
Section Mean.
Context {a : Arith} (lm : Libm a) {A : Type} (ops : agent_ops (F a) A).
Notation D := (F a).

(** The n x n matrix with entries W i j. *)
Definition matrix (n : nat) (W : nat -> nat -> D) : list (list D) :=
  map (fun i => map (W i) (seq 0 n)) (seq 0 n).

(** Sum of all affinities of agent [i], from agent 0 on. *)
Definition total_affinity (st : ad_settings D) (l : list A) (i : nat) : D :=
  fold_left (fun acc j => fadd a acc (affinity lm ops st l i j)) (seq 0 (length l)) (f0 a).
(** The share of [j] in them. *)
Definition share (st : ad_settings D) (l : list A) (i j : nat) : D :=
  fdiv a (affinity lm ops st l i j) (total_affinity st l i).
(** Sum over the rounds k = 1..m of ((-w)^(k+1) + w) / (w + 1). *)
Definition rounds (w : D) (m : nat) : D :=
  fold_left (fun p k => fadd a p (fdiv a (fadd a (lpow a lm (fopp a w) (fofZ a (Z.of_nat (k + 1)))) w) (fadd a w (f1 a))))
            (seq 1 m) (f0 a).
(** The contact probability of the mean-field model. *)
Definition contact_probability (st : ad_settings D) (l : list A) (i j : nat) : D :=
  match nth_error l i with
  | Some x => fmul a (fmax a (f1 a) (get_activity ops x)) (rounds (share st l i j) (contact_count st i))
  | None => f0 a
  end.

(** A network in which every agent has a row with one slot per agent: what the constructor builds in
    mean-field mode. *)
Definition mean_shaped (h : network A D) : Prop :=
  neigh h = repeat (seq 0 (n_agents h)) (n_agents h) /\ length (wts h) = n_agents h.
End Mean.

(** ** Usable models *)
Section Ready.
Context {a : Arith} {A : Type}.
(** The state a model is in between calls when its settings fit the population. *)
Definition ad_ready (md : ad_model (a:=a) A) : Prop :=
  wf (ad_net md) /\ dir (ad_net md) = Incoming /\
  settings_fit (ad_set md) (n_agents (ad_net md)) /\
  n_bots (ad_set md) <= n_agents (ad_net md) /\ n_bots (ad_set md) <= length (bot_opinion (ad_set md)) /\
  (mean_weights (ad_set md) = true ->
     mean_shaped (ad_net md) /\ length (contact_prob_list md) = n_agents (ad_net md)).
End Ready.

(** ** Initial agents *)
Section Init.
Context {a : Arith} (lm : Libm a) (g : Rng a) {A : Type} (ops : agent_ops (F a) A).
Notation D := (F a).
Local Notation "x + y" := (fadd a x y). Local Notation "x - y" := (fsub a x y).
Local Notation "x * y" := (fmul a x y). Local Notation "x / y" := (fdiv a x y).

(** Phi(z), the distribution function of the standard normal distribution. *)
Definition Phi (z : D) : D := lit10 5 1 * (f1 a + lerf a lm (z / lsqrt a lm (fofZ a 2))).

(** The agents before bots are set, drawn one after another: a uniform opinion on [-1,1), then two
    standard normal numbers n1, n2; the activity is the power law quantile of Phi(n1), the reluctance
    the truncated normal quantile of Phi(cov n1 + sqrt(1-cov^2) n2). *)
Fixpoint drawn_agents (st : ad_settings D) (l : list A) (s : rst g) : list A * rst g :=
  match l with
  | [] => ([], s)
  | x :: t =>
      let (o, s) := r_real g (fofZ a (-1)) (fofZ a 1) s in
      let (n1, s) := r_normal g s in
      let (n2, s) := r_normal g s in
      let c := covariance_factor st in
      let act := if mean_activities st then power_law_mean lm (eps st) (gamma st)
                 else power_law_inverse_cdf lm (eps st) (gamma st) (Phi n1) in
      let rel := tn_inverse_cdf lm (reluctance_mean st) (reluctance_sigma st) (reluctance_eps st)
                   (Phi (c * n1 + lsqrt a lm (f1 a - c * c) * n2)) in
      let x := set_opinion ops x o in
      let x := if mean_activities st then
                 set_activity ops (let y := set_activity ops x (power_law_inverse_cdf lm (eps st) (gamma st) (Phi n1)) in
                                   if use_reluctances st then set_reluctance ops y rel else y) act
               else let y := set_activity ops x act in if use_reluctances st then set_reluctance ops y rel else y in
      let (t, s) := drawn_agents st t s in
      (x :: t, s)
  end.

(** The first n_bots agents get their configured opinion and activity. *)
Definition with_bot_values (st : ad_settings D) (l : list A) : list A :=
  map (fun p => if fst p <? n_bots st
                then set_activity ops (set_opinion ops (snd p) (nth (fst p) (bot_opinion st) (f0 a)))
                                      (nth (fst p) (bot_activity st) (f0 a))
                else snd p) (combine (seq 0 (length l)) l).
End Init.
