(** Model of /repo/include/models/ActivityDrivenModel.hpp,
    /repo/src/models/ActivityDrivenModel.cpp, /repo/include/models/InertialModel.hpp and
    /repo/src/models/InertialModel.cpp. *)
From Verif Require Import Base Arith64 MRandom MDist MNetwork MNetGen MAgents MDeGroot.

(** The fields of an agent that ActivityDrivenModelAbstract<AgentT> uses: data.opinion,
    data.activity, data.reluctance (template parameter AgentT). *)
Record agent_ops (D A : Type) : Type := mkOps {
  get_opinion : A -> D;     set_opinion : A -> D -> A;
  get_activity : A -> D;    set_activity : A -> D -> A;
  get_reluctance : A -> D;  set_reluctance : A -> D -> A
}.
Arguments get_opinion {D A}. Arguments set_opinion {D A}. Arguments get_activity {D A}.
Arguments set_activity {D A}. Arguments get_reluctance {D A}. Arguments set_reluctance {D A}.

(** agents/activity_agent.hpp:9-16 *)
Definition activity_ops (D : Type) : agent_ops D (activity_agent D) := mkOps D (activity_agent D)
  a_opinion (fun x v => mkActivity v (a_activity x) (a_reluctance x))
  a_activity (fun x v => mkActivity (a_opinion x) v (a_reluctance x))
  a_reluctance (fun x v => mkActivity (a_opinion x) (a_activity x) v).
(** agents/inertial_agent.hpp:10-18 *)
Definition inertial_ops (D : Type) : agent_ops D (inertial_agent D) := mkOps D (inertial_agent D)
  i_opinion (fun x v => mkInertial v (i_activity x) (i_reluctance x) (i_velocity x))
  i_activity (fun x v => mkInertial (i_opinion x) v (i_reluctance x) (i_velocity x))
  i_reluctance (fun x v => mkInertial (i_opinion x) (i_activity x) v (i_velocity x)).

(** config_parser.hpp:80-105  ActivityDrivenSettings (int m, size_t n_bots, std::vector<int> bot_m) *)
Record ad_settings (D : Type) : Type := mkADS {
  ad_max_iterations : option Z;
  dt : D; m : Z; eps : D; gamma : D; alpha : D; homophily : D; reciprocity : D; K : D;
  mean_activities : bool; mean_weights : bool;
  n_bots : nat; bot_m : list Z; bot_activity : list D; bot_opinion : list D; bot_homophily : list D;
  use_reluctances : bool; reluctance_mean : D; reluctance_sigma : D; reluctance_eps : D; covariance_factor : D
}.
Arguments mkADS {D}. Arguments ad_max_iterations {D}. Arguments dt {D}. Arguments m {D}. Arguments eps {D}.
Arguments gamma {D}. Arguments alpha {D}. Arguments homophily {D}. Arguments reciprocity {D}. Arguments K {D}.
Arguments mean_activities {D}. Arguments mean_weights {D}. Arguments n_bots {D}. Arguments bot_m {D}.
Arguments bot_activity {D}. Arguments bot_opinion {D}. Arguments bot_homophily {D}.
Arguments use_reluctances {D}. Arguments reluctance_mean {D}. Arguments reluctance_sigma {D}.
Arguments reluctance_eps {D}. Arguments covariance_factor {D}.

(** std::set<std::pair<size_t,size_t>> as the list of its elements: contains and insert *)
Definition pair_eqb (p q : nat * nat) : bool := (fst p =? fst q) && (snd p =? snd q).
Definition set_contains (b : list (nat * nat)) (p : nat * nat) : bool := existsb (pair_eqb p) b.
Definition set_insert (b : list (nat * nat)) (p : nat * nat) : list (nat * nat) :=
  if set_contains b p then b else p :: b.

Section Activity.
Context {a : Arith} (lm : Libm a) (g : Rng a) (q : PQ a).
Local Notation "x + y" := (fadd a x y). Local Notation "x - y" := (fsub a x y).
Local Notation "x * y" := (fmul a x y). Local Notation "x / y" := (fdiv a x y).
Notation D := (F a).
Notation settings := (ad_settings D).

Section Abstract.
Context {A : Type} (ops : agent_ops D A).
Notation net := (network A D).

(** ActivityDrivenModel.hpp:67-108  data members; the settings are copied into members of the same
    name, the network is a reference to the simulation's network and is part of the state here. The
    member reciprocal_edge_buffer is cleared before every use and is a local variable of
    [update_network_probabilistic]; the RK4 buffers are resized and overwritten before every use and
    are local variables of [activity_iteration]. *)
Record ad_model : Type := mkAD {
  ad_base : base;
  ad_set : settings;
  ad_net : net;
  contact_prob_list : list (list D)
}.

(** ActivityDrivenModel.hpp:308-311 *)
Definition bot_present (st : settings) : bool := 0 <? n_bots st.

(** data.opinion of agent i *)
Definition opinion_at (l : list A) (i : nat) : res D := x <- vget l i ;; Ok (get_opinion ops x).

(** ActivityDrivenModel.hpp:140-147 and ActivityDrivenModel.cpp:41-47, InertialModel.cpp:68-74 *)
Definition reset_bots (st : settings) (l : list A) : res (list A) :=
  if bot_present st then
    for_n (n_bots st) (fun bot_idx l =>
      o <- vget (bot_opinion st) bot_idx ;;
      x <- vget l bot_idx ;;
      vset l bot_idx (set_opinion ops x o)) l
  else Ok l.

(** ActivityDrivenModel.hpp:111-148  get_agents_from_power_law *)
Definition get_agents_from_power_law (st : settings) (l : list A) (s : rst g) : res (list A * rst g) :=
  let mean_activity := power_law_mean lm (eps st) (gamma st) in
  '(l, s) <- for_n (length l) (fun i ls =>
      let '(l, s) := ls in
      let (o, s) := r_real g (fofZ a (-1)) (fofZ a 1) s in
      x <- vget l i ;;
      let x := set_opinion ops x o in
      let '((act, rel), s) := copula_draw lm g (covariance_factor st)
                                (power_law_inverse_cdf lm (eps st) (gamma st))
                                (tn_inverse_cdf lm (reluctance_mean st) (reluctance_sigma st) (reluctance_eps st)) s in
      let x := set_activity ops x act in
      let x := if use_reluctances st then set_reluctance ops x rel else x in
      let x := if mean_activities st then set_activity ops x mean_activity else x in
      l <- vset l i x ;;
      Ok (l, s)) (l, s) ;;
  l <- (if bot_present st then
          for_n (n_bots st) (fun bot_idx l =>
            o <- vget (bot_opinion st) bot_idx ;;
            x <- vget l bot_idx ;;
            l <- vset l bot_idx (set_opinion ops x o) ;;
            act <- vget (bot_activity st) bot_idx ;;
            x <- vget l bot_idx ;;
            vset l bot_idx (set_activity ops x act)) l
        else Ok l) ;;
  Ok (l, s).

(** ActivityDrivenModel.hpp:27-62  constructor; [d] is the default-constructed agent *)
Definition ad_ctor (d : A) (st : settings) (network : net) (s : rst g) : res (ad_model * rst g) :=
  let cpl := repeat [] (n_agents network) in
  '(l, s) <- get_agents_from_power_law st (agents network) s ;;
  let network := with_agents network l in
  network <- (if mean_weights st then
                fc <- generate_fully_connected d (n_agents network) (f0 a) ;;
                Ok (with_agents fc l)
              else Ok network) ;;
  Ok (mkAD (base_ctor (ad_max_iterations st)) st network cpl, s).

(** ActivityDrivenModel.hpp:151-167  homophily_weight *)
Definition homophily_weight (st : settings) (l : list A) (idx_contacter idx_contacted : nat) : res D :=
  if idx_contacted =? idx_contacter then Ok (f0 a)
  else
    h <- (if bot_present st && (idx_contacter <? n_bots st) then vget (bot_homophily st) idx_contacter
          else Ok (homophily st)) ;;
    x <- opinion_at l idx_contacter ;;
    y <- opinion_at l idx_contacted ;;
    let opinion_diff := fmax a (lit10 1 10) (fabs a (x - y)) in
    Ok (lpow a lm opinion_diff (fopp a h)).

(** ActivityDrivenModel.hpp:187-194 and 268-272  m_temp *)
Definition m_of (st : settings) (idx_agent : nat) : res Z :=
  if bot_present st && (idx_agent <? n_bots st) then vget (bot_m st) idx_agent else Ok (m st).

(** ActivityDrivenModel.hpp:178-213  the body of the first loop: agent [idx_agent] is possibly
    activated and makes its contacts. m_temp (an int) is converted to size_t. The call with {}, {} is
    the overload with a constant weight (network.hpp:159). *)
Definition contact_step (st : settings) (idx_agent : nat)
           (v : net * list nat * list (nat * nat) * rst g) : res (net * list nat * list (nat * nat) * rst g) :=
  let '(network, contacted_agents, reciprocal_edge_buffer, s) := v in
  let (u, s) := r_real g (f0 a) (f1 a) s in
  x <- vget (agents network) idx_agent ;;
  if flt a u (get_activity ops x) then
    m_temp <- m_of st idx_agent ;;
    '(contacted_agents, s) <-
      reservoir_sampling_A_ExpJ lm g q (Z.to_nat (to_size_t m_temp)) (n_agents network)
        (homophily_weight st (agents network) idx_agent) contacted_agents s ;;
    let reciprocal_edge_buffer :=
      fold_left (fun b idx_outgoing => set_insert b (idx_agent, idx_outgoing)) contacted_agents reciprocal_edge_buffer in
    network <- set_neighbours_const network idx_agent contacted_agents (f1 a) ;;
    Ok (network, contacted_agents, reciprocal_edge_buffer, s)
  else
    network <- set_neighbours_const network idx_agent [] (f0 a) ;;
    Ok (network, contacted_agents, reciprocal_edge_buffer, s).

(** ActivityDrivenModel.hpp:216-231  the reciprocity check for one agent. The loop runs over a span of
    the row of [idx_agent]; growing that row during the loop would invalidate the span. *)
Definition reciprocity_step (st : settings) (reciprocal_edge_buffer : list (nat * nat)) (idx_agent : nat)
           (v : net * rst g) : res (net * rst g) :=
  contacted_agents <- get_neighbours (fst v) idx_agent ;;
  for_each contacted_agents (fun idx_outgoing v =>
    let '(network, s) := v in
    if negb (set_contains reciprocal_edge_buffer (idx_outgoing, idx_agent)) then
      let (u, s) := r_real g (f0 a) (f1 a) s in
      if flt a u (reciprocity st) then
        if idx_outgoing =? idx_agent then UB UbOther
        else
          network <- push_back_neighbour_and_weight network idx_outgoing idx_agent (f1 a) ;;
          Ok (network, s)
      else Ok (network, s)
    else Ok (network, s)) v.

(** ActivityDrivenModel.hpp:169-234  update_network_probabilistic *)
Definition update_network_probabilistic (st : settings) (network : net) (s : rst g) : res (net * rst g) :=
  let network := switch_direction_flag network in
  '(network, _, reciprocal_edge_buffer, s) <-
    for_n (n_agents network) (contact_step st) (network, [], [], s) ;;
  '(network, s) <- for_n (n_agents network) (reciprocity_step st reciprocal_edge_buffer) (network, s) ;;
  network <- toggle_incoming_outgoing network ;;
  Ok (network, s).

(** ActivityDrivenModel.hpp:248-254  probability_helper *)
Definition probability_helper (omega : D) (m : nat) : D :=
  fold_left (fun p i => p + (lpow a lm (fopp a omega) (fofZ a (Z.of_nat (S i))) + omega) / (omega + f1 a))
            (seq 1 m) (f0 a).

(** ActivityDrivenModel.hpp:256-284  the contact probabilities of one agent *)
Definition contact_prob_step (st : settings) (l : list A) (idx_agent : nat) (cpl : list (list D)) : res (list (list D)) :=
  normalization <- for_n (length l) (fun k norm =>
      w <- homophily_weight st l idx_agent k ;; Ok (norm + w)) (f0 a) ;;
  m_temp <- m_of st idx_agent ;;
  x <- vget l idx_agent ;;
  let activity := fmax a (f1 a) (get_activity ops x) in
  for_n (length l) (fun j cpl =>
    w <- homophily_weight st l idx_agent j ;;
    let omega := w / normalization in
    row <- vget cpl idx_agent ;;
    row <- vset row j (activity * probability_helper omega (Z.to_nat (to_size_t m_temp))) ;;
    vset cpl idx_agent row) cpl.

(** win += v for the weight at position k of row i (references into get_weights) *)
Definition add_weight (network : net) (i k : nat) (v : D) : res net :=
  row <- get_weights network i ;;
  w <- vget row k ;;
  write_weight network i k (w + v).

(** ActivityDrivenModel.hpp:286-304  the weights contributed by one agent *)
Definition mean_weight_step (st : settings) (cpl : list (list D)) (idx_agent : nat) (network : net) : res net :=
  for_n (n_agents network) (fun j network =>
    row_i <- vget cpl idx_agent ;;
    prob_contact_ij <- vget row_i j ;;
    row_j <- vget cpl j ;;
    prob_contact_ji <- vget row_j idx_agent ;;
    network <- add_weight network j idx_agent prob_contact_ij ;;
    add_weight network idx_agent j ((f1 a - prob_contact_ji) * reciprocity st * prob_contact_ij)) network.

(** network.set_weights(i, ws), with its exception propagating *)
Definition set_weights_or_throw (network : net) (i : nat) (ws : list D) : res net :=
  let '(network, r) := set_weights network i ws in _ <- r ;; Ok network.

(** ActivityDrivenModel.hpp:236-305  update_network_mean *)
Definition update_network_mean (st : settings) (network : net) (cpl : list (list D)) : res (net * list (list D)) :=
  let weights := repeat (f0 a) (n_agents network) in
  '(network, cpl) <- for_n (n_agents network) (fun idx_agent v =>
      let '(network, cpl) := v in
      network <- set_weights_or_throw network idx_agent weights ;;
      cpl <- vset cpl idx_agent weights ;;
      Ok (network, cpl)) (network, cpl) ;;
  cpl <- for_n (n_agents network) (contact_prob_step st (agents network)) cpl ;;
  network <- for_n (n_agents network) (mean_weight_step st cpl) network ;;
  Ok (network, cpl).

(** ActivityDrivenModel.hpp:313-324  update_network *)
Definition update_network (st : settings) (network : net) (cpl : list (list D)) (s : rst g)
  : res (net * list (list D) * rst g) :=
  if negb (mean_weights st) then
    '(network, s) <- update_network_probabilistic st network s ;; Ok (network, cpl, s)
  else
    '(network, cpl) <- update_network_mean st network cpl ;; Ok (network, cpl, s).

(** ActivityDrivenModel.hpp:326-349  get_euler_slopes; [opinion] is the callback *)
Definition get_euler_slopes (st : settings) (network : net) (opinion : nat -> res D) : res (list D) :=
  for_n (n_agents network) (fun idx_agent k_buffer =>
    neighbour_buffer <- get_neighbours network idx_agent ;;
    weight_buffer <- get_weights network idx_agent ;;
    o <- opinion idx_agent ;;
    k_buffer <- vset k_buffer idx_agent (fopp a o) ;;
    for_n (length neighbour_buffer) (fun j k_buffer =>
      j_index <- vget neighbour_buffer j ;;
      k <- vget k_buffer idx_agent ;;
      x <- vget (agents network) idx_agent ;;
      w <- vget weight_buffer j ;;
      oj <- opinion j_index ;;
      vset k_buffer idx_agent (k + f1 a / get_reluctance ops x * K st * w * ltanh a lm (alpha st * oj)))
      k_buffer) (repeat (f0 a) (n_agents network)).
End Abstract.
Arguments ad_model : clear implicits.

Notation actset := (activity_ops D).

(** ActivityDrivenModel.cpp:17-30  the four slope evaluations. The buffers of an earlier iteration are
    overwritten before they are read. *)
Definition half_dt (st : settings) : D := flit a 1 2 * dt st.
Definition rk4_slopes (st : settings) (network : network (activity_agent D) D)
  : res (list D * list D * list D * list D) :=
  let opinion i := opinion_at actset (agents network) i in
  k1 <- get_euler_slopes actset st network opinion ;;
  k2 <- get_euler_slopes actset st network (fun i => o <- opinion i ;; k <- vget k1 i ;; Ok (o + half_dt st * k)) ;;
  k3 <- get_euler_slopes actset st network (fun i => o <- opinion i ;; k <- vget k2 i ;; Ok (o + half_dt st * k)) ;;
  k4 <- get_euler_slopes actset st network (fun i => o <- opinion i ;; k <- vget k3 i ;; Ok (o + dt st * k)) ;;
  Ok (k1, k2, k3, k4).

(** ActivityDrivenModel.cpp:32-40  the update of the opinions *)
Definition rk4_update (st : settings) (ks : list D * list D * list D * list D)
           (l : list (activity_agent D)) : res (list (activity_agent D)) :=
  let '(k1, k2, k3, k4) := ks in
  for_n (length l) (fun i l =>
    x <- vget l i ;;
    v1 <- vget k1 i ;; v2 <- vget k2 i ;; v3 <- vget k3 i ;; v4 <- vget k4 i ;;
    vset l i (set_opinion actset x
      (a_opinion x + dt st * (v1 + fofZ a 2 * v2 + fofZ a 2 * v3 + v4) / fofZ a 6))) l.

(** ActivityDrivenModel.cpp:10-48  iteration of ActivityDrivenModel *)
Definition activity_iteration (md : ad_model (activity_agent D)) (s : rst g)
  : res (ad_model (activity_agent D) * rst g) :=
  let st := ad_set md in
  '(network, cpl, s) <- update_network actset st (ad_net md) (contact_prob_list md) s ;;
  ks <- rk4_slopes st network ;;
  l <- rk4_update st ks (agents network) ;;
  l <- reset_bots actset st l ;;
  Ok (mkAD (base_iteration (ad_base md)) st (with_agents network l) cpl, s).

(** InertialModel.hpp:38-40  the additional member; the drift buffers are overwritten before use and
    are local variables of [inertial_iteration]. *)
Record inertial_model : Type := mkIM {
  im_ad : ad_model (inertial_agent D);
  friction_coefficient : D
}.

Notation inset := (inertial_ops D).
(** InertialModel.cpp:12-17  constructor *)
Definition inertial_ctor (d : inertial_agent D) (st : settings) (friction : D)
           (network : network (inertial_agent D) D) (s : rst g) : res (inertial_model * rst g) :=
  '(md, s) <- ad_ctor inset d st network s ;; Ok (mkIM md friction, s).

(** InertialModel.cpp:21-35  calc_position: returns drift_t_buffer and the moved agents *)
Definition calc_position (st : settings) (friction : D) (network : network (inertial_agent D) D)
  : res (list D * list (inertial_agent D)) :=
  drift_t <- get_euler_slopes inset st network (opinion_at inset (agents network)) ;;
  l <- for_n (n_agents network) (fun i l =>
      x <- vget l i ;;
      d <- vget drift_t i ;;
      let accleration := d - friction * i_velocity x in
      vset l i (set_opinion inset x
        (i_opinion x + i_velocity x * dt st + flit a 1 2 * accleration * dt st * dt st))) (agents network) ;;
  Ok (drift_t, l).

(** InertialModel.cpp:39-56  calc_velocity *)
Definition set_velocity (x : inertial_agent D) (v : D) : inertial_agent D :=
  mkInertial (i_opinion x) (i_activity x) (i_reluctance x) v.
Definition calc_velocity (st : settings) (friction : D) (drift_t : list D)
           (network : network (inertial_agent D) D) : res (list (inertial_agent D)) :=
  drift_next_t <- get_euler_slopes inset st network (opinion_at inset (agents network)) ;;
  for_n (n_agents network) (fun i l =>
      x <- vget l i ;;
      d <- vget drift_t i ;;
      dn <- vget drift_next_t i ;;
      let next_velocity := i_velocity x + flit a 1 2 * dt st * (d - friction * i_velocity x + dn) in
      vset l i (set_velocity x (next_velocity / (f1 a + flit a 1 2 * friction * dt st)))) (agents network).

(** InertialModel.cpp:58-75  iteration *)
Definition inertial_iteration (im : inertial_model) (s : rst g) : res (inertial_model * rst g) :=
  let md := im_ad im in
  let st := ad_set md in
  '(network, cpl, s) <- update_network inset st (ad_net md) (contact_prob_list md) s ;;
  '(drift_t, l) <- calc_position st (friction_coefficient im) network ;;
  l <- calc_velocity st (friction_coefficient im) drift_t (with_agents network l) ;;
  l <- reset_bots inset st l ;;
  Ok (mkIM (mkAD (base_iteration (ad_base md)) st (with_agents network l) cpl) (friction_coefficient im), s).

(** [k] calls of iteration() *)
Fixpoint activity_run (k : nat) (md : ad_model (activity_agent D)) (s : rst g)
  : res (ad_model (activity_agent D) * rst g) :=
  match k with
  | 0 => Ok (md, s)
  | S k' => '(md, s) <- activity_iteration md s ;; activity_run k' md s
  end.
Fixpoint inertial_run (k : nat) (im : inertial_model) (s : rst g) : res (inertial_model * rst g) :=
  match k with
  | 0 => Ok (im, s)
  | S k' => '(im, s) <- inertial_iteration im s ;; inertial_run k' im s
  end.
End Activity.
Arguments ad_model {a} A. Arguments mkAD {a A}. Arguments ad_base {a A}. Arguments ad_set {a A}.
Arguments ad_net {a A}. Arguments contact_prob_list {a A}.
