(** Model of /repo/include/models/DeffuantModel.hpp, /repo/src/models/DeffuantModel.cpp,
    /repo/src/models/DeffuantModelVector.cpp and hamming_distance of /repo/include/util/math.hpp. *)
From Verif Require Import Base Arith64 MRandom MNetwork MNetGen MAgents MDeGroot.
From Coq Require Import Reals.
From Flocq Require Import IEEE754.BinarySingleNaN.

(** DeffuantModel.hpp:37  size_t n_edge = std::sqrt(network.n_agents()): conversion to double, IEEE
    square root, truncation. *)
Definition sqrt_size (n : nat) : nat :=
  Z.to_nat (Btrunc (@Bsqrt prec emax Hprec Hprec_emax mode_NE (b64_of_Z (Z.of_nat n)))).

(** math.hpp:280-295  hamming_distance; the counter is an int, overflow is undefined behaviour *)
Definition hamming_distance (v1 v2 : list Z) : res Z :=
  if negb (length v1 =? length v2) then Throw ExRuntime
  else for_n (length v2) (fun i distance =>
         x <- vget v1 i ;;
         y <- vget v2 i ;;
         if negb (x =? y)%Z then
           if (distance <? 2147483647)%Z then Ok (distance + 1)%Z else UB UbOther
         else Ok distance) 0%Z.

Section Deffuant.
Context {a : Arith} (g : Rng a).

Section Abstract.
Context {A : Type}.
Notation net := (network A (F a)).

(** DeffuantModel.hpp:104-108  data members (and the base class); the network is a reference to the
    simulation's network, it is part of the state here. *)
Record deffuant : Type := mkDeffuant {
  df_base : base;
  homophily_threshold : F a;
  mu : F a;
  use_network : bool;
  df_net : net
}.

(** DeffuantModel.hpp:26-44  constructor; [d] is the default-constructed agent. n_edge * n_edge is a
    size_t product. *)
Definition deffuant_ctor (d : A) (max : option Z) (threshold mu : F a) (use_net : bool) (network : net) : res deffuant :=
  if use_net then
    let n_edge := sqrt_size (n_agents network) in
    if negb (to_size_t (Z.of_nat n_edge * Z.of_nat n_edge) =? Z.of_nat (n_agents network))%Z then Throw ExRuntime
    else
      network <- generate_square_lattice d n_edge (f0 a) ;;
      Ok (mkDeffuant (base_ctor max) threshold mu use_net network)
  else Ok (mkDeffuant (base_ctor max) threshold mu use_net network).

(** DeffuantModel.hpp:46-75  select_interacting_agent_pair *)
Definition select_interacting_agent_pair (use_net : bool) (network : net) (s : rst g) : res (list nat * rst g) :=
  if negb use_net then draw_unique_k_from_n g None 2 (n_agents network) [] s
  else
    let (agent1_idx, s) := r_int g 0 (to_size_t (Z.of_nat (n_agents network) - 1)) s in
    neighbours <- get_neighbours network (Z.to_nat agent1_idx) ;;
    let n_neighbours := length neighbours in
    let (index_in_neigh, s) := r_int g 0 (to_size_t (Z.of_nat n_neighbours - 1)) s in
    agent2_idx <- vget neighbours (Z.to_nat index_in_neigh) ;;
    Ok ([Z.to_nat agent1_idx; agent2_idx], s).

(** What an update rule does to the agents, given the positions of agent1 and agent2 (references, so
    they may denote the same agent). *)
Definition rule : Type := nat -> nat -> list A -> rst g -> res (list A * rst g).

(** DeffuantModel.hpp:87-92  the loop body of iteration(): one encounter *)
Definition encounter (update : rule) (use_net : bool) (network : net) (s : rst g) : res (net * rst g) :=
  '(interacting_agents, s) <- select_interacting_agent_pair use_net network s ;;
  i1 <- vget interacting_agents 0 ;;
  i2 <- vget interacting_agents 1 ;;
  '(l, s) <- update i1 i2 (agents network) s ;;
  Ok (with_agents network l, s).

(** DeffuantModel.hpp:77-94  iteration *)
Definition deffuant_iteration (update : rule) (m : deffuant) (s : rst g) : res (deffuant * rst g) :=
  '(network, s) <- for_n (n_agents (df_net m)) (fun _ st =>
      let '(network, s) := st in encounter update (use_network m) network s) (df_net m, s) ;;
  Ok (mkDeffuant (base_iteration (df_base m)) (homophily_threshold m) (mu m) (use_network m) network, s).

(** model.hpp:34-44  finished (not overridden) *)
Definition deffuant_finished (m : deffuant) : bool := base_finished (df_base m).
End Abstract.
Arguments deffuant : clear implicits.

(** DeffuantModel.cpp:9-16  initialize_agents for SimpleAgent is the same loop as in DeGroot *)
Definition initialize_agents_simple (l : list (simple_agent (F a))) : res (list (simple_agent (F a))) :=
  for_n (length l) (fun i l =>
    vset l i (mkSimple (fdiv a (fofZ a (Z.of_nat i)) (fofZ a (Z.of_nat (length l)))))) l.

(** DeffuantModel.cpp:18-30  update_rule for SimpleAgent *)
Definition update_rule_simple (threshold mu : F a) : rule (A:=simple_agent (F a)) := fun i1 i2 l s =>
  agent1 <- vget l i1 ;;
  agent2 <- vget l i2 ;;
  let opinion_diff := fsub a (s_opinion agent1) (s_opinion agent2) in
  if flt a (fabs a opinion_diff) threshold then
    l <- vset l i1 (mkSimple (fsub a (s_opinion agent1) (fmul a mu opinion_diff))) ;;
    agent2 <- vget l i2 ;;
    l <- vset l i2 (mkSimple (fadd a (s_opinion agent2) (fmul a mu opinion_diff))) ;;
    Ok (l, s)
  else Ok (l, s).

(** DeffuantModelVector.cpp:12-26  initialize_agents for DiscreteVectorAgent; [resize(dim)] *)
Definition initialize_agents_vector (dim : nat) (l : list vector_agent) (s : rst g) : res (list vector_agent * rst g) :=
  for_n (length l) (fun i ls =>
    let '(l, s) := ls in
    x <- vget l i ;;
    '(opinion, s) <- for_n dim (fun k os =>
        let '(opinion, s) := os in
        let (o, s) := r_int g 0 1 s in
        opinion <- vset opinion k o ;;
        Ok (opinion, s)) (resize 0%Z (v_opinion x) dim, s) ;;
    l <- vset l i (mkVector opinion) ;;
    Ok (l, s)) (l, s).

(** opinion_i[k] of the agent at position [i] *)
Definition component (l : list vector_agent) (i k : nat) : res Z :=
  x <- vget l i ;; vget (v_opinion x) k.
(** opinion_i[k] = o *)
Definition set_component (l : list vector_agent) (i k : nat) (o : Z) : res (list vector_agent) :=
  x <- vget l i ;;
  v <- vset (v_opinion x) k o ;;
  vset l i (mkVector v).

(** DeffuantModelVector.cpp:28-61  update_rule for DiscreteVectorAgent; the distributions are drawn
    only as far as && requires. *)
Definition update_rule_vector (threshold mu : F a) : rule (A:=vector_agent) := fun i1 i2 l s =>
  agent1 <- vget l i1 ;;
  agent2 <- vget l i2 ;;
  let dim := length (v_opinion agent1) in
  distance <- hamming_distance (v_opinion agent1) (v_opinion agent2) ;;
  if flt a (fofZ a distance) threshold then
    for_n dim (fun k ls =>
      let '(l, s) := ls in
      o1 <- component l i1 k ;;
      o2 <- component l i2 k ;;
      if negb (o1 =? o2)%Z then
        let (idx_selected, s) := r_int g 0 1 s in
        if (idx_selected =? 0)%Z then
          let (u, s) := r_real g (f0 a) (f1 a) s in
          if flt a mu u then
            l <- set_component l i1 k o2 ;; Ok (l, s)
          else
            l <- set_component l i2 k o1 ;; Ok (l, s)
        else
          l <- set_component l i2 k o1 ;; Ok (l, s)
      else Ok (l, s)) (l, s)
  else Ok (l, s).

(** iteration() of DeffuantModel and of DeffuantModelVector *)
Definition simple_iteration (m : deffuant (simple_agent (F a))) (s : rst g) :=
  deffuant_iteration (update_rule_simple (homophily_threshold m) (mu m)) m s.
Definition vector_iteration (m : deffuant vector_agent) (s : rst g) :=
  deffuant_iteration (update_rule_vector (homophily_threshold m) (mu m)) m s.

(** [k] calls of iteration() *)
Fixpoint simple_run (k : nat) (m : deffuant (simple_agent (F a))) (s : rst g) : res (deffuant (simple_agent (F a)) * rst g) :=
  match k with
  | 0 => Ok (m, s)
  | S k' => '(m', s') <- simple_iteration m s ;; simple_run k' m' s'
  end.
Fixpoint vector_run (k : nat) (m : deffuant vector_agent) (s : rst g) : res (deffuant vector_agent * rst g) :=
  match k with
  | 0 => Ok (m, s)
  | S k' => '(m', s') <- vector_iteration m s ;; vector_run k' m' s'
  end.
End Deffuant.
Arguments deffuant {a} A.
