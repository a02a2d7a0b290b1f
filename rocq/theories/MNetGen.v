(** Model of the in-memory generators of /repo/include/network_generation.hpp.
    generate_from_file (160-239) is in MNetFile.v. [d] is the value-initialised AgentT with which the
    Network constructor fills its agents. *)
From Verif Require Import Base Arith64 MRandom MNetwork.

Section Gen.
Context {a : Arith} (g : Rng a) {A : Type} (d : A).
Notation net := (network A (F a)).

(** network_generation.hpp:42-47, 136-141: for each j < m draw weights[j] and add it to the norm.
    The vector [weights] has length m already. *)
Definition draw_weights (m : nat) (weights : list (F a)) (norm : F a) (s : rst g)
  : res (list (F a) * F a * rst g) :=
  for_n m (fun j st =>
    let '(weights, norm, s) := st in
    let (u, s) := r_real g (f0 a) (f1 a) s in
    weights <- vset weights j u ;;
    w <- vget weights j ;;
    Ok (weights, fadd a norm w, s)) (weights, norm, s).

(** network_generation.hpp:61-64, 145-148: weights[j] /= norm for j < m *)
Definition normalize (m : nat) (norm : F a) (weights : list (F a)) : res (list (F a)) :=
  for_n m (fun j weights =>
    w <- vget weights j ;; vset weights j (fdiv a w norm)) weights.

(** network_generation.hpp:14-74  generate_n_connections *)
Definition generate_n_connections (n_agents n_connections : nat) (self_interaction : bool) (s : rst g)
  : res (net * rst g) :=
  '(nl, wl, s) <-
    for_n n_agents (fun i_agent st =>
      let '(nl, wl, s) := st in
      (* the buffers are cleared *)
      '(buffer, s) <- draw_unique_k_from_n g (Some i_agent) n_connections n_agents [] s ;;
      let weights := resize (f0 a) [] (length buffer) in
      '(weights, norm, s) <- draw_weights (length buffer) weights (f0 a) s ;;
      let '(buffer, weights, norm, s) :=
        if self_interaction then
          let (u, s) := r_real g (f0 a) (f1 a) s in
          (buffer ++ [i_agent], weights ++ [u], fadd a norm u, s)
        else (buffer, weights, norm, s) in
      weights <- normalize (length buffer) norm weights ;;
      Ok (nl ++ [buffer], wl ++ [weights], s)) ([], [], s) ;;
  Ok (net_of_lists d nl wl Incoming, s).

(** network_generation.hpp:83-94, 119-130: the index buffer 0..n-1 *)
Definition all_indices (n_agents : nat) : res (list nat) :=
  for_n n_agents (fun i b => vset b i i) (repeat 0 n_agents).

(** network_generation.hpp:77-107  generate_fully_connected(n_agents, weight) *)
Definition generate_fully_connected (n_agents : nat) (weight : F a) : res net :=
  buffer <- all_indices n_agents ;;
  let weights := repeat weight n_agents in
  '(nl, wl) <- for_n n_agents (fun _ st =>
      let '(nl, wl) := st in Ok (nl ++ [buffer], wl ++ [weights])) ([], []) ;;
  Ok (net_of_lists d nl wl Incoming).

(** network_generation.hpp:109-158  generate_fully_connected(n_agents, gen); the weight vector is
    reused from agent to agent. *)
Definition generate_fully_connected_random (n_agents : nat) (s : rst g) : res (net * rst g) :=
  buffer <- all_indices n_agents ;;
  '(nl, wl, _, s) <- for_n n_agents (fun _ st =>
      let '(nl, wl, weights, s) := st in
      '(weights, norm, s) <- draw_weights n_agents weights (f0 a) s ;;
      weights <- normalize (length buffer) norm weights ;;
      Ok (nl ++ [buffer], wl ++ [weights], weights, s)) ([], [], repeat (f0 a) n_agents, s) ;;
  Ok (net_of_lists d nl wl Incoming, s).

End Gen.

Section Lattice.
Context {A W : Type} (d : A).
Notation net := (network A W).

(** network_generation.hpp:252-266  wrap_edge_index; [ne] is int(n_edge) *)
Definition wrap_edge_index (ne k : Z) : Z :=
  if (ne <=? k)%Z then (k - ne)%Z
  else if (k <? 0)%Z then (ne + k)%Z
  else k.

(** network_generation.hpp:268-272  linear_index, computed in size_t *)
Definition linear_index (n_edge : nat) (i j : Z) : nat :=
  let ne := to_int32 (Z.of_nat n_edge) in
  Z.to_nat (to_size_t (to_size_t (wrap_edge_index ne i)
                       + Z.of_nat n_edge * to_size_t (wrap_edge_index ne j))%Z).

(** network_generation.hpp:242-296  generate_square_lattice *)
Definition generate_square_lattice (n_edge : nat) (weight : W) : res net :=
  let n_agents := Z.to_nat (to_size_t (Z.of_nat n_edge * Z.of_nat n_edge)) in
  let ne := Z.to_nat (to_int32 (Z.of_nat n_edge)) in
  for_n ne (fun i network =>
    for_n ne (fun j network =>
      let i := Z.of_nat i in let j := Z.of_nat j in
      let central_index := linear_index n_edge i j in
      let neighbours := [ linear_index n_edge (i - 1) j; linear_index n_edge (i + 1) j;
                          linear_index n_edge i (j - 1); linear_index n_edge i (j + 1) ] in
      set_neighbours_const network central_index neighbours weight) network)
    (net_sized d n_agents).

End Lattice.
