(** Model of /repo/include/network.hpp (class Network). *)
From Verif Require Import Base.

(** network.hpp:35-39  enum class EdgeDirection *)
Inductive direction : Type := Incoming | Outgoing.

(** network.hpp:44, 308-310  data members. [A] is AgentT, [W] is WeightT; a
    std::vector is a [list], a size_t index is a [nat]. *)
Record network (A W : Type) : Type := mkNet {
  agents : list A;
  neigh  : list (list nat);
  wts    : list (list W);
  dir    : direction
}.
Arguments mkNet {A W} agents neigh wts dir.
Arguments agents {A W} n.
Arguments neigh {A W} n.
Arguments wts {A W} n.
Arguments dir {A W} n.

Section Net.
Context {A W : Type}.
Notation net := (network A W).

(** network.hpp:48-53  Network(size_t n_agents); [d] is the value-initialised AgentT;
    _direction{} value-initialises to the first enumerator, Incoming. *)
Definition net_sized (d : A) (n : nat) : net :=
  mkNet (repeat d n) (repeat [] n) (repeat [] n) Incoming.

(** network.hpp:55-60  Network(std::vector<AgentT> agents) *)
Definition net_of_agents (ag : list A) : net :=
  mkNet ag (repeat [] (length ag)) (repeat [] (length ag)) Incoming.

(** network.hpp:62-70  Network(neighbour_list, weight_list, direction) *)
Definition net_of_lists (d : A) (nl : list (list nat)) (wl : list (list W)) (dr : direction) : net :=
  mkNet (repeat d (length nl)) nl wl dr.

(** network.hpp:75-78 *)
Definition n_agents (g : net) : nat := length (agents g).

(** Conversion of a 64-bit unsigned value to a 32-bit int (C++20: modulo 2^32). *)
Definition to_int32 (z : Z) : Z := ((z + 2147483648) mod 4294967296 - 2147483648)%Z.
(** Conversion of an int to size_t (modulo 2^64). *)
Definition to_size_t (z : Z) : Z := (z mod 18446744073709551616)%Z.

(** network.hpp:84-97  n_edges(): with an index, the size of that row ... *)
Definition n_edges_at (g : net) (i : nat) : res nat :=
  r <- vget (neigh g) i ;; Ok (length r).
(** ... without, std::transform_reduce(..., 0, plus, size): the accumulator has type int
    (the type of the initial value 0) and the result is converted to size_t. *)
Definition n_edges_total (g : net) : Z :=
  to_size_t (fold_left (fun (acc : Z) (row : list nat) =>
                          to_int32 (to_size_t acc + Z.of_nat (length row))%Z) (neigh g) 0%Z).

(** network.hpp:121-124, 126-129  get_neighbours (the span is returned as its contents) *)
Definition get_neighbours (g : net) (i : nat) : res (list nat) := vget (neigh g) i.

(** network.hpp:134-142  get_weights *)
Definition get_weights (g : net) (i : nat) : res (list W) := vget (wts g) i.

(** Writing through the mutable spans of network.hpp:126-129 and 139-142. *)
Definition write_neighbour (g : net) (i k : nat) (j : nat) : res net :=
  r <- vget (neigh g) i ;; r' <- vset r k j ;; nl <- vset (neigh g) i r' ;;
  Ok (mkNet (agents g) nl (wts g) (dir g)).
Definition write_weight (g : net) (i k : nat) (w : W) : res net :=
  r <- vget (wts g) i ;; r' <- vset r k w ;; wl <- vset (wts g) i r' ;;
  Ok (mkNet (agents g) (neigh g) wl (dir g)).

(** network.hpp:147-154  set_weights. Returns the state of the object after the call
    together with the outcome, so that a throwing call also has an after-state. *)
Definition set_weights (g : net) (i : nat) (ws : list W) : net * res unit :=
  match vget (neigh g) i with
  | Ok r =>
      if negb (length r =? length ws) then (g, Throw ExRuntime)
      else match vset (wts g) i ws with
           | Ok wl => (mkNet (agents g) (neigh g) wl (dir g), Ok tt)
           | _ => (g, UB UbIndex)
           end
  | _ => (g, UB UbIndex)
  end.

(** network.hpp:159-165  set_neighbours_and_weights (constant weight); resize followed by
    std::fill leaves exactly [length ns] copies of [w]. *)
Definition set_neighbours_const (g : net) (i : nat) (ns : list nat) (w : W) : res net :=
  nl <- vset (neigh g) i ns ;;
  wl <- vset (wts g) i (repeat w (length ns)) ;;
  Ok (mkNet (agents g) nl wl (dir g)).

(** network.hpp:170-181  set_neighbours_and_weights (weight buffer) *)
Definition set_neighbours_and_weights (g : net) (i : nat) (ns : list nat) (ws : list W)
  : net * res unit :=
  if negb (length ns =? length ws) then (g, Throw ExRuntime)
  else match vset (neigh g) i ns with
       | Ok nl =>
           match vset (wts g) i ws with
           | Ok wl => (mkNet (agents g) nl wl (dir g), Ok tt)
           | _ => (mkNet (agents g) nl (wts g) (dir g), UB UbIndex)
           end
       | _ => (g, UB UbIndex)
       end.

(** network.hpp:186-190  push_back_neighbour_and_weight *)
Definition push_back_neighbour_and_weight (g : net) (i j : nat) (w : W) : res net :=
  r <- vget (neigh g) i ;; nl <- vset (neigh g) i (r ++ [j]) ;;
  rw <- vget (wts g) i ;; wl <- vset (wts g) i (rw ++ [w]) ;;
  Ok (mkNet (agents g) nl wl (dir g)).

(** network.hpp:234-245  switch_direction_flag *)
Definition switch_direction_flag (g : net) : net :=
  mkNet (agents g) (neigh g) (wts g)
        (match dir g with Incoming => Outgoing | Outgoing => Incoming end).

(** network.hpp:206-227  toggle_incoming_outgoing *)
Definition toggle_incoming_outgoing (g : net) : res net :=
  let n := n_agents g in
  '(nt, wt) <-
    for_n n (fun i st =>
      ni <- vget (neigh g) i ;;
      for_n (length ni) (fun k st =>
        let '(nt, wt) := st in
        neighbour <- vget ni k ;;
        wi <- vget (wts g) i ;;
        weight <- vget wi k ;;
        rn <- vget nt neighbour ;;
        nt' <- vset nt neighbour (rn ++ [i]) ;;
        rw <- vget wt neighbour ;;
        wt' <- vset wt neighbour (rw ++ [weight]) ;;
        Ok (nt', wt')) st)
      (repeat [] n, repeat [] n) ;;
  Ok (switch_direction_flag (mkNet (agents g) nt wt (dir g))).

(** network.hpp:196-200  transpose *)
Definition transpose (g : net) : res net :=
  g' <- toggle_incoming_outgoing g ;; Ok (switch_direction_flag g').

(** network.hpp:250-295  remove_double_counting. [wadd] is the [+=] of WeightT,
    [sorter keys] is the content of sorting_indices after std::sort with the comparator
    neighbours[i1] < neighbours[i2]; the order of equal keys is up to the library. *)
Definition back_add (wadd : W -> W -> W) (ws : list W) (w : W) : res (list W) :=
  match rev ws with
  | [] => UB UbEmptyVector
  | l :: pre => Ok (rev pre ++ [wadd l w])
  end.

Definition rdc_row (wadd : W -> W -> W) (sorter : list nat -> list nat)
           (neighbours : list nat) (weights : list W) : res (list nat * list W) :=
  let sorting_indices := sorter neighbours in
  '(_, ncopy, wcopy) <-
    for_n (length neighbours) (fun i st =>
      let '(last, ncopy, wcopy) := st in
      sort_idx <- vget sorting_indices i ;;
      cur <- vget neighbours sort_idx ;;
      w <- vget weights sort_idx ;;
      if match last with Some l => negb (l =? cur) | None => true end
      then Ok (Some cur, ncopy ++ [cur], wcopy ++ [w])
      else wcopy' <- back_add wadd wcopy w ;; Ok (last, ncopy, wcopy'))
      (None, [], []) ;;
  Ok (ncopy, wcopy).

Definition remove_double_counting (wadd : W -> W -> W) (sorter : list nat -> list nat)
           (g : net) : res net :=
  for_n (n_agents g) (fun i g =>
    neighbours <- vget (neigh g) i ;;
    weights <- vget (wts g) i ;;
    '(ncopy, wcopy) <- rdc_row wadd sorter neighbours weights ;;
    wl <- vset (wts g) i wcopy ;;
    nl <- vset (neigh g) i ncopy ;;
    Ok (mkNet (agents g) nl wl (dir g))) g.

(** network.hpp:300-307  clear *)
Definition clear (g : net) : net :=
  mkNet (agents g) (map (fun _ => []) (neigh g)) (map (fun _ => []) (wts g)) (dir g).

(** The mutating part of the public interface as operations of a state machine. *)
Inductive net_op : Type :=
| OpSetWeights (i : nat) (ws : list W)
| OpSetNeighboursConst (i : nat) (ns : list nat) (w : W)
| OpSetNeighbours (i : nat) (ns : list nat) (ws : list W)
| OpPushBack (i j : nat) (w : W)
| OpTranspose
| OpToggle
| OpSwitch
| OpRemoveDoubleCounting
| OpClear.

Definition lift_op (g : net) (m : res net) : net * res unit :=
  match m with
  | Ok g' => (g', Ok tt)
  | Throw e => (g, Throw e)
  | UB u => (g, UB u)
  | NoFuel => (g, NoFuel)
  end.

Definition net_step (wadd : W -> W -> W) (sorter : list nat -> list nat)
           (g : net) (o : net_op) : net * res unit :=
  match o with
  | OpSetWeights i ws => set_weights g i ws
  | OpSetNeighboursConst i ns w => lift_op g (set_neighbours_const g i ns w)
  | OpSetNeighbours i ns ws => set_neighbours_and_weights g i ns ws
  | OpPushBack i j w => lift_op g (push_back_neighbour_and_weight g i j w)
  | OpTranspose => lift_op g (transpose g)
  | OpToggle => lift_op g (toggle_incoming_outgoing g)
  | OpSwitch => (switch_direction_flag g, Ok tt)
  | OpRemoveDoubleCounting => lift_op g (remove_double_counting wadd sorter g)
  | OpClear => (clear g, Ok tt)
  end.

End Net.
Arguments net_op W : clear implicits.
