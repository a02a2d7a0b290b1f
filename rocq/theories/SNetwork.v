(** Specification vocabulary for networks: what the user observes. Independent of the
    algorithms in [MNetwork]: only the four observable components are mentioned. *)
From Verif Require Import Base MNetwork.
From Coq Require Import Permutation Sorting.Sorted.

Section Spec.
Context {A W : Type}.
Notation net := (network A W).

(** The weighted adjacencies stored at agent [i]. *)
Definition row (g : net) (i : nat) : list (nat * W) :=
  combine (nth i (neigh g) []) (nth i (wts g) []).

(** The directed graph a network stands for: the list of (source, target, weight). In an
    Incoming network a neighbour j stored at i is the edge j -> i, in an Outgoing one i -> j. *)
Definition edges (g : net) : list (nat * nat * W) :=
  flat_map (fun i => map (fun p => match dir g with
                                   | Outgoing => (i, fst p, snd p)
                                   | Incoming => (fst p, i, snd p)
                                   end) (row g i))
           (seq 0 (length (neigh g))).

(** Reversal of an edge. *)
Definition flip (e : nat * nat * W) : nat * nat * W :=
  match e with (s, t, w) => (t, s, w) end.

(** Two networks describe the same directed graph on the same agents. *)
Definition same_graph (g h : net) : Prop :=
  agents g = agents h /\ Permutation (edges g) (edges h).

(** [h] is the transpose of [g]. *)
Definition transposed_graph (g h : net) : Prop :=
  agents g = agents h /\ Permutation (map flip (edges g)) (edges h).

Definition other (d : direction) : direction :=
  match d with Incoming => Outgoing | Outgoing => Incoming end.

(** Consistency of the adjacency lists: one row per agent, one weight per neighbour, and
    all neighbours are agents. *)
Definition wf (g : net) : Prop :=
  length (neigh g) = length (agents g) /\
  length (wts g) = length (agents g) /\
  (forall i, i < length (agents g) -> length (nth i (neigh g) []) = length (nth i (wts g) [])) /\
  (forall i j, In j (nth i (neigh g) []) -> j < length (agents g)).

(** What any implementation of std::sort may do with the index array of
    remove_double_counting: a permutation of the positions ordering the keys. *)
Definition sorter_ok (sorter : list nat -> list nat) : Prop :=
  forall keys,
    Permutation (sorter keys) (seq 0 (length keys)) /\
    Sorted le (map (fun i => nth i keys 0) (sorter keys)).

(** [L'] is the adjacency list [L] with parallel adjacencies merged: neighbours strictly
    increasing, the same neighbours as before, and the weight kept for [j] is the sum (with the
    addition [wadd], in some order) of all weights [L] had for [j]. *)
Definition merged (wadd : W -> W -> W) (L L' : list (nat * W)) : Prop :=
  StronglySorted lt (map fst L') /\
  (forall j, In j (map fst L') <-> In j (map fst L)) /\
  (forall j w, In (j, w) L' -> exists w0 ws,
      Permutation (w0 :: ws) (map snd (filter (fun p => fst p =? j) L)) /\ w = fold_left wadd ws w0).

(** [h] is [g] except that row [i] is now ([ns],[ws]). *)
Definition row_replaced (g h : net) (i : nat) (ns : list nat) (ws : list W) : Prop :=
  agents h = agents g /\ dir h = dir g /\
  get_neighbours h i = Ok ns /\ get_weights h i = Ok ws /\
  forall k, k <> i -> get_neighbours h k = get_neighbours g k /\ get_weights h k = get_weights g k.

(** Every row exists, every stored neighbour is an agent, every stored neighbour has a weight. *)
Definition toggle_safe (g : net) : Prop :=
  length (agents g) <= length (neigh g) /\
  forall i k j, i < length (agents g) -> nth_error (nth i (neigh g) []) k = Some j ->
    j < length (agents g) /\ i < length (wts g) /\ k < length (nth i (wts g) []).

(** The indices passed to a call denote agents. *)
Definition op_in_range (n : nat) (o : net_op W) : Prop :=
  match o with
  | OpSetWeights i _ => i < n
  | OpSetNeighboursConst i ns _ => i < n /\ Forall (fun j => j < n) ns
  | OpSetNeighbours i ns _ => i < n /\ Forall (fun j => j < n) ns
  | OpPushBack i j _ => i < n /\ j < n
  | _ => True
  end.

(** The object after a sequence of calls (a call that throws is caught by the caller). *)
Definition run wadd sorter (g : net) (os : list (net_op W)) : net :=
  fold_left (fun g o => fst (net_step wadd sorter g o)) os g.

End Spec.
