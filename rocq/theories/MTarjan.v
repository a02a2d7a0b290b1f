(** Model of /repo/include/connectivity.hpp (class TarjanConnectivityAlgo). *)
From Verif Require Import Base MNetwork.

(** connectivity.hpp:26-38  data members. [stk] is the std::vector [stack] with its back first
    (push_back = cons, back() = head). The machine call stack is not modelled (recursion depth is
    unlimited). *)
Record tarjan : Type := mkT {
  num : list nat;
  lowest : list nat;
  visited : list bool;
  processed : list bool;
  stk : list nat;
  index_counter : nat;
  scc_list : list (list nat)
}.

(** connectivity.hpp:13-21  member initialisation *)
Definition tarjan_init (adj : list (list nat)) : tarjan :=
  let n := length adj in
  mkT (repeat 0 n) (repeat 0 n) (repeat false n) (repeat false n) [] 0 [].

(** connectivity.hpp:84-98  the pop loop: returns the popped vertices in order and the remaining
    stack; back() of an empty vector is undefined behaviour. *)
Fixpoint pop_until (v : nat) (s : list nat) (scc : list nat) : res (list nat * list nat) :=
  match s with
  | [] => UB UbEmptyVector
  | x :: s' => if x =? v then Ok (scc ++ [x], s') else pop_until v s' (scc ++ [x])
  end.

(** lowest[v] = std::min(lowest[v], x) *)
Definition lower (st : tarjan) (v x : nat) : res tarjan :=
  lv <- vget (lowest st) v ;;
  lw <- vset (lowest st) v (Nat.min lv x) ;;
  Ok (mkT (num st) lw (visited st) (processed st) (stk st) (index_counter st) (scc_list st)).

(** connectivity.hpp:44-50  entering vertex v *)
Definition enter (st : tarjan) (v : nat) : res tarjan :=
  nm <- vset (num st) v (index_counter st) ;;
  lw <- vset (lowest st) v (index_counter st) ;;
  vi <- vset (visited st) v true ;;
  Ok (mkT nm lw vi (processed st) (v :: stk st) (S (index_counter st)) (scc_list st)).

(** connectivity.hpp:77-102  leaving vertex v *)
Definition leave (st : tarjan) (v : nat) : res tarjan :=
  pr <- vset (processed st) v true ;;
  lv <- vget (lowest st) v ;;
  nv <- vget (num st) v ;;
  if lv =? nv then
    '(scc, s') <- pop_until v (stk st) [] ;;
    Ok (mkT (num st) (lowest st) (visited st) pr s' (index_counter st) (scc_list st ++ [scc]))
  else
    Ok (mkT (num st) (lowest st) (visited st) pr (stk st) (index_counter st) (scc_list st)).

(** connectivity.hpp:42-103  depth_first_search. Recursion by fuel; C08 shows that the number of
    vertices plus one is always enough. *)
Fixpoint depth_first_search (fuel : nat) (adj : list (list nat)) (v : nat) (st : tarjan)
  : res tarjan :=
  match fuel with
  | 0 => NoFuel
  | S fuel' =>
      st <- enter st v ;;
      av <- vget adj v ;;
      st <- for_each av (fun u st =>
              if u =? v then Ok st
              else
                vu <- vget (visited st) u ;;
                if negb vu then
                  st <- depth_first_search fuel' adj u st ;;
                  lu <- vget (lowest st) u ;;
                  lower st v lu
                else
                  pu <- vget (processed st) u ;;
                  if negb pu then nu <- vget (num st) u ;; lower st v nu
                  else Ok st) st ;;
      leave st v
  end.

(** connectivity.hpp:107-119  run *)
Definition tarjan_run (adj : list (list nat)) : res tarjan :=
  for_n (length adj) (fun i st =>
    vi <- vget (visited st) i ;;
    if negb vi then depth_first_search (S (length adj)) adj i st else Ok st)
    (tarjan_init adj).

(** network.hpp:108-114  strongly_connected_components *)
Definition strongly_connected_components {A W : Type} (g : network A W) : res (list (list nat)) :=
  st <- tarjan_run (neigh g) ;; Ok (scc_list st).
