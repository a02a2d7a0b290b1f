(** Specification vocabulary for connectivity: reachability along stored edges. *)
From Verif Require Import Base.
From Coq Require Import Permutation.

(** There is a stored edge from [u] to [w]. *)
Definition edge (adj : list (list nat)) (u w : nat) : Prop := In w (nth u adj []).

Inductive reach (adj : list (list nat)) : nat -> nat -> Prop :=
| reach_refl u : reach adj u u
| reach_step u v w : edge adj u v -> reach adj v w -> reach adj u w.

Definition adj_ok (adj : list (list nat)) : Prop :=
  forall u w, edge adj u w -> w < length adj.

Definition symmetric (adj : list (list nat)) : Prop :=
  forall u w, edge adj u w -> edge adj w u.

(** All members can reach each other. *)
Definition mutually_reachable (adj : list (list nat)) (c : list nat) : Prop :=
  forall u w, In u c -> In w c -> reach adj u w.
