(** Specification vocabulary: how many agents an agent takes opinions from. *)
From Verif Require Import Base.
From Coq Require Import Reals.
Local Open Scope R_scope.

(** The number of agents, other than [i] itself, among 0..n-1 to which the list of edges has an edge from [i]. *)
Definition contacts_of (i n : nat) (es : list (nat * nat)) : R :=
  INR (length (filter (fun j => negb (j =? i)%nat && existsb (fun p => (fst p =? i)%nat && (snd p =? j)%nat) es) (seq 0 n))).
(** The agents 0..n-1 other than [i]. *)
Definition others (i n : nat) : list nat := filter (fun j => negb (j =? i)%nat) (seq 0 n).
