(** Specification vocabulary: contact networks under a renumbering of the agents. *)
From Verif Require Import Base.
(** The edge [p] = (source, target) with agent [i] called [s i]. *)
Definition renamed (s : nat -> nat) (p : nat * nat) : nat * nat := (s (fst p), s (snd p)).
