(** Specification vocabulary: the probability that an agent contacts a given other agent. *)
From Verif Require Import Base MRandom SProb.
From Coq Require Import Reals.
Local Open Scope R_scope.

(** The probability that [j] is among [k] agents drawn one after the other, without replacement, from
    0..n-1 in proportion to the weights [w]. *)
Definition drawn_chance (w : nat -> R) (k n j : nat) : R :=
  total (fun L => if in_dec Nat.eq_dec j L then successive w L (total w (seq 0 n)) else 0) (arrangements k (seq 0 n)).
