(** Specification vocabulary for programs that use an unknown number of variates, and for the law of a
    random contact network. *)
From Verif Require Import Base Arith64 MRandom SProb.
From Coq Require Import Reals.
Local Open Scope R_scope.

(** The expectation of [f] applied to the tape is [v], whatever the length of the tape, provided it is
    long enough. *)
Definition expectation (f : list R -> R) (v : R) : Prop := exists N, forall n, (N <= n)%nat -> expects n f v.

(** Expectation over independent choices: the [i]-th of the results is drawn from the [i]-th list of
    possibilities, each given with its probability. *)
Fixpoint over_rows {X : Type} (laws : list (list (X * R))) (f : list X -> R) : R :=
  match laws with
  | [] => f []
  | law :: rest => total (fun xp => snd xp * over_rows rest (fun t => f (fst xp :: t))) law
  end.
(** Expectation over a random selection of the entries of [l], each being selected independently with
    probability [r]. *)
Fixpoint over_coins {X : Type} (r : R) (l : list X) (f : list X -> R) : R :=
  match l with
  | [] => f []
  | x :: t => r * over_coins r t (fun sel => f (x :: sel)) + (1 - r) * over_coins r t f
  end.

(** The contacts of one agent among [n]: none with probability [1 - act]; otherwise [k] drawn one after
    the other without replacement, in proportion to the weights [w] (listed in reverse order). *)
Definition row_law (act : R) (w : nat -> R) (k n : nat) : list (list nat * R) :=
  ([], 1 - act) :: map (fun L => (rev L, act * successive w L (wsum w 0 n))) (arrangements k (seq 0 n)).
