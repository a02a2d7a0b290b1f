(** Foundations of the model: outcomes of C++ code, std::vector access, loops.
    Nothing here models a particular file of /repo; it fixes the meaning of the
    C++ constructs all other model files use. *)
From Coq Require Export List Arith ZArith Lia Bool.
Export ListNotations.
Open Scope nat_scope.

(** C++ exceptions the code can raise. *)
Inductive exn : Type :=
| ExRuntime          (* std::runtime_error *)
| ExInvalidArgument  (* std::invalid_argument (stoi, stod: no conversion) *)
| ExOutOfRange       (* std::out_of_range (stoi, stod: value; substr: position) *)
| ExLengthError      (* std::length_error / bad_alloc: vector of absurd size *)
| ExBadVariant       (* std::bad_variant_access *)
| ExIncompatible.    (* the std::runtime_error "Incompatible agent and model type!" of model_factory.hpp *)

(** Sources of undefined behaviour that the model makes a distinct outcome. *)
Inductive ub : Type :=
| UbIndex            (* vector / span element access out of range *)
| UbEmptyQueue       (* top() or pop() of an empty priority_queue *)
| UbDivZero          (* integer modulo by zero *)
| UbEmptyVector      (* back()/pop_back() of an empty vector *)
| UbOther.

(** Outcome of running a piece of C++ code. [NoFuel] is an artefact of the model:
    a loop used more steps than the budget it was given. *)
Inductive res (A : Type) : Type :=
| Ok (a : A)
| Throw (e : exn)
| UB (u : ub)
| NoFuel.
Arguments Ok {A} a.
Arguments Throw {A} e.
Arguments UB {A} u.
Arguments NoFuel {A}.

Definition bind {A B : Type} (m : res A) (k : A -> res B) : res B :=
  match m with
  | Ok a => k a
  | Throw e => Throw e
  | UB u => UB u
  | NoFuel => NoFuel
  end.

Notation "x <- m ;; k" := (bind m (fun x => k))
  (at level 61, m at next level, right associativity).
Notation "' p <- m ;; k" := (bind m (fun x => match x with p => k end))
  (at level 61, p pattern, m at next level, right associativity).

(** [v[i]] of a std::vector / std::span: out of range is undefined behaviour. *)
Definition vget {A : Type} (v : list A) (i : nat) : res A :=
  match nth_error v i with
  | Some a => Ok a
  | None => UB UbIndex
  end.

(** Replace element [i] (no effect when out of range; guarded by [vset]). *)
Fixpoint upd {A : Type} (v : list A) (i : nat) (a : A) : list A :=
  match v, i with
  | [], _ => []
  | _ :: t, 0 => a :: t
  | h :: t, S j => h :: upd t j a
  end.

(** [v[i] = a]: out of range is undefined behaviour. *)
Definition vset {A : Type} (v : list A) (i : nat) (a : A) : res (list A) :=
  if i <? length v then Ok (upd v i a) else UB UbIndex.

(** [for (size_t j = i; j < i+n; j++) body(j)] *)
Fixpoint for_from {S : Type} (i n : nat) (body : nat -> S -> res S) (s : S) : res S :=
  match n with
  | 0 => Ok s
  | Datatypes.S n' => s' <- body i s ;; for_from (Datatypes.S i) n' body s'
  end.

(** [for (size_t j = 0; j < n; j++) body(j)] *)
Definition for_n {S : Type} (n : nat) (body : nat -> S -> res S) (s : S) : res S :=
  for_from 0 n body s.

(** [for (auto & x : l) body(x)] over a container that the body does not change. *)
Fixpoint for_each {X S : Type} (l : list X) (body : X -> S -> res S) (s : S) : res S :=
  match l with
  | [] => Ok s
  | x :: t => s' <- body x s ;; for_each t body s'
  end.

(** [std::vector::resize(k)]: truncates or pads with [d]. *)
Definition resize {A : Type} (d : A) (v : list A) (k : nat) : list A :=
  firstn k v ++ repeat d (k - length v).

(** Postcondition of an outcome: it is [Ok] and the value satisfies [P]. *)
Definition okp {A : Type} (m : res A) (P : A -> Prop) : Prop :=
  match m with Ok a => P a | _ => False end.

Definition is_ok {A : Type} (m : res A) : Prop := okp m (fun _ => True).
