(** Specification vocabulary: configuration files that differ in one section only. *)
From Verif Require Import Base Arith64 MText MConfig.

(** The section called [name] of a configuration file. *)
Definition section {D} (root : list (text * toml D)) (name : text) : option (toml D) := at_key (Some (TTable root)) name.
(** The two files agree in all sections but [name]. *)
Definition same_except {D} (name : text) (root root' : list (text * toml D)) : Prop :=
  forall k, k <> name -> section root k = section root' k.
(** max_iterations in section [model], if there is a valid one. *)
Definition limit_of {a : Arith} (trunc : F a -> option Z) (root : list (text * toml (F a))) : option Z :=
  value_int trunc (at_key (section root (lit "model")) (lit "max_iterations")).
(** Output options that write nothing. *)
Definition writes_nothing (os : output_settings) : Prop :=
  n_output_agents os = None /\ n_output_network os = None /\ output_initial os = false.
(** The same options up to the seed of the generator. *)
Definition same_but_seed {D} (o o' : options D) : Prop :=
  opt_model o = opt_model o' /\ opt_output o = opt_output o' /\ opt_settings o = opt_settings o' /\ opt_network o = opt_network o'.
(** A run with limit [L] is not longer than one with limit [L'] (None: no limit). *)
Definition shorter (L L' : option Z) : Prop :=
  match L, L' with
  | Some n, Some n' => (0 <= n <= n')%Z
  | Some n, None => (0 <= n)%Z
  | None, Some _ => False
  | None, None => True
  end.
