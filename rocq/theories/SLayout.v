(** Specification: the layout of the files the program writes. *)
From Verif Require Import Base MText MAgents MSimulation.
From Coq Require Import String List Lia.
Import ListNotations.
Open Scope list_scope.

(** Cells separated by a comma and a space. *)
Fixpoint cells (l : list text) : text :=
  match l with [] => [] | c :: nil => c | c :: r => c ++ lit ", " ++ cells r end.
(** Right-aligned in a field of [w] characters (longer texts are not cut). *)
Definition right (w : nat) (s : text) : text := repeat " "%char (w - length s) ++ s.

(** The header line and the data of an agent, per agent type; numbers are printed with [fmt_d]. *)
Definition file_header (k : agent_kind) : string :=
  match k with
  | Simple => "# idx_agent, opinion"
  | Activity => "# idx_agent, opinion, activity, reluctance"
  | Inertial => "# idx_agent, opinion, velocity, activity, reluctance"
  | Vector => "# idx_agent, agent_data[...]"
  end.
Definition agent_data {D : Type} (fmt_d : D -> text) (k : agent_kind) : agent_of D k -> list text :=
  match k return agent_of D k -> list text with
  | Simple => fun x => [fmt_d (s_opinion x)]
  | Activity => fun x => [fmt_d (a_opinion x); fmt_d (a_activity x); fmt_d (a_reluctance x)]
  | Inertial => fun x => [fmt_d (i_opinion x); fmt_d (i_velocity x); fmt_d (i_activity x); fmt_d (i_reluctance x)]
  | Vector => fun x => map fmt_Z (v_opinion x)
  end.
(** The lines of an agent file, numbered from [i]. *)
Fixpoint agent_lines {D : Type} (fmt_d : D -> text) (k : agent_kind) (i : nat) (l : list (agent_of D k)) : list text :=
  match l with
  | [] => []
  | x :: r => (right 5 (fmt_nat i) ++ lit ", " ++ right 25 (cells (agent_data fmt_d k x))) :: agent_lines fmt_d k (S i) r
  end.
Definition each_on_a_line (ls : list text) : text := concat (map (fun l => l ++ ["010"%char]) ls).

(** A row of a network file. *)
Definition network_line {W : Type} (fmt_w : W -> text) (i : nat) (ns : list nat) (ws : list W) : text :=
  cells (map (right 5) (fmt_nat i :: fmt_nat (length ns) :: map fmt_nat ns) ++ map (fun w => right 25 (fmt_w w)) ws).
