(** Model of the agent types (/repo/include/agents/*.hpp) and of agent files
    (/repo/include/agent_io.hpp). [D] stands for double; [fmt_d] is fmt::format("{}", double) and
    [stod] is std::stod. *)
From Verif Require Import Base MNetwork MText.

(** agents/simple_agent.hpp:9-14; Agent<T> (agent.hpp:9-18) only wraps the data *)
Record simple_agent (D : Type) : Type := mkSimple { s_opinion : D }.
Arguments mkSimple {D}. Arguments s_opinion {D}.
(** agents/activity_agent.hpp:9-16 *)
Record activity_agent (D : Type) : Type := mkActivity { a_opinion : D; a_activity : D; a_reluctance : D }.
Arguments mkActivity {D}. Arguments a_opinion {D}. Arguments a_activity {D}. Arguments a_reluctance {D}.
(** agents/inertial_agent.hpp:10-18 *)
Record inertial_agent (D : Type) : Type :=
  mkInertial { i_opinion : D; i_activity : D; i_reluctance : D; i_velocity : D }.
Arguments mkInertial {D}. Arguments i_opinion {D}. Arguments i_activity {D}. Arguments i_reluctance {D}.
Arguments i_velocity {D}.
(** agents/discrete_vector_agent.hpp:13-18; the entries are C++ ints *)
Record vector_agent : Type := mkVector { v_opinion : list Z }.

Section Agents.
Context {D : Type} (zero one : D) (fmt_d : D -> text) (stod : text -> res D).

(** agents/simple_agent.hpp:16-20 and 28-34 *)
Definition simple_to_string (x : simple_agent D) : text := fmt_d (s_opinion x).
Definition simple_from_string (str : text) : res (simple_agent D) := o <- stod str ;; Ok (mkSimple o).

(** agents/activity_agent.hpp:18-22 *)
Definition activity_to_string (x : activity_agent D) : text :=
  fmt_d (a_opinion x) ++ lit ", " ++ fmt_d (a_activity x) ++ lit ", " ++ fmt_d (a_reluctance x).
(** agents/activity_agent.hpp:30-55. Note that the second substr gets an end position as its length. *)
Definition activity_from_string (str : text) : res (activity_agent D) :=
  let pos_comma := find_char str comma 0 in
  let pos_next_comma := find_char str comma (npos_succ pos_comma) in
  s0 <- substr str 0 pos_comma ;;
  o <- stod s0 ;;
  s1 <- substr str (npos_succ pos_comma)
          (match pos_next_comma with None => Some (length str) | Some _ => pos_next_comma end) ;;
  a <- stod s1 ;;
  match pos_next_comma with
  | None => Ok (mkActivity o a one)
  | Some p => s2 <- substr str (S p) (Some (length str)) ;; r <- stod s2 ;; Ok (mkActivity o a r)
  end.

(** agents/inertial_agent.hpp:20-25 *)
Definition inertial_to_string (x : inertial_agent D) : text :=
  fmt_d (i_opinion x) ++ lit ", " ++ fmt_d (i_velocity x) ++ lit ", " ++
  fmt_d (i_activity x) ++ lit ", " ++ fmt_d (i_reluctance x).
(** agents/inertial_agent.hpp:33-61 *)
Definition inertial_callback (idx_list : nat) (sub : text) (res : inertial_agent D)
  : Base.res (inertial_agent D) :=
  if idx_list =? 0 then
    v <- stod sub ;; Ok (mkInertial v (i_activity res) (i_reluctance res) (i_velocity res))
  else if idx_list =? 1 then
    v <- stod sub ;; Ok (mkInertial (i_opinion res) (i_activity res) (i_reluctance res) v)
  else if idx_list =? 2 then
    v <- stod sub ;; Ok (mkInertial (i_opinion res) v (i_reluctance res) (i_velocity res))
  else if idx_list =? 3 then
    v <- stod sub ;; Ok (mkInertial (i_opinion res) (i_activity res) v (i_velocity res))
  else Ok res.
Definition inertial_from_string (str : text) : res (inertial_agent D) :=
  parse_comma_separated_list inertial_callback str (mkInertial zero zero one zero).

(** agents/discrete_vector_agent.hpp:20-32 *)
Definition vector_to_string (x : vector_agent) : res text :=
  match v_opinion x with
  | [] => Ok []
  | o0 :: _ =>
      for_from 1 (length (v_opinion x) - 1) (fun i res =>
        o <- vget (v_opinion x) i ;; Ok (res ++ lit ", " ++ fmt_Z o)) (fmt_Z o0)
  end.
(** agents/discrete_vector_agent.hpp:40-50 *)
Definition vector_from_string (str : text) : res vector_agent :=
  v <- parse_comma_separated_list (fun _ sub st => v <- stoi sub ;; Ok (st ++ [v])) str [] ;;
  Ok (mkVector v).

End Agents.

(** The column names of the header: simple_agent.hpp:36-40, activity_agent.hpp:57-61,
    inertial_agent.hpp:63-67; discrete vectors use the default (agent_io.hpp:32-36). *)
Definition simple_columns : list text := [lit "opinion"].
Definition activity_columns : list text := [lit "opinion"; lit "activity"; lit "reluctance"].
Definition inertial_columns : list text :=
  [lit "opinion"; lit "velocity"; lit "activity"; lit "reluctance"].
Definition vector_columns : list text := [lit "agent_data[...]"].

Section AgentFile.
Context {A : Type} (column_names : list text) (to_string : A -> res text) (from_string : text -> res A).

(** agent_io.hpp:38-62  agents_to_file: the contents of the file *)
Definition agents_header : text :=
  fold_left (fun header col => header ++ lit ", " ++ col) column_names (lit "# idx_agent") ++ [newline].
Definition agents_to_file (agents : list A) : res text :=
  for_n (length agents) (fun idx_agent fs =>
    a <- vget agents idx_agent ;;
    s <- to_string a ;;
    Ok (fs ++ pad 5 (fmt_nat idx_agent) ++ lit ", " ++ pad 25 s ++ [newline])) agents_header.

(** agent_io.hpp:73-99  the line loop of agents_from_file. [end_of_line] is passed to substr as a
    length, as the code does. *)
Fixpoint agent_line_loop (fuel : nat) (contents : text) (start_of_line : nat) (agents : list A)
  : res (list A) :=
  match fuel with
  | 0 => NoFuel
  | S fuel' =>
      let end_of_line := find_char contents newline start_of_line in
      line <- substr contents start_of_line (npos_sub end_of_line start_of_line) ;;
      let start_of_line := npos_succ end_of_line in
      let finished := match end_of_line with None => true | _ => false end in
      match line with
      | [] => Ok agents
      | c :: _ =>
          if Ascii.eqb c hash then
            if finished then Ok agents else agent_line_loop fuel' contents start_of_line agents
          else
            let end_of_first_column := find_char line comma 0 in
            opinion_substring <- substr line (npos_succ end_of_first_column) end_of_line ;;
            a <- from_string opinion_substring ;;
            if finished then Ok (agents ++ [a])
            else agent_line_loop fuel' contents start_of_line (agents ++ [a])
      end
  end.
(** agent_io.hpp:64-102  agents_from_file *)
Definition agents_from_file (contents : text) : res (list A) :=
  agent_line_loop (S (length contents)) contents 0 [].
End AgentFile.
