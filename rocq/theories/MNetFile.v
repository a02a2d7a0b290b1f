(** Model of /repo/include/network_io.hpp and of generate_from_file in
    /repo/include/network_generation.hpp:160-239. A file is the text of its contents; opening,
    reading and writing files is taken to succeed (get_file_contents, misc.hpp:12-32, returns the
    contents byte by byte). [fmt_w] is fmt::format("{}", weight) and [stod] is std::stod. *)
From Verif Require Import Base MNetwork MText.

Section IO.
Context {A W : Type} (d : A) (fmt_w : W -> text) (stod : text -> res W).
Notation net := (network A W).

(** network_io.hpp:53-62 ... *)
Definition row_start (idx_agent : nat) (neighbours : list nat) : text :=
  pad 5 (fmt_nat idx_agent) ++ lit ", " ++ pad 5 (fmt_nat (length neighbours)) ++
  (match neighbours with [] => [newline] | _ => lit ", " end).
(** ... 64-67 ... *)
Definition row_neighbours (neighbours : list nat) : text :=
  fold_left (fun row j => row ++ pad 5 (fmt_nat j) ++ lit ", ") neighbours [].
(** ... 69-88; [last] tells whether idx_agent == n_agents - 1 *)
Definition row_weights (last : bool) (weights : list W) : res text :=
  let n_weights := length weights in
  for_n n_weights (fun i_weight row =>
    weight <- vget weights i_weight ;;
    Ok (row ++ pad 25 (fmt_w weight) ++
        (if i_weight =? n_weights - 1 then (if last then [] else [newline]) else lit ", "))) [].

Definition header : text :=
  lit "# idx_agent, n_neighbours_in, indices_neighbours_in[...], weights_in[...]" ++ [newline].

(** network_io.hpp:38-93  network_to_file: the contents of the file *)
Definition network_to_file (g : net) : res text :=
  for_n (n_agents g) (fun idx_agent fs =>
    neighbours <- get_neighbours g idx_agent ;;
    weights <- get_weights g idx_agent ;;
    rw <- row_weights (idx_agent =? n_agents g - 1) weights ;;
    Ok (fs ++ row_start idx_agent neighbours ++ row_neighbours neighbours ++ rw)) header.

(** network_io.hpp:12-36  network_to_dot_file. [size() - 1] is computed in size_t: for an empty row it
    is 2^64-1, so the loop reads buffer[0] (out of range). *)
Definition network_to_dot_file (g : net) : res text :=
  body <- for_n (n_agents g) (fun idx_agent fs =>
    buffer <- get_neighbours g idx_agent ;;
    let row := fmt_nat idx_agent ++ lit " <- {" in
    match buffer with
    | [] => _ <- vget buffer 0 ;; Ok fs
    | _ =>
        row <- for_n (length buffer - 1) (fun i row =>
                 j <- vget buffer i ;; Ok (row ++ fmt_nat j ++ lit ", ")) row ;;
        j <- vget buffer (length buffer - 1) ;;
        Ok (fs ++ row ++ fmt_nat j ++ lit "}" ++ [newline])
    end) (lit "digraph G {" ++ [newline]) ;;
  Ok (body ++ lit "}" ++ [newline]).

(** network_generation.hpp:200-235  the column loop of generate_from_file, for one line. The state is
    (n_neighbours, neighbours of this line, weights of this line); n_neighbours is a size_t. *)
Definition do_column (idx_column : nat) (column : text) (st : Z * list nat * list W)
  : res (Z * list nat * list W) :=
  let '(n_neighbours, ns, ws) := st in
  let bound := to_size_t (2 + n_neighbours) in
  if idx_column =? 1 then
    v <- stoi column ;; Ok (to_size_t v, ns, ws)
  else if (2 <=? idx_column) && (Z.of_nat idx_column <? bound)%Z then
    v <- stoi column ;; Ok (n_neighbours, ns ++ [Z.to_nat (to_size_t v)], ws)
  else if (bound <=? Z.of_nat idx_column)%Z then
    w <- stod column ;; Ok (n_neighbours, ns, ws ++ [w])
  else Ok st.

Fixpoint column_loop (fuel : nat) (line : text) (start_of_column idx_column : nat)
         (st : Z * list nat * list W) : res (Z * list nat * list W) :=
  match fuel with
  | 0 => NoFuel
  | S fuel' =>
      let end_of_column := find_char line comma start_of_column in
      column <- substr line start_of_column (npos_sub end_of_column start_of_column) ;;
      st <- do_column idx_column column st ;;
      match end_of_column with
      | None => Ok st                                        (* finished_row *)
      | Some e => column_loop fuel' line (S e) (S idx_column) st
      end
  end.

Definition parse_line (line : text) : res (list nat * list W) :=
  '(_, ns, ws) <- column_loop (S (length line)) line 0 0 (0%Z, [], []) ;; Ok (ns, ws).

(** network_generation.hpp:171-236  the line loop *)
Fixpoint line_loop (fuel : nat) (contents : text) (start_of_line : nat)
         (nl : list (list nat)) (wl : list (list W)) : res (list (list nat) * list (list W)) :=
  match fuel with
  | 0 => NoFuel
  | S fuel' =>
      let end_of_line := find_char contents newline start_of_line in
      line <- substr contents start_of_line (npos_sub end_of_line start_of_line) ;;
      let start_of_line := npos_succ end_of_line in
      let finished := match end_of_line with None => true | _ => false end in
      match line with
      | [] => Ok (nl, wl)                                    (* break *)
      | c :: _ =>
          if Ascii.eqb c hash then
            if finished then Ok (nl, wl) else line_loop fuel' contents start_of_line nl wl
          else
            '(ns, ws) <- parse_line line ;;
            if finished then Ok (nl ++ [ns], wl ++ [ws])
            else line_loop fuel' contents start_of_line (nl ++ [ns]) (wl ++ [ws])
      end
  end.

(** network_generation.hpp:160-239  generate_from_file *)
Definition generate_from_file (contents : text) : res net :=
  '(nl, wl) <- line_loop (S (length contents)) contents 0 [] [] ;;
  Ok (net_of_lists d nl wl Incoming).

End IO.
