(** Specification vocabulary for text files: lines, columns, what a file says. Independent of the
    position arithmetic of the code. *)
From Verif Require Import Base MText.

(** Pieces of [s] between occurrences of [c] (at least one piece). *)
Fixpoint split_on (c : ascii) (s : text) : list text :=
  match s with
  | [] => [[]]
  | x :: t => if Ascii.eqb x c then [] :: split_on c t
              else match split_on c t with
                   | p :: r => (x :: p) :: r
                   | [] => [[x]]
                   end
  end.

(** The inverse: pieces joined by [c]. *)
Fixpoint join (c : ascii) (ps : list text) : text :=
  match ps with
  | [] => []
  | [p] => p
  | p :: r => p ++ c :: join c r
  end.

Definition is_comment (line : text) : bool :=
  match line with x :: _ => Ascii.eqb x hash | [] => false end.

(** The lines before the first empty one. *)
Fixpoint before_empty (ls : list text) : list text :=
  match ls with
  | [] => []
  | [] :: _ => []
  | l :: r => l :: before_empty r
  end.

(** The lines of a file that carry data: those before the first empty line that are not comments. *)
Definition data_lines (contents : text) : list text :=
  filter (fun l => negb (is_comment l)) (before_empty (split_on newline contents)).

(** Apply a fallible function to every element, left to right; the first failure wins. *)
Fixpoint mapM {X Y : Type} (f : X -> res Y) (l : list X) : res (list Y) :=
  match l with
  | [] => Ok []
  | x :: t => y <- f x ;; ys <- mapM f t ;; Ok (y :: ys)
  end.

(** What a network line means: the second column is the number n of neighbours, the next n are their
    indices, the rest are weights. A negative n (as size_t it is huge) makes all columns indices,
    except -1 and -2, for which the bound 2+n wraps around and there are none. *)
Definition index_columns (n : Z) (available : nat) : nat :=
  if (0 <=? n)%Z then Nat.min (Z.to_nat n) available
  else if (-2 <=? n)%Z then 0 else available.
Definition read_columns {W : Type} (stod : text -> res W) (columns : list text)
  : res (list nat * list W) :=
  match columns with
  | _ :: c1 :: rest =>
      n <- stoi c1 ;;
      let k := index_columns n (length rest) in
      ns <- mapM (fun c => v <- stoi c ;; Ok (Z.to_nat (v mod 18446744073709551616))) (firstn k rest) ;;
      ws <- mapM stod (skipn k rest) ;;
      Ok (ns, ws)
  | _ => Ok ([], [])
  end.

(** A printed number: between the printer and the parser it survives padding on the left and a comma
    on the right, and it contains no separator. *)
Definition printable {X : Type} (fmt : X -> text) (parse : text -> res X) (x : X) : Prop :=
  ~ In comma (fmt x) /\ ~ In newline (fmt x) /\
  forall k rest, rest = [] \/ (exists t, rest = comma :: t) ->
    parse (repeat space k ++ fmt x ++ rest) = Ok x.

(** What parse_comma_separated_list really hands to its callback for each entry: the first and the last
    entry exactly; every other entry followed by as many characters as the position of its first one. *)
Fixpoint handed (pos : nat) (entries : list text) : list text :=
  match entries with
  | [] => []
  | [e] => [e]
  | e :: r => firstn (pos + length e) (join comma entries) :: handed (S (pos + length e)) r
  end.

(** Call [f i x_i] for the elements x_0, x_1, ... in order, threading a state. *)
Fixpoint each {X St : Type} (f : nat -> X -> St -> res St) (i : nat) (l : list X) (st : St) : res St :=
  match l with
  | [] => Ok st
  | x :: t => st <- f i x st ;; each f (S i) t st
  end.

(** The part of a line after its first comma; the whole line when it has none. *)
Definition after_first_comma (line : text) : text :=
  match split_on comma line with
  | _ :: p :: r => join comma (p :: r)
  | _ => line
  end.
