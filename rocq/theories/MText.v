(** Model of the std::string / {fmt} facilities that the file code uses, and of
    /repo/include/util/misc.hpp:42-60. A std::string is a [list ascii]; std::string::npos is [None].
    Strings are assumed shorter than 2^63 characters, so npos and every difference npos - pos with
    pos <= size() act as "to the end" when used as a length. *)
From Verif Require Import Base MNetwork.
From Coq Require Export Ascii.
From Coq Require Import String List.
Export String.StringSyntax.

Definition text : Type := list ascii.
Delimit Scope string_scope with string.
Bind Scope string_scope with String.string.
Definition lit (s : String.string) : text := String.list_ascii_of_string s.

Definition newline : ascii := "010"%char.
Definition comma : ascii := ","%char.
Definition space : ascii := " "%char.
Definition hash : ascii := "#"%char.

(** Position of the first [c] in [s]. *)
Fixpoint index_of (c : ascii) (s : text) : option nat :=
  match s with
  | [] => None
  | x :: t => if Ascii.eqb x c then Some 0 else option_map S (index_of c t)
  end.

(** s.find(c, pos): npos when pos > size() *)
Definition find_char (s : text) (c : ascii) (pos : nat) : option nat :=
  option_map (fun i => pos + i) (index_of c (skipn pos s)).

(** s.substr(pos, count): throws std::out_of_range when pos > size(); [None] is npos *)
Definition substr (s : text) (pos : nat) (count : option nat) : res text :=
  if length s <? pos then Throw ExOutOfRange
  else Ok (match count with Some n => firstn n (skipn pos s) | None => skipn pos s end).

(** end - start, where end may be npos *)
Definition npos_sub (e : option nat) (start : nat) : option nat := option_map (fun x => x - start) e.
(** end + 1, where npos + 1 = 0 *)
Definition npos_succ (e : option nat) : nat := match e with Some x => S x | None => 0 end.

(** std::isspace in the C locale *)
Definition is_space (c : ascii) : bool :=
  let n := nat_of_ascii c in (n =? 32) || ((9 <=? n) && (n <=? 13)).
Definition is_digit (c : ascii) : bool :=
  let n := nat_of_ascii c in (48 <=? n) && (n <=? 57).
Definition digit_val (c : ascii) : Z := Z.of_nat (nat_of_ascii c - 48).

Fixpoint skip_spaces (s : text) : text :=
  match s with c :: t => if is_space c then skip_spaces t else s | [] => [] end.
(** the longest prefix of digits, as a number in base 10 (None when empty) *)
Fixpoint read_digits (s : text) (acc : Z) : Z :=
  match s with
  | c :: t => if is_digit c then read_digits t (10 * acc + digit_val c)%Z else acc
  | [] => acc
  end.
Definition starts_with_digit (s : text) : bool :=
  match s with c :: _ => is_digit c | [] => false end.

(** std::stoi(s): std::strtol in base 10 on the leading part of the string, the rest is ignored;
    std::invalid_argument when there is no number, std::out_of_range when it does not fit an int. *)
Definition stoi (s : text) : res Z :=
  let s := skip_spaces s in
  let '(neg, s) := match s with
                   | c :: t => if Ascii.eqb c "-"%char then (true, t)
                               else if Ascii.eqb c "+"%char then (false, t) else (false, s)
                   | [] => (false, s)
                   end in
  if starts_with_digit s then
    let v := read_digits s 0 in
    let v := if neg : bool then (- v)%Z else v in
    if ((-2147483648 <=? v) && (v <=? 2147483647))%Z then Ok v else Throw ExOutOfRange
  else Throw ExInvalidArgument.

(** fmt::format("{}", n) for an unsigned integer *)
Definition digit_char (d : N) : ascii := ascii_of_N (48 + d).
Fixpoint dec (fuel : nat) (n : N) : text :=
  match fuel with
  | 0 => []
  | S fuel' => if (n <? 10)%N then [digit_char n]
               else dec fuel' (n / 10) ++ [digit_char (n mod 10)]
  end.
Definition fmt_N (n : N) : text := dec (S (N.to_nat (N.log2 n))) n.
Definition fmt_nat (n : nat) : text := fmt_N (N.of_nat n).
(** fmt::format("{}", z) for an int *)
Definition fmt_Z (z : Z) : text :=
  if (z <? 0)%Z then "-"%char :: fmt_N (Z.to_N (- z)) else fmt_N (Z.to_N z).
(** fmt "{:>w}": pad on the left with spaces to width [w] *)
Definition pad (w : nat) (s : text) : text := repeat space (w - length s) ++ s.

(** misc.hpp:42-60  parse_comma_separated_list. [pos_cur] is an int (initialised with -1), so the
    size_t found is truncated to 32 bits when it is stored in it; the callback works on a state [st]. *)
Section Parse.
Context {St : Type} (callback : nat -> text -> St -> res St).
Fixpoint parse_loop (fuel : nat) (str : text) (pos_cur : Z) (idx_entry : nat) (st : St) : res St :=
  match fuel with
  | 0 => NoFuel
  | S fuel' =>
      if (pos_cur =? 2147483647)%Z then UB UbOther          (* signed overflow in pos_cur + 1 *)
      else
        let start := Z.to_nat (to_size_t (pos_cur + 1)) in
        let pos_next := find_char str comma start in
        sub <- substr str start pos_next ;;
        st <- callback idx_entry sub st ;;
        match pos_next with
        | None => Ok st
        | Some p => parse_loop fuel' str (to_int32 (Z.of_nat p)) (S idx_entry) st
        end
  end.
Definition parse_comma_separated_list (str : text) (st : St) : res St :=
  parse_loop (S (length str)) str (-1) 0 st.
End Parse.
