(** A generator that computes every kind of draw from a tape of independent standard uniform variates,
    and vocabulary for the laws of discrete draws. *)
From Verif Require Import Base Arith64 MRandom SProb SProb2.
From Coq Require Import Reals.
Local Open Scope R_scope.

(** The next variate of the tape (entries outside [0,1) and an exhausted tape count as 0). *)
Definition variate (tape : list R) : R * list R :=
  match tape with
  | u :: t => (if Rle_dec 0 u then if Rlt_dec u 1 then u else 0 else 0, t)
  | [] => (0, [])
  end.

(** Selection sampling (Knuth, algorithm S), as std::sample does for forward iterators: [N] positions,
    the first of which is [i], remain and [m] of them are still to be chosen; position [i] is chosen
    with probability m / N. *)
Fixpoint selection (N m i : nat) (tape : list R) : list nat * list R :=
  match N, m with
  | O, _ | _, O => ([], tape)
  | S N', S m' =>
      let (u, t) := variate tape in
      if Rlt_dec (u * INR N) (INR m)
      then let (l, t') := selection N' m' (S i) t in (i :: l, t')
      else selection N' m (S i) t
  end.

(** All draws from one tape: a real in [lo,hi) is lo + u (hi - lo); an integer in lo..hi is
    lo + floor (u (hi - lo + 1)); a sample is drawn by selection sampling. Normal variates are not used
    with this generator. *)
Definition uni_rng : Rng RA :=
  mkRng RA (list R)
    (fun lo hi s => let (u, t) := variate s in (lo + u * (hi - lo), t))
    (fun lo hi s => let (u, t) := variate s in ((lo + Int_part (u * IZR (hi - lo + 1)))%Z, t))
    (fun pop k s => selection pop (Nat.min k pop) 0 s)
    (fun s => (0, s)).

(** The sublists of [l] with [k] entries (in the order of [l]). *)
Fixpoint sublists {A : Type} (k : nat) (l : list A) : list (list A) :=
  match k, l with
  | O, _ => [] :: nil
  | S k', [] => []
  | S k', x :: t => map (cons x) (sublists k' t) ++ sublists k t
  end.

(** The average of [f] over the entries of [l]. *)
Definition mean_of {A : Type} (f : A -> R) (l : list A) : R := total f l / INR (length l).

(** The mean opinion, and the sum of the squared distances from it. *)
Definition average (xs : list R) : R := total (fun x => x) xs / INR (length xs).
Definition dispersion (xs : list R) : R := total (fun x => (x - average xs) * (x - average xs)) xs.

(** [spread_below t xs]: any two opinions differ by less than [t]. *)
Definition spread_below (t : R) (xs : list R) : Prop := forall x y, In x xs -> In y xs -> Rabs (x - y) < t.

(** All ways of taking one entry of each list. *)
Fixpoint products {A : Type} (ls : list (list A)) : list (list A) :=
  match ls with
  | [] => [] :: nil
  | l :: rest => flat_map (fun x => map (cons x) (products rest)) l
  end.

(** How a component settles in an encounter of two vector agents: if they differ, on the value [o1] of
    the agent that was selected first with probability (1 + mu) / 2, otherwise on that of the other. *)
Definition component_law (mu : R) (o : Z * Z) : list (Z * R) :=
  let (o1, o2) := o in if (o1 =? o2)%Z then (o1, 1) :: nil else (o1, (1 + mu) / 2) :: (o2, (1 - mu) / 2) :: nil.

(** The agents other than [i]. *)
Definition others (i n : nat) : list nat := filter (fun j => negb (j =? i)%nat) (seq 0 n).

(** Indicators. *)
Definition same_rows (l l' : list (list nat)) : R := if list_eq_dec (list_eq_dec Nat.eq_dec) l l' then 1 else 0.
Definition same_vectors (l l' : list (list Z)) : R := if list_eq_dec (list_eq_dec Z.eq_dec) l l' then 1 else 0.
Definition same_vector (u w : list Z) : R := if list_eq_dec Z.eq_dec u w then 1 else 0.
