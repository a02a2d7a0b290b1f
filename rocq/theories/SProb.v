(** Probabilities of events that depend on finitely many independent uniform variates, as iterated
    Riemann integrals; a generator that reads its uniform variates from a tape. *)
From Verif Require Import Base Arith64 MRandom.
From Coq Require Import Reals.
From Coquelicot Require Import Coquelicot.
Local Open Scope R_scope.

(** [expects n f v]: the expectation of [f (u1, ..., un)] for independent u1, ..., un, each uniform on
    (0,1), exists as an iterated integral and is [v]. In each variable finitely many exceptional values
    ([ex], they may depend on the variables before) do not matter. The expectation of an indicator is a
    probability. *)
Fixpoint expects (n : nat) (f : list R -> R) (v : R) : Prop :=
  match n with
  | O => f [] = v
  | S n' => exists (h : R -> R) (ex : list R),
      (forall u, 0 < u < 1 -> ~ In u ex -> expects n' (fun us => f (u :: us)) (h u)) /\ is_RInt h 0 1 v
  end.

(** The generator whose state is the list of the standard uniform variates still to come (scaled to
    the interval asked for); once they are used up it returns the lower bound. The integer, normal
    and sample draws are of no importance here: they do not use the tape. *)
Definition tape_rng : Rng EA :=
  mkRng EA (list R)
    (fun lo hi s => match s with
                    | u :: t => (eadd lo (emul (Fin u) (eadd hi (eopp lo))), t)
                    | [] => (lo, [])
                    end)
    (fun lo _ s => (lo, s)) (fun pop k s => (seq 0 (Nat.min k pop), s)) (fun s => (Fin 0, s)).

(** Sum of w over m indices starting with i. *)
Fixpoint wsum (w : nat -> R) (i m : nat) : R :=
  match m with O => 0 | S m' => w i + wsum w (S i) m' end.

(** Did the sampler (asked for one index) draw [i]? As an indicator. *)
Definition drawn_is (i : nat) (r : res (list nat * list R)) : R :=
  match r with Ok (c :: nil, _) => if (c =? i)%nat then 1 else 0 | _ => 0 end.

(** A function of the sampler's output buffer (0 if the call fails). *)
Definition of_output (f : list nat -> R) (r : res (list nat * list R)) : R :=
  match r with Ok (out, _) => f out | _ => 0 end.

(** Weighted sampling without replacement as Efraimidis and Spirakis define it (algorithm A-Res):
    item i gets its own uniform variate u_i and the key u_i^(1/w_i) (zero if w_i = 0); the k items with
    the largest keys are the sample. [q] is the priority queue that holds the k largest so far; the
    sample is listed in increasing order of the keys. *)
Definition res_key (w u : R) : ext := if Req_EM_T w 0 then Fin 0 else Fin (Rpower u (1 / w)).
Section ARes.
Variable q : PQ EA.
Variable w : nat -> R.
Fixpoint res_fill (m idx : nat) (h : pq q) (us : list R) : pq q * list R :=
  match m, us with
  | S m', u :: us' => res_fill m' (S idx) (pq_push q (idx, res_key (w idx) u) h) us'
  | _, _ => (h, us)
  end.
Fixpoint res_run (m idx : nat) (h : pq q) (us : list R) : pq q :=
  match m, us with
  | S m', u :: us' =>
      let key := res_key (w idx) u in
      res_run m' (S idx)
        (match pq_top q h with
         | Some (_, smallest) => if eltb smallest key then pq_push q (idx, key) (pq_pop q h) else h
         | None => h
         end) us'
  | _, _ => h
  end.
Fixpoint drain (k : nat) (h : pq q) : list nat :=
  match k with
  | O => []
  | S k' => match pq_top q h with Some (c, _) => c :: drain k' (pq_pop q h) | None => [] end
  end.
Definition a_res (k n : nat) (us : list R) : list nat :=
  let '(h, us) := res_fill k 0 (pq_empty q) us in drain k (res_run (n - k) k h us).
End ARes.

(** The probability of drawing the items of [l] one after the other without replacement, each with
    probability proportional to its weight among the items not yet drawn, [W] being the total weight. *)
Fixpoint successive (w : nat -> R) (l : list nat) (W : R) : R :=
  match l with [] => 1 | i :: l' => w i / W * successive w l' (W - w i) end.
(** The indicator of [l = l']. *)
Definition same (l l' : list nat) : R := if list_eq_dec Nat.eq_dec l l' then 1 else 0.
(** All sequences of [k] different entries of [l]. *)
Fixpoint arrangements (k : nat) (l : list nat) : list (list nat) :=
  match k with O => [] :: nil | S k' => flat_map (fun i => map (cons i) (arrangements k' (remove Nat.eq_dec i l))) l end.
(** Sum of [f] over a list. *)
Definition total {A} (f : A -> R) (l : list A) : R := fold_right (fun x s => f x + s) 0 l.
