(** Model of the sampling functions of /repo/include/util/math.hpp:17-111, and of the parts of the
    C++ library they use. *)
From Verif Require Import Base Arith64.
From Coq Require Import Permutation.

(** std::mt19937 together with the distributions drawing from it, as an arbitrary state machine.
    [r_real lo hi] is uniform_real_distribution<double>(lo,hi)(gen), [r_int lo hi] is
    uniform_int_distribution(lo,hi)(gen), [r_sample pop k] gives the positions that std::sample
    picks from a population of size [pop] given as forward iterators, [r_normal] is
    normal_distribution<double>(0,1)(gen). Theorems quantify over every such machine; [sample_ok],
    [int_ok], [real_ok] state what the C++ standard promises about the values. *)
Record Rng (a : Arith) : Type := mkRng {
  rst : Type;
  r_real : F a -> F a -> rst -> F a * rst;
  r_int : Z -> Z -> rst -> Z * rst;
  r_sample : nat -> nat -> rst -> list nat * rst;
  r_normal : rst -> F a * rst
}.
Arguments rst {a} r.
Arguments r_real {a} r lo hi s.
Arguments r_int {a} r lo hi s.
Arguments r_sample {a} r pop k s.
Arguments r_normal {a} r s.

(** std::priority_queue<pair<size_t,double>> with the comparator of math.hpp:76, as an abstract data
    type: an arbitrary implementation [pq] with its contents visible as [pq_items]. *)
Record PQ (a : Arith) : Type := mkPQ {
  pq : Type;
  pq_empty : pq;
  pq_push : nat * F a -> pq -> pq;
  pq_top : pq -> option (nat * F a);
  pq_pop : pq -> pq;
  pq_items : pq -> list (nat * F a)
}.
Arguments pq {a} p.
Arguments pq_empty {a} p.
Arguments pq_push {a} p x q.
Arguments pq_top {a} p q.
Arguments pq_pop {a} p q.
Arguments pq_items {a} p q.

Section Sampling.
Context {a : Arith} (m : Libm a) (g : Rng a) (q : PQ a).

(** math.hpp:33-39  SequenceGenerator(i, ignore_idx) *)
Definition seqgen_ctor (i : nat) (ignore_idx : option nat) : nat :=
  match ignore_idx with
  | Some x => if i =? x then S i else i
  | None => i
  end.

(** math.hpp:51-57  operator++ *)
Definition seqgen_next (i : nat) (ignore_idx : option nat) : nat :=
  match ignore_idx with
  | Some x => if S i =? x then S (S i) else S i
  | None => S i
  end.

(** The range [first, last) the iterators delimit (operator== compares i): NoFuel when the end is
    never reached. *)
Fixpoint seqgen_range (fuel i last : nat) (ignore_idx : option nat) : res (list nat) :=
  match fuel with
  | 0 => NoFuel
  | S fuel' =>
      if i =? last then Ok []
      else rest <- seqgen_range fuel' (seqgen_next i ignore_idx) last ignore_idx ;; Ok (i :: rest)
  end.

(** Writing [out] through an output iterator starting at buffer.begin(). *)
Definition write_front (out buffer : list nat) : res (list nat) :=
  if length out <=? length buffer then Ok (out ++ skipn (length out) buffer) else UB UbIndex.

(** math.hpp:20-62  draw_unique_k_from_n *)
Definition draw_unique_k_from_n (ignore_idx : option nat) (k n : nat) (buffer : list nat)
           (s : rst g) : res (list nat * rst g) :=
  let buffer := resize 0 buffer k in
  population <- seqgen_range (n + 2) (seqgen_ctor 0 ignore_idx) (seqgen_ctor n ignore_idx) ignore_idx ;;
  let (positions, s) := r_sample g (length population) k s in
  out <- for_each positions (fun p acc => x <- vget population p ;; Ok (acc ++ [x])) [] ;;
  buffer <- write_front out buffer ;;
  Ok (buffer, s).

Definition queue_top (h : pq q) : res (nat * F a) :=
  match pq_top q h with Some x => Ok x | None => UB UbEmptyQueue end.

(** math.hpp:64-111  reservoir_sampling_A_ExpJ *)
Definition reservoir_sampling_A_ExpJ (k n : nat) (weight : nat -> res (F a)) (buffer : list nat)
           (s : rst g) : res (list nat * rst g) :=
  if k =? 0 then Ok (buffer, s)                                               (* 68-69 *)
  else
    (* 79-85: while (idx < n && H.size() < k); H.size() = idx, so the loop runs min(n,k) times *)
    '(h, s) <- for_n (Nat.min n k) (fun idx hs =>
        let '(h, s) := hs in
        let (u, s) := r_real g (f0 a) (f1 a) s in
        w <- weight idx ;;
        let r := lpow a m u (fdiv a (f1 a) w) in
        Ok (pq_push q (idx, r) h, s)) (pq_empty q, s) ;;
    (* 87 *)
    let (u, s) := r_real g (f0 a) (f1 a) s in
    top <- queue_top h ;;
    let X := fdiv a (llog a m u) (llog a m (snd top)) in
    (* 88-102 *)
    '(h, X, s) <- for_from (Nat.min n k) (n - Nat.min n k) (fun idx hxs =>
        let '(h, X, s) := hxs in
        w <- weight idx ;;
        let X := fsub a X w in
        if fle a X (f0 a) then
          top <- queue_top h ;;
          let t := lpow a m (snd top) w in
          let (u, s) := r_real g (f0 a) (f1 a) s in
          let uniform_from_t_to_one := fadd a (fmul a u (fsub a (f1 a) t)) t in
          let r := lpow a m uniform_from_t_to_one (fdiv a (f1 a) w) in
          let h := pq_push q (idx, r) (pq_pop q h) in
          let (u, s) := r_real g (f0 a) (f1 a) s in
          top <- queue_top h ;;
          Ok (h, fdiv a (llog a m u) (llog a m (snd top)), s)
        else Ok (h, X, s)) (h, X, s) ;;
    (* 104 *)
    let buffer := resize 0 buffer (length (pq_items q h)) in
    (* 106-110 *)
    '(buffer, _) <- for_n k (fun i bh =>
        let '(buffer, h) := bh in
        top <- queue_top h ;;
        buffer <- vset buffer i (fst top) ;;
        Ok (buffer, pq_pop q h)) (buffer, h) ;;
    Ok (buffer, s).

End Sampling.
Arguments draw_unique_k_from_n {a} g ignore_idx k n buffer s.
