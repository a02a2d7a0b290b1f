(** Witnesses: concrete generators and a concrete priority queue that satisfy the contracts of
    [SRandom], so that theorems assuming them are not vacuous. *)
From Verif Require Import Base BaseFacts Arith64 MRandom SRandom.
From Coq Require Import Permutation Sorting.Sorted Reals Lra.

(** A generator that always draws the first [k] positions, the lower integer and the fixed reals
    [u] (uniform) and [v] (normal). Its state is unit. *)
Definition const_rng {a : Arith} (u v : F a) : Rng a :=
  mkRng a unit (fun _ _ s => (u, s)) (fun lo _ s => (lo, s))
        (fun pop k s => (seq 0 (Nat.min k pop), s)) (fun s => (v, s)).

Lemma const_rng_sample_ok (a : Arith) (u v : F a) : sample_ok (const_rng u v).
Proof.
  intros pop k s. cbn. rewrite seq_length. split; auto. split.
  - generalize (Nat.min k pop) as m, 0. induction m as [|m IH]; intros i; cbn; constructor; auto.
    apply Forall_forall. intros x Hx. apply in_seq in Hx. lia.
  - apply Forall_forall. intros x Hx. apply in_seq in Hx. lia.
Qed.

Lemma const_rng_int_ok (a : Arith) (u v : F a) : int_ok (const_rng u v).
Proof. intros lo hi s H. cbn. lia. Qed.

(** A generator driven by streams: the state is the number of draws made so far. *)
Definition stream_rng {a : Arith} (us : nat -> F a) (is : nat -> nat) (vs : nat -> F a) : Rng a :=
  mkRng a nat (fun _ _ s => (us s, S s))
        (fun lo hi s => ((lo + Z.of_nat (is s) mod (hi - lo + 1))%Z, S s))
        (fun pop k s => (seq (pop - Nat.min k pop) (Nat.min k pop), S s)) (fun s => (vs s, S s)).

Lemma stream_rng_sample_ok (a : Arith) us is vs : sample_ok (stream_rng (a:=a) us is vs).
Proof.
  intros pop k s. cbn. rewrite seq_length. split; auto. split.
  - generalize (Nat.min k pop) as m, (pop - Nat.min k pop). induction m as [|m IH]; intros i; cbn; constructor; auto.
    apply Forall_forall. intros x Hx. apply in_seq in Hx. lia.
  - apply Forall_forall. intros x Hx. apply in_seq in Hx. lia.
Qed.

Lemma stream_rng_int_ok (a : Arith) us is vs : int_ok (stream_rng (a:=a) us is vs).
Proof.
  intros lo hi s H. cbn. pose proof (Z.mod_pos_bound (Z.of_nat (is s)) (hi - lo + 1)). lia.
Qed.

(** A priority queue kept as an unordered list; top selects a smallest key. *)
Section ListPQ.
Variable a : Arith.
Fixpoint select_min (x : nat * F a) (l : list (nat * F a)) : (nat * F a) * list (nat * F a) :=
  match l with
  | [] => (x, [])
  | y :: t => if flt a (snd y) (snd x) then let (m, r) := select_min y t in (m, x :: r)
              else let (m, r) := select_min x t in (m, y :: r)
  end.

Definition list_pq : PQ a :=
  mkPQ a (list (nat * F a)) [] cons
       (fun h => match h with [] => None | x :: t => Some (fst (select_min x t)) end)
       (fun h => match h with [] => [] | x :: t => snd (select_min x t) end)
       (fun h => h).

Lemma select_min_perm l : forall x, Permutation (x :: l) (fst (select_min x l) :: snd (select_min x l)).
Proof.
  induction l as [|y t IH]; intros x; cbn [select_min]; auto.
  destruct (flt a (snd y) (snd x)).
  - specialize (IH y). destruct (select_min y t) as [mm r]. cbn in *.
    eapply Permutation_trans; [apply perm_skip, IH|]. apply perm_swap.
  - specialize (IH x). destruct (select_min x t) as [mm r]. cbn in *.
    eapply Permutation_trans; [apply perm_swap|].
    eapply Permutation_trans; [apply perm_skip, IH|]. apply perm_swap.
Qed.

Lemma list_pq_bag : pq_bag list_pq.
Proof.
  repeat split; cbn; auto.
  - intros H. now rewrite H.
  - destruct h; auto; discriminate.
  - intros [|y h] x H; [discriminate|]. inversion H; subst. apply select_min_perm.
Qed.
End ListPQ.

(** On finite keys it is ordered. *)
Lemma select_min_le l : forall x,
  Forall (fun y => exists r, snd y = Fin r) (x :: l) ->
  Forall (fun y => eltb (snd y) (snd (fst (select_min EA x l))) = false) (x :: l).
Proof.
  assert (irr : forall e, (exists r, e = Fin r) -> eltb e e = false).
  { intros e [r ->]. cbn. unfold Rltb. destruct (Rlt_dec r r); auto. lra. }
  assert (tr : forall e1 e2 e3, (exists r, e1 = Fin r) -> (exists r, e2 = Fin r) -> (exists r, e3 = Fin r) ->
              eltb e1 e2 = false -> eltb e2 e3 = false -> eltb e1 e3 = false).
  { intros ? ? ? [r ->] [s ->] [t ->]. cbn. unfold Rltb.
    destruct (Rlt_dec r s), (Rlt_dec s t), (Rlt_dec r t); auto; try discriminate; lra. }
  induction l as [|y t IH]; intros x H.
  - cbn. constructor; auto. apply irr. now inversion H.
  - inversion H as [|? ? Hx Ht]; subst. inversion Ht as [|? ? Hy Ht']; subst. cbn [select_min].
    pose proof (fun x => select_min_perm EA t x) as SP.
    destruct (eltb (snd y) (snd x)) eqn:E; change (flt EA (@snd nat (F EA) y) (@snd nat (F EA) x)) with (eltb (snd y) (snd x)); rewrite E.
    + specialize (IH y Ht). specialize (SP y). destruct (select_min EA y t) as [mm r] eqn:Es. cbn [fst snd] in *.
      constructor; auto. inversion IH as [|? ? IHy _]; subst.
      assert (Hm : exists r, snd mm = Fin r).
      { rewrite Forall_forall in Ht. apply Ht. eapply Permutation_in; [apply Permutation_sym, SP|]. cbn; auto. }
      destruct Hx as [rx Ex], Hy as [ry Ey], Hm as [rm Em].
      cbn [flt EA] in E. rewrite Ex, Ey in E. rewrite Ey, Em in IHy. rewrite Ex, Em.
      cbn [eltb] in *. unfold Rltb in *.
      destruct (Rlt_dec ry rx), (Rlt_dec ry rm), (Rlt_dec rx rm); auto; try discriminate; lra.
    + assert (Hxt : Forall (fun y => exists r, snd y = Fin r) (x :: t)) by (constructor; auto).
      specialize (IH x Hxt). specialize (SP x). destruct (select_min EA x t) as [mm r] eqn:Es. cbn [fst snd] in *.
      inversion IH as [|? ? IHx IHt]; subst. constructor; auto. constructor; auto.
      assert (Hm : exists r, snd mm = Fin r).
      { rewrite Forall_forall in Hxt. apply Hxt. eapply Permutation_in; [apply Permutation_sym, SP|]. cbn; auto. }
      apply (tr _ (snd x)); auto.
Qed.

Lemma list_pq_ordered : pq_ordered (a:=EA) (fun x : ext => exists r, x = Fin r) (list_pq EA).
Proof.
  intros [|y h] x H HF z Hz; [destruct Hz|]. cbn in H. inversion H; subst.
  pose proof (select_min_le h y HF) as G. rewrite Forall_forall in G. now apply G.
Qed.
