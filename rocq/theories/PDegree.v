(** Proofs about the expected number of contacts. *)
From Verif Require Import Base BaseFacts MRandom SProb SProb2 PProb PProb9 PLaw PLaw2 PNetNumber SEdge PEdge SDegree TProb3.
From Coq Require Import Permutation Reals Lra.
Local Open Scope R_scope.

Lemma total_swap {A B} (f : A -> B -> R) l l' : total (fun x => total (fun y => f x y) l') l = total (fun y => total (fun x => f x y) l) l'.
Proof.
  induction l as [|x l IH]; unfold total; cbn [fold_right].
  - induction l' as [|y l' IH']; cbn [fold_right]; [reflexivity|]. rewrite <- IH'. lra.
  - fold (@total A). change (fold_right (fun x0 s => fold_right (fun y s0 => f x0 y + s0) 0 l' + s) 0 l) with (total (fun x => total (fun y => f x y) l') l). rewrite IH.
    clear IH. induction l' as [|y l' IH']; unfold total in *; cbn [fold_right] in *; lra.
Qed.
(** The number of the entries of [l] that are in [L]. *)
Lemma total_chosen L : forall l, NoDup l -> NoDup L -> incl L l -> total (fun j => chosen j L) l = INR (length L).
Proof.
  intros l Hl HL Hi.
  transitivity (total (fun j => total (fun x => if (x =? j)%nat then 1 else 0) L) l).
  - apply total_ext. intros j _. unfold chosen. clear Hi. induction L as [|x L IH]; [reflexivity|].
    apply NoDup_cons_iff in HL as (Hx & HL). specialize (IH HL). unfold total in *. cbn [fold_right]. rewrite <- IH.
    destruct (in_dec Nat.eq_dec j (x :: L)) as [H|H], (in_dec Nat.eq_dec j L) as [H'|H'], (Nat.eqb_spec x j) as [->|Hne]; try lra; exfalso; try tauto;
      try (apply H; now right); try (apply H; now left); destruct H; auto.
  - rewrite total_swap. clear HL. induction L as [|x L IH]; [reflexivity|].
    transitivity (1 + INR (length L)); [|cbn [length]; rewrite S_INR; ring]. unfold total at 1. cbn [fold_right].
    change (fold_right (fun x0 s => total (fun y => if (x0 =? y)%nat then 1 else 0) l + s) 0 L) with (total (fun x0 => total (fun y => if (x0 =? y)%nat then 1 else 0) l) L).
    rewrite IH by (intros y Hy; apply Hi; now right). f_equal.
    assert (Hx : In x l) by (apply Hi; now left). clear -Hl Hx. induction l as [|y l IH]; [destruct Hx|]. apply NoDup_cons_iff in Hl as (Hy & Hl).
    unfold total in *. cbn [fold_right]. destruct (Nat.eqb_spec x y) as [->|Hne].
    + enough (fold_right (fun x s => (if (y =? x)%nat then 1 else 0) + s) 0 l = 0) by lra. clear IH Hx Hl. induction l as [|z l IH]; [reflexivity|]. cbn [fold_right].
      rewrite IH by (intros H; apply Hy; now right). destruct (Nat.eqb_spec y z) as [->|]; [exfalso; apply Hy; now left|lra].
    + rewrite IH; auto; [lra|]. destruct Hx; [congruence|auto].
Qed.
Lemma successive_zero (w : nat -> R) z L : In z L -> w z = 0 -> forall W, successive w L W = 0.
Proof.
  induction L as [|i L IH]; intros H Ez W; [destruct H|]. cbn [successive]. destruct H as [->|H]; [rewrite Ez; unfold Rdiv; ring|]. rewrite IH by auto. ring.
Qed.
Lemma drawn_zero w k n z : w z = 0 -> drawn_chance w k n z = 0.
Proof.
  intros Ez. unfold drawn_chance. transitivity (total (fun _ : list nat => 0 * 0) (arrangements k (seq 0 n))).
  - apply total_ext. intros L _. destruct (in_dec Nat.eq_dec z L) as [H|H]; [rewrite (successive_zero w z L H Ez)|]; ring.
  - rewrite <- total_scale. ring.
Qed.
Lemma total_others (f : nat -> R) i n : (i < n)%nat -> total f (seq 0 n) = f i + total f (others i n).
Proof.
  intros Hi. unfold others. assert (Hin : In i (seq 0 n)) by (apply in_seq; lia). pose proof (seq_NoDup n 0) as HN. revert Hin HN. generalize (seq 0 n) as l.
  induction l as [|x l IH]; intros Hin HN; [destruct Hin|]. apply NoDup_cons_iff in HN as (Hx & HN). unfold total in *. cbn [fold_right filter].
  destruct (Nat.eqb_spec x i) as [->|Hne]; cbn [negb].
  - f_equal. clear IH Hin HN. induction l as [|y l IH]; [reflexivity|]. cbn [fold_right filter]. destruct (Nat.eqb_spec y i) as [->|]; [exfalso; apply Hx; now left|].
    cbn [negb fold_right]. rewrite IH; auto. intros H; apply Hx; now right.
  - cbn [fold_right]. rewrite IH; auto; [lra|]. destruct Hin; [contradiction|auto].
Qed.
(** Whatever the weights, [k] different agents are drawn. *)
Theorem drawn_sum w k n i : (i < n)%nat -> w i = 0 -> (forall j, (j < n)%nat -> j <> i -> 0 < w j) -> (k < n)%nat ->
  total (drawn_chance w k n) (others i n) = INR k.
Proof.
  intros Hi Ei Hw Hk.
  enough (H : total (drawn_chance w k n) (seq 0 n) = INR k). { rewrite (total_others _ i n Hi), drawn_zero in H by auto. lra. }
  unfold drawn_chance. rewrite total_swap.
  transitivity (total (fun L => INR k * successive w L (total w (seq 0 n))) (arrangements k (seq 0 n))).
  - apply total_ext. intros L HL. apply in_arrangements in HL as (E & HN & HI).
    transitivity (total (fun j => successive w L (total w (seq 0 n)) * chosen j L) (seq 0 n)).
    { apply total_ext. intros j _. unfold chosen. destruct (in_dec Nat.eq_dec j L); ring. }
    rewrite <- total_scale, total_chosen, E; auto using seq_NoDup. ring.
  - rewrite <- total_scale. rewrite (successive_total w i k (seq 0 n)); auto using seq_NoDup; [ring| | |].
    + apply in_seq. lia.
    + intros j Hj. apply in_seq in Hj. apply Hw. lia.
    + now rewrite seq_length.
Qed.
Lemma contacts_of_total i n es : contacts_of i n es = total (fun j => has_edge i j es) (others i n).
Proof.
  unfold contacts_of, others, has_edge. induction (seq 0 n) as [|j l IH]; [reflexivity|]. cbn [filter]. destruct (negb (j =? i)%nat); cbn [andb]; auto.
  unfold total in *. cbn [fold_right]. destruct (existsb (fun p => (fst p =? i)%nat && (snd p =? j)%nat) es).
  - cbn [length]. rewrite S_INR, IH. ring.
  - rewrite IH. ring.
Qed.
Lemma expectation_total {A} (f : A -> list R -> R) (v : A -> R) l : (forall x, In x l -> expectation (f x) (v x)) ->
  expectation (fun us => total (fun x => f x us) l) (total v l).
Proof.
  intros H. assert (exists N, forall n, (N <= n)%nat -> forall x, In x l -> expects n (f x) (v x)) as (N & HN).
  { induction l as [|x l IH]; [exists 0%nat; intros ? ? ? []|]. destruct IH as (N & HN); [intros; apply H; now right|]. destruct (H x (or_introl eq_refl)) as (N' & HN').
    exists (N + N')%nat. intros n Hn y [<-|Hy]; [apply HN'; lia|apply HN; auto; lia]. }
  exists N. intros n Hn. apply expects_total. auto.
Qed.
Lemma of_edges_total {A B} (f : B -> list (nat * nat) -> R) l (x : res (MNetwork.network A Arith64.ext * list R)) :
  of_edges (fun es => total (fun y => f y es) l) x = total (fun y => of_edges (f y) x) l.
Proof.
  destruct x as [[h t]|e|e|]; try reflexivity; cbn [of_edges]; (transitivity (total (fun _ : B => 0 * 0) l); [rewrite <- total_scale; ring|reflexivity || (apply total_ext; intros; ring)]).
Qed.
