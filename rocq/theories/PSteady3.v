(** The consensus value of repeated averaging (reals): a weighted mean of the initial opinions with fixed
    positive weights; quantities conserved by the averaging. *)
From Verif Require Import Base BaseFacts RFacts PConsensus PSteady.
From Coq Require Import Reals Lra.
Local Open Scope R_scope.

Definition total (n : nat) (f : nat -> R) : R := Rsum (map f (seq 0 n)).

Lemma total_ext n f h : (forall i, (i < n)%nat -> f i = h i) -> total n f = total n h.
Proof. intros H. unfold total. f_equal. apply map_ext_in. intros i Hi. apply in_seq in Hi. apply H. lia. Qed.
Lemma total_plus n f h : total n (fun i => f i + h i) = total n f + total n h.
Proof. unfold total. generalize (seq 0 n). induction l as [|i l IH]; cbn [map]; rewrite ?Rsum_nil, ?Rsum_cons; [lra|]. rewrite IH. lra. Qed.
Lemma total_scale n f c : total n (fun i => c * f i) = c * total n f.
Proof. unfold total. generalize (seq 0 n). induction l as [|i l IH]; cbn [map]; rewrite ?Rsum_nil, ?Rsum_cons; [lra|]. rewrite IH. lra. Qed.
Lemma total_zero n : total n (fun _ => 0) = 0.
Proof. rewrite (total_ext n _ (fun i => 0 * 0)) by (intros; lra). rewrite total_scale. lra. Qed.
Lemma total_S n f : total (S n) f = total n f + f n.
Proof. unfold total. rewrite seq_S, map_app, Rsum_app. cbn [map]. rewrite Rsum_cons, Rsum_nil, Nat.add_0_l. lra. Qed.
Lemma total_single n f j : (j < n)%nat -> total n (fun i => if (i =? j)%nat then f i else 0) = f j.
Proof.
  induction n as [|n IH]; intros Hj; [lia|]. rewrite total_S. destruct (Nat.eqb_spec n j) as [->|Hne].
  - rewrite (total_ext j _ (fun _ => 0)), total_zero; [lra|]. intros i Hi. destruct (Nat.eqb_spec i j); [lia|reflexivity].
  - rewrite IH by lia. lra.
Qed.
Lemma total_swap n m (f : nat -> nat -> R) : total n (fun i => total m (fun j => f i j)) = total m (fun j => total n (fun i => f i j)).
Proof.
  induction n as [|n IH].
  - unfold total at 1. cbn [seq map]. rewrite Rsum_nil. symmetry. rewrite (total_ext m _ (fun _ => 0)); [apply total_zero|]. intros; reflexivity.
  - rewrite total_S, IH, <- total_plus. apply total_ext. intros j Hj. now rewrite total_S.
Qed.
Lemma total_bounds n f lo hi : (forall i, (i < n)%nat -> lo <= f i <= hi) -> INR n * lo <= total n f <= INR n * hi.
Proof.
  induction n as [|n IH]; intros H; [unfold total; cbn [seq map INR]; rewrite Rsum_nil; lra|]. rewrite total_S, S_INR.
  assert (A := IH ltac:(intros; apply H; lia)). specialize (H n ltac:(lia)). lra.
Qed.

(** The weight with which a row takes entry [j]. *)
Definition share (r : list (nat * R)) (j : nat) : R := Rsum (map snd (filter (fun p => (fst p =? j)%nat) r)).

Lemma row_by_shares n (r : list (nat * R)) (f : nat -> R) : (forall p, In p r -> (fst p < n)%nat) ->
  Rsum (map (fun p => snd p * f (fst p)) r) = total n (fun j => share r j * f j).
Proof.
  induction r as [|[j w] r IH]; intros H.
  - cbn [map]. rewrite Rsum_nil. symmetry. rewrite (total_ext n _ (fun _ => 0)); [apply total_zero|]. intros. unfold share. cbn. rewrite Rsum_nil. lra.
  - cbn [map]. rewrite Rsum_cons, IH by (intros; apply H; cbn; auto). cbn [fst snd].
    specialize (H (j, w) (or_introl eq_refl)). cbn [fst] in H.
    rewrite <- (total_single n (fun i => w * f i) j H) at 1. rewrite <- total_plus. apply total_ext. intros i Hi.
    unfold share. cbn [filter fst]. rewrite (Nat.eqb_sym j i). destruct (Nat.eqb_spec i j) as [->|]; cbn [map snd]; rewrite ?Rsum_cons; lra.
Qed.

Section Influence.
Variable n0 : nat.
Variable rows : nat -> list (nat * R).
Hypothesis Hin : forall i p, (i <= n0)%nat -> In p (rows i) -> (fst p <= n0)%nat.
Hypothesis Hnn : forall i, (i <= n0)%nat -> Forall (fun p => 0 <= snd p) (rows i).
Hypothesis Hsum : forall i, (i <= n0)%nat -> Rsum (map snd (rows i)) = 1.

(** A quantity [sum of pi_i x_i] is conserved when pi is a stationary vector. *)
Lemma conserved (pi : nat -> R) X : evolves n0 rows X ->
  (forall j, (j <= n0)%nat -> total (S n0) (fun i => pi i * share (rows i) j) = pi j) ->
  forall k, total (S n0) (fun i => pi i * X k i) = total (S n0) (fun i => pi i * X 0%nat i).
Proof using Hin.
  intros H Hpi. induction k as [|k IH]; [reflexivity|]. rewrite <- IH.
  rewrite (total_ext _ _ (fun i => total (S n0) (fun j => pi i * (share (rows i) j * X k j)))).
  2: { intros i Hi. rewrite (H k i ltac:(lia)), (row_by_shares (S n0)); [now rewrite total_scale|].
       intros p Hp. pose proof (Hin i p ltac:(lia) Hp). lia. }
  rewrite total_swap. apply total_ext. intros j Hj. rewrite <- (Hpi j) at 1 by lia. rewrite (Rmult_comm _ (X k j)), <- total_scale.
  apply total_ext. intros i Hi. lra.
Qed.

Definition step (f : nat -> R) (i : nat) : R := Rsum (map (fun p => snd p * f (fst p)) (rows i)).
Fixpoint iter (k : nat) (f : nat -> R) : nat -> R := match k with 0 => f | S k' => step (iter k' f) end.
Lemma iter_evolves f : evolves n0 rows (fun k => iter k f).
Proof using. intros k i Hi. reflexivity. Qed.
Lemma evolves_iter X : evolves n0 rows X -> forall k i, (i <= n0)%nat -> X k i = iter k (X 0%nat) i.
Proof using Hin.
  intros H. induction k as [|k IH]; intros i Hi; [reflexivity|]. rewrite (H k i Hi). cbn [iter]. unfold step. f_equal.
  apply map_ext_in. intros p Hp. now rewrite IH by (eapply Hin; eauto).
Qed.
Definition unit_at (j i : nat) : R := if (i =? j)%nat then 1 else 0.
Lemma iter_linear f : forall k i, (i <= n0)%nat -> iter k f i = total (S n0) (fun j => f j * iter k (unit_at j) i).
Proof using Hin.
  induction k as [|k IH]; intros i Hi.
  - cbn [iter]. rewrite (total_ext _ _ (fun j => if (j =? i)%nat then f j else 0)).
    + symmetry. apply total_single. lia.
    + intros j Hj. unfold unit_at. rewrite Nat.eqb_sym. destruct (Nat.eqb_spec j i); lra.
  - cbn [iter]. unfold step. rewrite (row_by_shares (S n0)); [|intros p Hp; pose proof (Hin i p Hi Hp); lia].
    rewrite (total_ext _ _ (fun v => total (S n0) (fun j => f j * (share (rows i) v * iter k (unit_at j) v)))).
    2: { intros v Hv. rewrite IH by lia. rewrite <- total_scale. apply total_ext. intros; lra. }
    rewrite total_swap. apply total_ext. intros j Hj. rewrite total_scale. f_equal.
    rewrite (row_by_shares (S n0)); [reflexivity|intros p Hp; pose proof (Hin i p Hi Hp); lia].
Qed.
Lemma iter_one k i : (i <= n0)%nat -> total (S n0) (fun j => iter k (unit_at j) i) = 1.
Proof using Hin Hnn Hsum.
  intros Hi. rewrite (total_ext _ _ (fun j => (fun _ => 1) j * iter k (unit_at j) i)) by (intros; lra). rewrite <- (iter_linear (fun _ => 1) k i Hi).
  revert i Hi. induction k as [|k IH]; intros i Hi; [reflexivity|]. cbn [iter]. unfold step. transitivity (Rsum (map snd (rows i))); [f_equal|exact (Hsum i Hi)].
  apply map_ext_in. intros p Hp. rewrite IH by (eapply Hin; eauto). lra.
Qed.

Hypothesis Hself : forall i, (i <= n0)%nat -> In i (map fst (rows i)).
Variable wmin : R.
Hypothesis Hw : 0 < wmin <= 1.
Hypothesis Hwmin : forall i p, (i <= n0)%nat -> In p (rows i) -> wmin <= snd p.
Variable K : nat.
Hypothesis HK : forall i j, (i <= n0)%nat -> (j <= n0)%nat -> within rows K j i.

(** The influence of agent [j]: the consensus when it alone starts with opinion 1. *)
Lemma influence_of j : (j <= n0)%nat -> exists c, 0 < c /\
  forall eps, 0 < eps -> exists T, forall k i, (T <= k)%nat -> (i <= n0)%nat -> Rabs (iter k (unit_at j) i - c) < eps.
Proof using Hin Hnn Hsum Hself Hw Hwmin HK.
  intros Hj. set (X := fun k => iter k (unit_at j)).
  destruct (consensus n0 rows X (iter_evolves _) Hin Hnn Hsum Hself wmin Hw Hwmin K HK) as (c & _ & Hc).
  exists c. split; [|exact Hc].
  assert (P : 0 < wmin ^ K) by (apply pow_lt; lra).
  assert (L : forall i, (i <= n0)%nat -> wmin ^ K <= X K i).
  { intros i Hi. pose proof (pull n0 rows (fun k i => - X k i) (evolves_opp n0 rows X (iter_evolves _)) Hin Hnn Hsum Hself wmin Hw Hwmin 0 0 j) as PL.
    cbv beta in PL. specialize (PL ltac:(intros v Hv; unfold X; cbn [iter]; unfold unit_at; destruct (Nat.eqb_spec v j); lra) Hj K i Hi (HK i j Hi Hj)).
    assert (E0 : X 0%nat j = 1) by (unfold X; cbn [iter]; unfold unit_at; now rewrite Nat.eqb_refl). rewrite E0 in PL.
    cbn [Nat.add] in PL. lra. }
  destruct (Rlt_dec 0 c) as [|Hn]; auto. exfalso. destruct (Hc (wmin ^ K) P) as (T & HT).
  specialize (HT (K + T)%nat 0%nat ltac:(lia) ltac:(lia)).
  pose proof (lower_steps n0 rows X (iter_evolves _) Hin Hnn Hsum T K (wmin ^ K) L 0%nat ltac:(lia)) as L2.
  fold (X (K + T)%nat) in HT. apply Rabs_def2 in HT. lra.
Qed.

Lemma collect (P : nat -> R -> Prop) : (forall j, (j <= n0)%nat -> exists c, P j c) ->
  exists pi : nat -> R, forall j, (j <= n0)%nat -> P j (pi j).
Proof using.
  clear. induction n0 as [|m IH]; intros H.
  - destruct (H 0%nat ltac:(lia)) as (c & Hc). exists (fun _ => c). intros j Hj. now replace j with 0%nat by lia.
  - destruct IH as (pi & Hpi); [intros; apply H; lia|]. destruct (H (S m) (le_n _)) as (c & Hc).
    exists (fun j => if (j =? S m)%nat then c else pi j). intros j Hj. destruct (Nat.eqb_spec j (S m)) as [->|]; auto. apply Hpi. lia.
Qed.

Lemma total_close n (f h : nat -> R) (e : R) : (forall i, (i < n)%nat -> Rabs (f i - h i) <= e) -> Rabs (total n f - total n h) <= INR n * e.
Proof using.
  clear. intros H. destruct (total_bounds n (fun i => f i + (-1) * h i) (-e) e) as [A B].
  { intros i Hi. specialize (H i Hi). apply abs_between in H. lra. }
  rewrite total_plus, total_scale in A, B. apply Rabs_le. lra.
Qed.

Lemma influences : exists pi : nat -> R,
  (forall j, (j <= n0)%nat -> 0 < pi j) /\ total (S n0) pi = 1 /\
  (forall j, (j <= n0)%nat -> total (S n0) (fun i => pi i * share (rows i) j) = pi j) /\
  forall X, evolves n0 rows X -> forall eps, 0 < eps -> exists T, forall k i, (T <= k)%nat -> (i <= n0)%nat ->
    Rabs (X k i - total (S n0) (fun j => pi j * X 0%nat j)) < eps.
Proof using Hin Hnn Hsum Hself Hw Hwmin HK.
  destruct (collect (fun j c => 0 < c /\ forall eps, 0 < eps -> exists T, forall k i, (T <= k)%nat -> (i <= n0)%nat -> Rabs (iter k (unit_at j) i - c) < eps))
    as (pi & Hpi). { intros j Hj. now apply influence_of. }
  exists pi. split; [intros; now apply Hpi|].
  assert (U : forall eps, 0 < eps -> exists T, forall k, (T <= k)%nat -> forall j i, (j <= n0)%nat -> (i <= n0)%nat -> Rabs (iter k (unit_at j) i - pi j) < eps).
  { intros eps He.
    destruct (common_bound nat (fun T j => forall k, (T <= k)%nat -> forall i, (i <= n0)%nat -> Rabs (iter k (unit_at j) i - pi j) < eps)) with (l := seq 0 (S n0)) as (T & HT).
    - intros k k' j Hk H k2 Hk2. apply H. lia.
    - intros j Hj. apply in_seq in Hj. destruct (Hpi j ltac:(lia)) as (_ & H). destruct (H eps He) as (T & HT). exists T. auto.
    - exists T. intros k Hk j i Hj Hi. apply HT; auto. apply in_seq. lia. }
  assert (C : forall X, evolves n0 rows X -> forall eps, 0 < eps -> exists T, forall k i, (T <= k)%nat -> (i <= n0)%nat ->
    Rabs (X k i - total (S n0) (fun j => pi j * X 0%nat j)) < eps).
  { intros X HX eps He. set (B := maxf (fun j => Rabs (X 0%nat j)) n0).
    assert (HB : forall j, (j <= n0)%nat -> Rabs (X 0%nat j) <= B) by (intros j Hj; exact (maxf_ge (fun j => Rabs (X 0%nat j)) n0 j Hj)).
    assert (B0 : 0 <= B). { eapply Rle_trans; [apply Rabs_pos|apply (HB 0%nat); lia]. }
    assert (PN : 0 < INR (S n0)) by (apply lt_0_INR; lia).
    set (e := eps / (2 * (B + 1) * INR (S n0))).
    assert (Pe : 0 < e). { apply Rdiv_lt_0_compat; auto. apply Rmult_lt_0_compat; lra. }
    destruct (U e Pe) as (T & HT). exists T. intros k i Hk Hi. rewrite (evolves_iter X HX k i Hi), (iter_linear (X 0%nat) k i Hi).
    eapply Rle_lt_trans; [apply total_close with (e := B * e)|].
    - intros j Hj. replace (X 0%nat j * iter k (unit_at j) i - pi j * X 0%nat j) with (X 0%nat j * (iter k (unit_at j) i - pi j)) by ring.
      rewrite Rabs_mult. apply Rmult_le_compat; try apply Rabs_pos; [apply HB; lia|]. apply Rlt_le, HT; auto. lia.
    - replace (INR (S n0) * (B * e)) with (B * eps / (2 * (B + 1))) by (unfold e; field; split; lra).
      apply Rmult_lt_reg_r with (2 * (B + 1)); [lra|]. replace (B * eps / (2 * (B + 1)) * (2 * (B + 1))) with (B * eps) by (field; lra). nra. }
  assert (S1 : total (S n0) pi = 1).
  { apply cond_eq. intros eps He. destruct (C (fun _ _ => 1)) with (eps := eps) as (T & HT); auto.
    - intros k i Hi. transitivity (Rsum (map snd (rows i))); [symmetry; exact (Hsum i Hi)|]. f_equal. apply map_ext. intros; lra.
    - specialize (HT T 0%nat (le_n _) ltac:(lia)). rewrite (total_ext _ _ pi) in HT by (intros; lra). now rewrite Rabs_minus_sym. }
  split; [exact S1|]. split; [|exact C].
  intros j Hj. apply cond_eq. intros eps He.
  (* one step later the same limit, from two initial states *)
  destruct (C (fun k => iter k (unit_at j)) (iter_evolves _) (eps / 2) ltac:(lra)) as (T1 & H1).
  destruct (C (fun k => iter k (step (unit_at j))) (iter_evolves _) (eps / 2) ltac:(lra)) as (T2 & H2).
  assert (Sh : forall k, iter k (step (unit_at j)) = iter (S k) (unit_at j)).
  { induction k as [|k IH]; [reflexivity|]. cbn [iter] in *. now rewrite IH. }
  specialize (H1 (S (T1 + T2)) 0%nat ltac:(lia) ltac:(lia)). specialize (H2 (T1 + T2)%nat 0%nat ltac:(lia) ltac:(lia)). cbv beta in H1, H2. rewrite Sh in H2. cbn [iter] in H1, H2.
  assert (E1 : total (S n0) (fun v => pi v * unit_at j v) = pi j).
  { rewrite (total_ext _ _ (fun v => if (v =? j)%nat then pi v else 0)); [apply total_single; lia|].
    intros v Hv. unfold unit_at. destruct (Nat.eqb_spec v j); lra. }
  assert (E2 : total (S n0) (fun v => pi v * step (unit_at j) v) = total (S n0) (fun i => pi i * share (rows i) j)).
  { apply total_ext. intros v Hv. f_equal. unfold step. rewrite (row_by_shares (S n0)); [|intros p Hp; pose proof (Hin v p ltac:(lia) Hp); lia].
    rewrite (total_ext _ _ (fun i => if (i =? j)%nat then share (rows v) i else 0)); [apply total_single; lia|].
    intros i Hi. unfold unit_at. destruct (Nat.eqb_spec i j); lra. }
  rewrite E1 in H1. rewrite E2 in H2. apply Rabs_def2 in H1. apply Rabs_def2 in H2. apply Rabs_def1; lra.
Qed.
End Influence.
