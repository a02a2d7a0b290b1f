(** Proofs about [MRandom]. *)
From Verif Require Import Base BaseFacts Arith64 MRandom SRandom PNetwork2.
From Coq Require Import Permutation Sorting.Sorted.

(** ** draw_unique_k_from_n *)
Definition is_not (ig : option nat) (i : nat) : bool :=
  match ig with Some x => negb (i =? x) | None => true end.

(** The admissible indices. *)
Definition admissible (ig : option nat) (n : nat) : list nat := filter (is_not ig) (seq 0 n).

Lemma seqgen_range_eq ig n : forall fuel i,
  is_not ig i = true -> i <= seqgen_ctor n ig -> seqgen_ctor n ig - i < fuel ->
  seqgen_range fuel i (seqgen_ctor n ig) ig = Ok (filter (is_not ig) (seq i (n - i))).
Proof.
  induction fuel as [|fuel IH]; intros i Hi Hle Hf; [lia|].
  cbn [seqgen_range]. destruct (Nat.eqb_spec i (seqgen_ctor n ig)) as [E|E].
  - destruct (n - i) as [|d] eqn:Ed; auto.
    exfalso. unfold seqgen_ctor in E. destruct ig as [x|]; [destruct (n =? x)|]; lia.
  - assert (Hin : i < n).
    { unfold seqgen_ctor, is_not in *. destruct ig as [x|]; [|lia].
      destruct (Nat.eqb_spec n x); [|lia]. destruct (Nat.eqb_spec i x); [discriminate|]. lia. }
    replace (n - i) with (S (n - S i)) by lia. cbn [seq filter]. rewrite Hi.
    set (nx := seqgen_next i ig).
    assert (Hnx : is_not ig nx = true /\ i < nx <= seqgen_ctor n ig /\
                  filter (is_not ig) (seq (S i) (n - S i)) = filter (is_not ig) (seq nx (n - nx))).
    { unfold nx, seqgen_next, seqgen_ctor, is_not in *. destruct ig as [x|]; [|repeat split; auto; lia].
      destruct (Nat.eqb_spec (S i) x) as [E1|E1].
      - subst x. destruct (Nat.eqb_spec (S (S i)) (S i)); [lia|].
        split; auto. split; [destruct (Nat.eqb_spec n (S i)); lia|].
        destruct (n - S i) as [|d] eqn:Ed.
        + replace (n - S (S i)) with 0 by lia. reflexivity.
        + cbn [seq filter]. destruct (Nat.eqb_spec (S i) (S i)); [|lia]. cbn [negb].
          replace (n - S (S i)) with d by lia. reflexivity.
      - destruct (Nat.eqb_spec (S i) x); [lia|]. repeat split; auto; try lia; destruct (Nat.eqb_spec n x); lia. }
    destruct Hnx as (H1 & H2 & H3). rewrite IH by (auto; lia). cbn. now rewrite H3.
Qed.

Lemma population_eq ig n :
  seqgen_range (n + 2) (seqgen_ctor 0 ig) (seqgen_ctor n ig) ig = Ok (admissible ig n).
Proof.
  unfold admissible. destruct n as [|n].
  - assert (E : forall i f, seqgen_range (S f) i i ig = Ok []) by (intros; cbn; now rewrite Nat.eqb_refl).
    change (0 + 2) with 2. rewrite E. reflexivity.
  - destruct ig as [[|x]|].
    + (* ignore 0 *)
      cbn [seqgen_ctor Nat.eqb].
      change (S n) with (seqgen_ctor (S n) (Some 0)) at 2.
      rewrite seqgen_range_eq; cbn; auto; try lia. now rewrite Nat.sub_0_r.
    + rewrite seqgen_range_eq; cbn; auto; try lia; destruct (n =? x); lia.
    + rewrite seqgen_range_eq; cbn; auto; lia.
Qed.

Lemma admissible_sorted ig n : StronglySorted lt (admissible ig n).
Proof.
  unfold admissible. generalize 0. induction n as [|n IH]; intros i; cbn [seq filter]; [constructor|].
  destruct (is_not ig i); auto. constructor; auto.
  apply Forall_forall. intros x Hx. apply filter_In in Hx as [Hx _]. apply in_seq in Hx. lia.
Qed.

Lemma admissible_in ig n i : In i (admissible ig n) <-> i < n /\ ig <> Some i.
Proof.
  unfold admissible. rewrite filter_In, in_seq. unfold is_not. destruct ig as [x|].
  - rewrite negb_true_iff, Nat.eqb_neq. split; intros [H1 H2]; split; try lia; congruence.
  - split; intros [H1 H2]; split; auto; try lia; congruence.
Qed.

Lemma collect_eq (l ps : list nat) : Forall (fun p => p < length l) ps ->
  for_each ps (fun p acc => x <- vget l p ;; Ok (acc ++ [x])) [] = Ok (map (fun p => nth p l 0) ps).
Proof.
  intros H.
  match goal with |- ?m = _ => assert (G : okp m (fun r => r = map (fun p => nth p l 0) ps)) end.
  { apply (for_each_inv _ _ (fun pre acc => acc = map (fun p => nth p l 0) pre)); auto.
    intros pre x suf s -> ->. rewrite (vget_lt _ _ _ 0).
    - cbn. now rewrite map_app.
    - rewrite Forall_forall in H. apply H. apply in_or_app; right; cbn; auto. }
  apply okp_ex in G as (r & E & ->). exact E.
Qed.

Lemma StronglySorted_nth (l : list nat) a b : StronglySorted lt l -> a < b -> b < length l -> nth a l 0 < nth b l 0.
Proof.
  intros Hs. revert a b. induction Hs as [|x l Hs IH Hx]; intros [|a] [|b] Hab Hb; cbn in *; try lia.
  - rewrite Forall_forall in Hx. apply Hx. apply nth_In. lia.
  - apply IH; lia.
Qed.

Lemma sorted_select (l ps : list nat) : StronglySorted lt l -> StronglySorted lt ps ->
  Forall (fun p => p < length l) ps -> StronglySorted lt (map (fun p => nth p l 0) ps).
Proof.
  intros Hl Hp HF. induction Hp as [|p ps Hp IH Hx]; cbn; [constructor|].
  inversion HF; subst. constructor; auto.
  apply Forall_forall. intros y Hy. apply in_map_iff in Hy as (p' & <- & Hp').
  rewrite Forall_forall in *. apply StronglySorted_nth; auto.
Qed.

Section Draw.
Context {a : Arith} (g : Rng a).
Hypothesis Hs : sample_ok g.

Lemma draw_eq ig k n buffer s :
  exists out s', draw_unique_k_from_n g ig k n buffer s =
     Ok (out ++ skipn (length out) (resize 0 buffer k), s') /\
   length out = Nat.min k (length (admissible ig n)) /\
   StronglySorted lt out /\ Forall (fun i => In i (admissible ig n)) out.
Proof.
  unfold draw_unique_k_from_n. rewrite population_eq. cbn [bind].
  destruct (r_sample g (length (admissible ig n)) k s) as [ps s'] eqn:E.
  pose proof (Hs (length (admissible ig n)) k s) as H. rewrite E in H. cbn in H.
  destruct H as (H1 & H2 & H3).
  rewrite collect_eq by auto. cbn [bind]. unfold write_front.
  rewrite map_length, resize_length.
  rewrite (proj2 (Nat.leb_le _ _)) by lia. cbn [bind].
  exists (map (fun p => nth p (admissible ig n) 0) ps), s'.
  rewrite map_length. split; auto. split; auto. split.
  - apply sorted_select; auto. apply admissible_sorted.
  - apply Forall_forall. intros i Hi. apply in_map_iff in Hi as (p & <- & Hp).
    rewrite Forall_forall in H3. apply nth_In. auto.
Qed.

Lemma draw_enough ig k n buffer s : k <= length (admissible ig n) ->
  exists out s', draw_unique_k_from_n g ig k n buffer s = Ok (out, s') /\
    length out = k /\ StronglySorted lt out /\ Forall (fun i => i < n /\ ig <> Some i) out.
Proof.
  intros Hk. destruct (draw_eq ig k n buffer s) as (out & s' & E & H1 & H2 & H3).
  exists out, s'. rewrite E. assert (HL : length out = k) by lia.
  rewrite skipn_all2 by (rewrite resize_length; lia). rewrite app_nil_r.
  repeat split; auto. eapply Forall_impl; [|exact H3]. intros i Hi. now apply admissible_in.
Qed.

Lemma sorted_full (l : list nat) ig n : StronglySorted lt l -> Forall (fun i => In i (admissible ig n)) l ->
  length l = length (admissible ig n) -> l = admissible ig n.
Proof.
  intros H1 H2 H3.
  assert (HP : Permutation l (admissible ig n)).
  { apply NoDup_Permutation_bis.
    - clear -H1. induction H1 as [|x l H1 IH Hx]; constructor; auto.
      intros Hin. rewrite Forall_forall in Hx. specialize (Hx _ Hin). lia.
    - lia.
    - intros i Hi. rewrite Forall_forall in H2. auto. }
  pose proof (admissible_sorted ig n) as H4. clear H2 H3. revert l H1 HP.
  induction H4 as [|x m H4 IH Hx]; intros l H1 HP.
  - apply Permutation_sym, Permutation_nil in HP. auto.
  - destruct l as [|y l]; [apply Permutation_nil in HP; discriminate|].
    inversion H1 as [|? ? H1a H1b]; subst. rewrite Forall_forall in *.
    assert (y = x).
    { assert (In x (y :: l)) by (eapply Permutation_in; [apply Permutation_sym; exact HP|cbn; auto]).
      assert (In y (x :: m)) by (eapply Permutation_in; [exact HP|cbn; auto]).
      destruct H as [|H]; auto. destruct H0 as [|H0]; auto.
      specialize (H1b _ H). specialize (Hx _ H0). lia. }
    subst y. f_equal. apply IH; auto. eapply Permutation_cons_inv; eauto.
Qed.

Lemma draw_surplus ig k n buffer s : length (admissible ig n) <= k ->
  exists s', draw_unique_k_from_n g ig k n buffer s =
    Ok (admissible ig n ++ skipn (length (admissible ig n)) (resize 0 buffer k), s').
Proof.
  intros Hk. destruct (draw_eq ig k n buffer s) as (out & s' & E & H1 & H2 & H3).
  exists s'. rewrite E. rewrite (sorted_full out ig n) by (auto; lia). reflexivity.
Qed.

End Draw.

Lemma length_admissible ig n :
  length (admissible ig n) = match ig with Some x => if x <? n then n - 1 else n | None => n end.
Proof.
  unfold admissible. destruct ig as [x|]; unfold is_not.
  - assert (G : forall m i, length (filter (fun j => negb (j =? x)) (seq i m)) =
              if (i <=? x) && (x <? i + m) then m - 1 else m).
    { induction m as [|m IH]; intros i; cbn [seq filter].
      - destruct ((i <=? x) && (x <? i + 0)); auto.
      - destruct (Nat.eqb_spec i x) as [->|Hne]; cbn [negb].
        + rewrite IH.
          destruct (Nat.leb_spec x x), (Nat.leb_spec (S x) x), (Nat.ltb_spec x (x + S m)); cbn [andb]; lia.
        + cbn [length]. rewrite IH.
          destruct (Nat.leb_spec i x), (Nat.leb_spec (S i) x), (Nat.ltb_spec x (i + S m)), (Nat.ltb_spec x (S i + m)); cbn; try lia. }
    rewrite G. reflexivity.
  - assert (E : forall l : list nat, filter (fun _ => true) l = l) by (induction l; cbn; congruence).
    rewrite E. apply seq_length.
Qed.

(** ** reservoir sampling: distinct in-range indices *)
Section Reservoir.
Context {a : Arith} (m : Libm a) (g : Rng a) (q : PQ a).
Hypothesis Hbag : pq_bag q.

Definition keysof (h : pq q) : list nat := map fst (pq_items q h).

Lemma top_some h : pq_items q h <> [] -> exists x, pq_top q h = Some x.
Proof.
  intros H. destruct (pq_top q h) as [x|] eqn:E; eauto. exfalso. apply H.
  destruct Hbag as (_ & _ & B & _). now apply B.
Qed.

Lemma keys_push x h : Permutation (keysof (pq_push q x h)) (fst x :: keysof h).
Proof. destruct Hbag as (_ & B & _). unfold keysof. apply (Permutation_map fst (B x h)). Qed.

Lemma keys_pop h x : pq_top q h = Some x -> Permutation (keysof h) (fst x :: keysof (pq_pop q h)).
Proof. intros E. destruct Hbag as (_ & _ & _ & B). unfold keysof. apply (Permutation_map fst (B h x E)). Qed.

Lemma queue_top_ok h k : length (keysof h) = S k -> exists x, queue_top q h = Ok x /\ pq_top q h = Some x.
Proof.
  intros H. destruct (top_some h) as [x E].
  - intros H0. unfold keysof in H. rewrite H0 in H. discriminate.
  - exists x. unfold queue_top. now rewrite E.
Qed.

(** The popping loop. *)
Lemma drain_ok k : forall h buffer, length (keysof h) = k -> length buffer = k ->
  okp (for_n k (fun i bh => let '(buffer, h) := bh in
        top <- queue_top q h ;; buffer <- vset buffer i (fst top) ;; Ok (buffer, pq_pop q h)) (buffer, h))
      (fun r => Permutation (fst r) (keysof h)).
Proof.
  intros h0 buffer0 Hh Hb.
  eapply okp_impl.
  - apply (for_n_inv _ (fun i bh => let '(buffer, h) := bh in
        length buffer = k /\ length (keysof h) = k - i /\
        Permutation (firstn i buffer ++ keysof h) (keysof h0))).
    + rewrite Nat.sub_0_r. auto.
    + intros i [buffer h] Hi (H1 & H2 & H3).
      destruct (queue_top_ok h (k - S i)) as (x & E & Et); [lia|]. rewrite E. cbn [bind].
      rewrite vset_ok by lia. cbn [bind okp]. rewrite upd_length.
      pose proof (keys_pop h x Et) as HP.
      assert (HL : length (keysof (pq_pop q h)) = k - S i).
      { apply Permutation_length in HP. cbn in HP. lia. }
      repeat split; auto.
      rewrite (firstn_S_nth_error _ _ i (fst x)) by (apply nth_error_upd_eq; lia).
      rewrite <- app_assoc. cbn [app].
      eapply Permutation_trans; [|exact H3].
      assert (Ef : firstn i (upd buffer i (fst x)) = firstn i buffer).
      { clear. revert i; induction buffer as [|b l IH]; intros [|i]; cbn; auto. now rewrite IH. }
      rewrite Ef. apply Permutation_app_head. now apply Permutation_sym.
  - intros [buffer h] (H1 & H2 & H3). cbn [fst]. rewrite Nat.sub_diag in H2.
    destruct (keysof h); [|discriminate]. rewrite app_nil_r in H3.
    rewrite firstn_all2 in H3 by lia. exact H3.
Qed.

Variable weight : nat -> res (F a).
Variable n : nat.
Hypothesis Hw : forall i, i < n -> is_ok (weight i).

Lemma reservoir_ok k buffer s : 1 <= k <= n ->
  okp (reservoir_sampling_A_ExpJ m g q k n weight buffer s)
      (fun r => length (fst r) = k /\ NoDup (fst r) /\ Forall (fun i => i < n) (fst r)).
Proof.
  intros [Hk1 Hk2]. unfold reservoir_sampling_A_ExpJ.
  destruct (Nat.eqb_spec k 0) as [|_]; [lia|].
  replace (Nat.min n k) with k by lia.
  apply okp_bind. eapply okp_impl.
  { apply (for_n_inv _ (fun i hs => Permutation (keysof (fst hs)) (seq 0 i))).
    - cbn. unfold keysof. destruct Hbag as (-> & _). constructor.
    - intros i [h t] Hi HI. destruct (r_real g (f0 a) (f1 a) t) as [u t'].
      assert (Hwi : is_ok (weight i)) by (apply Hw; lia). apply is_ok_ex in Hwi as (w & Ew).
      rewrite Ew. cbn [bind okp fst] in *. rewrite seq_S.
      eapply Permutation_trans; [apply keys_push|]. cbn [fst].
      eapply Permutation_trans; [apply perm_skip; exact HI|apply Permutation_cons_append]. }
  intros [h t] HI. cbn [fst] in HI.
  destruct (r_real g (f0 a) (f1 a) t) as [u t'].
  assert (HL : length (keysof h) = k) by (rewrite (Permutation_length HI), seq_length; auto).
  destruct (queue_top_ok h (k - 1)) as (x & E & Et); [lia|]. rewrite E. cbn [bind].
  apply okp_bind. eapply okp_impl.
  { apply (for_from_inv _ (fun i hxs => NoDup (keysof (fst (fst hxs))) /\ length (keysof (fst (fst hxs))) = k /\
        Forall (fun j => j < i) (keysof (fst (fst hxs))))).
    - cbn [fst]. split; [|split; auto].
      + eapply Permutation_NoDup; [apply Permutation_sym; exact HI|apply seq_NoDup].
      + apply Forall_forall. intros j Hj. eapply Permutation_in in Hj; [|exact HI]. apply in_seq in Hj. lia.
    - intros i [[h1 X] t1] Hi (I1 & I2 & I3). cbn [fst] in *.
      assert (Hwi : is_ok (weight i)) by (apply Hw; lia). apply is_ok_ex in Hwi as (w & Ew).
      rewrite Ew. cbn [bind].
      destruct (fle a (fsub a X w) (f0 a)).
      + destruct (queue_top_ok h1 (k - 1)) as (y & Ey & Ety); [lia|]. rewrite Ey. cbn [bind].
        destruct (r_real g (f0 a) (f1 a) t1) as [u1 t2].
        set (r := lpow a m _ _). destruct (r_real g (f0 a) (f1 a) t2) as [u2 t3].
        pose proof (keys_pop h1 y Ety) as HP. pose proof (keys_push (i, r) (pq_pop q h1)) as HQ. cbn [fst] in HQ.
        set (h2 := pq_push q (i, r) (pq_pop q h1)) in *.
        assert (HL2 : length (keysof h2) = k).
        { rewrite (Permutation_length HQ). apply Permutation_length in HP. cbn in *. lia. }
        destruct (queue_top_ok h2 (k - 1)) as (z & Ez & _); [lia|]. rewrite Ez. cbn [bind okp fst].
        assert (HN : NoDup (fst y :: keysof (pq_pop q h1))) by (eapply Permutation_NoDup; eauto).
        assert (HF : Forall (fun j => j < i) (fst y :: keysof (pq_pop q h1))).
        { rewrite Forall_forall in *. intros j Hj. apply I3. eapply Permutation_in; [apply Permutation_sym; exact HP|auto]. }
        inversion HN; inversion HF; subst. split; [|split; auto].
        * eapply Permutation_NoDup; [apply Permutation_sym; exact HQ|]. constructor; auto.
          intros Hin. match goal with Hf : Forall _ (keysof _) |- _ => rewrite Forall_forall in Hf; specialize (Hf _ Hin); lia end.
        * apply Forall_forall. intros j Hj. eapply Permutation_in in Hj; [|exact HQ].
          destruct Hj as [<-|Hj]; auto.
          match goal with Hf : Forall _ (keysof _) |- _ => rewrite Forall_forall in Hf; specialize (Hf _ Hj); lia end.
      + cbn [okp fst]. split; [auto|split; auto]. eapply Forall_impl; [|exact I3]. cbn; intros; lia. }
  intros [[h1 X] t1] (I1 & I2 & I3). cbn [fst] in *.
  replace (k + (n - k)) with n in I3 by lia.
  assert (EL : length (pq_items q h1) = k) by (unfold keysof in I2; now rewrite map_length in I2).
  rewrite EL. apply okp_bind.
  eapply okp_impl; [apply (drain_ok k h1 (resize 0 buffer k)); [auto|apply resize_length]|].
  intros [b hh] HP. cbn [fst okp] in *. split; [rewrite (Permutation_length HP); auto|]. split.
  - eapply Permutation_NoDup; [apply Permutation_sym; exact HP|auto].
  - apply Forall_forall. intros j Hj. eapply Permutation_in in Hj; [|exact HP].
    rewrite Forall_forall in I3. auto.
Qed.

Lemma reservoir_k0 buffer s : reservoir_sampling_A_ExpJ m g q 0 n weight buffer s = Ok (buffer, s).
Proof. reflexivity. Qed.

End Reservoir.
