(** Proofs: algorithm A-Res keeps the k items with the largest keys. *)
From Verif Require Import Base BaseFacts Arith64 MRandom SRandom PRandom RFacts PReservoir SProb PProb.
From Coq Require Import Permutation Reals Lra Sorted.
Local Open Scope R_scope.

Section TopK.
Variable q : PQ EA.
Variable w : nat -> R.
Hypothesis Hq : pq_bag q.
Hypothesis Hord : pq_ordered (a:=EA) (fun x : ext => exists r, x = Fin r) q.
Variable k : nat.
Hypothesis Hk : (1 <= k)%nat.
Variable us0 : list R.
Definition key (j : nat) : ext := res_key (w j) (nth j us0 0).

Definition top_inv (idx : nat) (h : pq q) : Prop :=
  length (keysof q h) = k /\ NoDup (keysof q h) /\
  (forall j x, In (j, x) (pq_items q h) -> (j < idx)%nat /\ x = key j) /\
  (forall i j, In i (keysof q h) -> (j < idx)%nat -> ~ In j (keysof q h) -> eleb (key j) (key i) = true).

Lemma key_fin j : exists r, key j = Fin r.
Proof using. unfold key, res_key. destruct (Req_EM_T (w j) 0); eauto. Qed.
Lemma in_keys h j x : In (j, x) (pq_items q h) -> In j (keysof q h).
Proof using. intros H. unfold keysof. change j with (fst (j, x)). now apply in_map. Qed.
Lemma keys_in h j : In j (keysof q h) -> exists x, In (j, x) (pq_items q h).
Proof using. intros H. unfold keysof in H. apply in_map_iff in H as ([i x] & E & H). cbn in E. subst. eauto. Qed.

Lemma run_inv : forall m idx h us, top_inv idx h -> length us = m -> (forall p, (p < m)%nat -> nth p us 0 = nth (idx + p) us0 0) ->
  top_inv (idx + m) (res_run q w m idx h us).
Proof using Hq Hord Hk.
  induction m as [|m IH]; intros idx h [|u us] HI HL HN; try discriminate; cbn [res_run].
  - now rewrite Nat.add_0_r.
  - replace (idx + S m)%nat with (S idx + m)%nat by lia. apply IH; [|now injection HL|].
    2:{ intros p Hp. specialize (HN (S p) ltac:(lia)). cbn [nth] in HN. rewrite HN. f_equal. lia. }
    assert (EK : res_key (w idx) u = key idx). { unfold key. specialize (HN 0%nat ltac:(lia)). cbn [nth] in HN. now rewrite HN, Nat.add_0_r. }
    rewrite EK. destruct HI as (I1 & I2 & I3 & I4).
    destruct (queue_top_ok q Hq h (k - 1)) as ([c s] & _ & ET); [lia|]. rewrite ET.
    pose proof (top_in q Hq h _ ET) as HT. destruct (I3 c s HT) as [Hc Es]. subst s.
    assert (Hcmp : List.Forall (fun y => exists r, snd y = Fin r) (pq_items q h)).
    { apply List.Forall_forall. intros [j x] H. cbn. destruct (I3 j x H) as [_ ->]. apply key_fin. }
    assert (Hmin : forall i, In i (keysof q h) -> eleb (key c) (key i) = true).
    { intros i Hi. apply keys_in in Hi as (x & Hx). pose proof (Hord h _ ET Hcmp _ Hx) as HO. destruct (I3 i x Hx) as [_ ->]. cbn in HO.
      destruct (key_fin c) as (rc & Ec), (key_fin i) as (ri & Ei). rewrite Ec, Ei in *. cbn in *. unfold Rltb, Rleb in *. destruct (Rlt_dec ri rc), (Rle_dec rc ri); auto; try discriminate; lra. }
    destruct (eltb (key c) (key idx)) eqn:EL.
    + assert (Hlt : forall j, eleb (key j) (key c) = true -> eleb (key j) (key idx) = true).
      { intros j H. destruct (key_fin c) as (rc & Ec), (key_fin j) as (rj & Ej), (key_fin idx) as (ri & Ei). rewrite Ec, Ej, Ei in *. cbn in *. unfold Rltb, Rleb in *.
        destruct (Rlt_dec rc ri), (Rle_dec rj rc), (Rle_dec rj ri); auto; try discriminate; lra. }
      pose proof (keys_pop q Hq h _ ET) as P1. cbn [fst] in P1. pose proof (keys_push q Hq (idx, key idx) (pq_pop q h)) as P2. cbn [fst] in P2.
      assert (ND : NoDup (c :: keysof q (pq_pop q h))) by (eapply Permutation_NoDup; eauto). pose proof (proj1 (NoDup_cons_iff _ _) ND) as [Nc ND'].
      assert (Hold : forall i, In i (keysof q (pq_pop q h)) -> In i (keysof q h)).
      { intros i Hi. eapply Permutation_in; [apply Permutation_sym; exact P1|now right]. }
      assert (Hfresh : ~ In idx (keysof q h)). { intros H. apply keys_in in H as (x & H). apply I3 in H. lia. }
      split; [|split; [|split]].
      * apply Permutation_length in P1, P2. cbn [length] in P1, P2. rewrite P2, <- P1. exact I1.
      * eapply Permutation_NoDup; [apply Permutation_sym; exact P2|]. constructor; auto.
      * intros j x H. apply (items_push q Hq) in H as [E|H]; [inversion E; subst; split; auto; lia|].
        apply (items_pop q Hq h _ _ ET) in H. destruct (I3 j x H). split; auto; lia.
      * intros i j Hi Hj Nj.
        assert (Hj' : j <> idx) by (intros ->; apply Nj; eapply Permutation_in; [apply Permutation_sym; exact P2|now left]).
        assert (Ejc : eleb (key j) (key c) = true).
        { destruct (Nat.eq_dec j c) as [->|Njc].
          - destruct (key_fin c) as (rc & ->). cbn. unfold Rleb. destruct (Rle_dec rc rc); auto; lra.
          - apply I4; [eapply in_keys; eauto|lia|]. intros H. apply Nj. eapply Permutation_in; [apply Permutation_sym; exact P2|right].
            eapply Permutation_in in H; [|exact P1]. destruct H; [congruence|auto]. }
        eapply Permutation_in in Hi; [|exact P2]. destruct Hi as [<-|Hi]; [now apply Hlt|].
        specialize (Hmin i (Hold i Hi)). destruct (key_fin c) as (rc & Ec), (key_fin j) as (rj & Ej), (key_fin i) as (ri & Ei). rewrite Ec, Ej, Ei in *. cbn in *. unfold Rleb in *.
        destruct (Rle_dec rc ri), (Rle_dec rj rc), (Rle_dec rj ri); auto; try discriminate; lra.
    + split; [exact I1|split; [exact I2|split]].
      * intros j x H. destruct (I3 j x H). split; auto; lia.
      * intros i j Hi Hj Nj. destruct (Nat.eq_dec j idx) as [->|N]; [|apply I4; auto; lia].
        specialize (Hmin i Hi). destruct (key_fin c) as (rc & Ec), (key_fin idx) as (rj & Ej), (key_fin i) as (ri & Ei). rewrite Ec, Ej, Ei in *. cbn in *. unfold Rleb, Rltb in *.
        destruct (Rle_dec rc ri), (Rlt_dec rc rj), (Rle_dec rj ri); auto; try discriminate; lra.
Qed.

Lemma fill_inv : forall m idx h us rest, Permutation (keysof q h) (seq 0 idx) -> (forall j x, In (j, x) (pq_items q h) -> x = key j) ->
  length us = m -> (forall p, (p < m)%nat -> nth p us 0 = nth (idx + p) us0 0) ->
  exists h', res_fill q w m idx h (us ++ rest) = (h', rest) /\ Permutation (keysof q h') (seq 0 (idx + m)) /\ (forall j x, In (j, x) (pq_items q h') -> x = key j).
Proof using Hk Hq k q us0 w.
  induction m as [|m IH]; intros idx h [|u us] rest HP HK HL HN; try discriminate; cbn [res_fill app].
  - exists h. rewrite Nat.add_0_r. split; [now destruct rest|auto].
  - replace (idx + S m)%nat with (S idx + m)%nat by lia. apply IH; [| |now injection HL|].
    + rewrite seq_S. eapply Permutation_trans; [apply keys_push; auto|]. cbn [fst].
      eapply Permutation_trans; [apply perm_skip; exact HP|apply Permutation_cons_append].
    + intros j x H. apply (items_push q Hq) in H as [E|H]; [|now apply HK]. inversion E; subst. unfold key.
      specialize (HN 0%nat ltac:(lia)). cbn [nth] in HN. now rewrite HN, Nat.add_0_r.
    + intros p Hp. specialize (HN (S p) ltac:(lia)). cbn [nth] in HN. rewrite HN. f_equal. lia.
Qed.

Lemma drain_perm : forall j h, length (keysof q h) = j -> Permutation (drain q j h) (keysof q h).
Proof using Hk Hq k q.
  induction j as [|j IH]; intros h HL; cbn [drain].
  - destruct (keysof q h); [constructor|discriminate].
  - destruct (queue_top_ok q Hq h j HL) as ([c x] & _ & E). rewrite E.
    pose proof (keys_pop q Hq h _ E) as P. cbn [fst] in P.
    eapply Permutation_trans; [apply perm_skip, IH|apply Permutation_sym; exact P].
    apply Permutation_length in P. cbn [length] in P. lia.
Qed.

Lemma a_res_heap n : (k <= n)%nat -> length us0 = n -> exists h, a_res q w k n us0 = drain q k h /\ top_inv n h.
Proof using Hq Hord Hk.
  intros Hn HL. unfold a_res.
  destruct (fill_inv k 0 (pq_empty q) (firstn k us0) (skipn k us0)) as (h & E & HP & HK).
  - unfold keysof. destruct Hq as (-> & _). constructor.
  - destruct Hq as (-> & _). intros ? ? [].
  - rewrite firstn_length. lia.
  - intros p Hp. cbn [Nat.add]. rewrite <- (firstn_skipn k us0) at 2. rewrite app_nth1; auto. rewrite firstn_length. lia.
  - rewrite firstn_skipn in E. rewrite E. cbn [Nat.add] in HP.
    assert (HI : top_inv k h).
    { split; [|split; [|split]].
      - rewrite (Permutation_length HP). apply seq_length.
      - eapply Permutation_NoDup; [apply Permutation_sym; exact HP|apply seq_NoDup].
      - intros j x H. split; [|now apply HK]. apply in_keys in H. eapply Permutation_in in H; [|exact HP]. apply in_seq in H. lia.
      - intros i j _ Hj Nj. exfalso. apply Nj. eapply Permutation_in; [apply Permutation_sym; exact HP|]. apply in_seq. lia. }
    pose proof (run_inv (n - k) k h (skipn k us0) HI) as HR. specialize (HR ltac:(rewrite skipn_length; lia)).
    specialize (HR ltac:(intros p Hp; rewrite <- (firstn_skipn k us0) at 2; rewrite app_nth2; rewrite firstn_length; [f_equal; lia|lia])).
    replace (k + (n - k))%nat with n in HR by lia. eexists. split; [reflexivity|exact HR].
Qed.

Lemma a_res_top n : (k <= n)%nat -> length us0 = n ->
  let out := a_res q w k n us0 in
  length out = k /\ NoDup out /\ (forall i, In i out -> (i < n)%nat) /\
  (forall i j, In i out -> (j < n)%nat -> ~ In j out -> eleb (key j) (key i) = true).
Proof using Hq Hord Hk.
  intros Hn HL out. destruct (a_res_heap n Hn HL) as (h & E & R1 & R2 & R3 & R4). unfold out. rewrite E.
  pose proof (drain_perm k _ R1) as PD. split; [|split; [|split]].
  + rewrite (Permutation_length PD). exact R1.
  + eapply Permutation_NoDup; [apply Permutation_sym; exact PD|exact R2].
  + intros i Hi. eapply Permutation_in in Hi; [|exact PD]. apply keys_in in Hi as (x & Hx). now apply R3 in Hx.
  + intros i j Hi Hj Nj. apply R4; auto; [eapply Permutation_in; [exact PD|exact Hi]|].
    intros H. apply Nj. eapply Permutation_in; [apply Permutation_sym; exact PD|exact H].
Qed.

Lemma drain_sorted : forall j h, length (keysof q h) = j -> (forall i x, In (i, x) (pq_items q h) -> x = key i) ->
  StronglySorted (fun i j => eleb (key i) (key j) = true) (drain q j h).
Proof using Hk Hq Hord k q w us0.
  induction j as [|j IH]; intros h HL HK; cbn [drain]; [constructor|].
  destruct (queue_top_ok q Hq h j HL) as ([c x] & _ & E). rewrite E.
  pose proof (keys_pop q Hq h _ E) as P. cbn [fst] in P.
  assert (HLp : length (keysof q (pq_pop q h)) = j) by (apply Permutation_length in P; cbn [length] in P; lia).
  assert (Hsub : forall i y, In (i, y) (pq_items q (pq_pop q h)) -> In (i, y) (pq_items q h)) by (intros i y Hy; eapply items_pop; eauto).
  constructor; [apply IH; eauto|].
  apply List.Forall_forall. intros i Hi. eapply Permutation_in in Hi; [|apply drain_perm; exact HLp].
  apply keys_in in Hi as (y & Hy). apply Hsub in Hy.
  assert (Hcmp : List.Forall (fun y => exists r, snd y = Fin r) (pq_items q h)).
  { apply List.Forall_forall. intros [i' x'] H. cbn. rewrite (HK i' x' H). apply key_fin. }
  pose proof (Hord h _ E Hcmp _ Hy) as HO. cbn in HO. rewrite (HK i y Hy) in HO. rewrite (HK c x (top_in q Hq h _ E)) in HO.
  destruct (key_fin c) as (rc & Ec), (key_fin i) as (ri & Ei). rewrite Ec, Ei in *. cbn in *. unfold Rltb, Rleb in *.
  destruct (Rlt_dec ri rc), (Rle_dec rc ri); auto; try discriminate; lra.
Qed.
Lemma a_res_sorted n : (k <= n)%nat -> length us0 = n -> StronglySorted (fun i j => eleb (key i) (key j) = true) (a_res q w k n us0).
Proof using Hq Hord Hk.
  intros Hn HL. destruct (a_res_heap n Hn HL) as (h & E & R1 & R2 & R3 & R4). rewrite E. apply drain_sorted; auto.
  intros i x H. now apply R3 in H.
Qed.
End TopK.
