(** Proofs: the C++ sampler follows the jump process; law of the whole call. *)
From Verif Require Import Base BaseFacts Arith64 MRandom SRandom PRandom RFacts PReservoir SProb PProb PProb2 PProb3.
From Coq Require Import Permutation Reals Lra.
From Coquelicot Require Import Coquelicot.
Local Open Scope R_scope.

Section Many.
Variable m : Libm EA.
Variable q : PQ EA.
Variable w : nat -> R.
Variable weight : nat -> res ext.
Variable n k z : nat.
Hypothesis Hpow : lpow EA m = epow.
Hypothesis Hlog : llog EA m = elog.
Hypothesis Hq : pq_bag q.
Hypothesis Hord : pq_ordered (a:=EA) (fun x : ext => exists r, x = Fin r) q.
Hypothesis Hk : (1 <= k <= n)%nat.
Hypothesis Hwt : forall j, (j < n)%nat -> weight j = Ok (Fin (w j)).
Hypothesis Hnn : forall j, (j < n)%nat -> 0 <= w j.
Hypothesis Hpos : forall j, (j < n)%nat -> j <> z -> 0 < w j.

Notation body := (body m q weight).
Notation jumpk := (jumpk q w).
Notation gk := (gk q).
Notation top_key := (top_key q).

Lemma Hk1 : (1 <= k)%nat. Proof using Hk. lia. Qed.

Lemma queue_top_eq h x : pq_top q h = Some x -> queue_top q h = Ok x.
Proof using. intros E. unfold queue_top. now rewrite E. Qed.

Lemma log_ratio u T : 0 < u < 1 -> 0 < T < 1 -> fdiv EA (elog (Fin u)) (elog (Fin T)) = Fin (ln u / ln T) /\ 0 < ln u / ln T.
Proof using.
  intros Hu HT. rewrite !elog_fin by lra. pose proof (ln_neg _ HT). pose proof (ln_neg _ Hu). split.
  - exact (ediv_fin (ln u) (ln T) ltac:(lra)).
  - replace (ln u / ln T) with ((- ln u) / (- ln T)) by (field; lra). apply Rdiv_lt_0_compat; lra.
Qed.

(** one replacement; [t] the threshold *)
Lemma body_swap idx h c T t X u1 u2 us : (idx < n)%nat -> pq_top q h = Some (c, Fin T) -> epow (Fin T) (Fin (w idx)) = Fin t -> 0 <= t < 1 -> 0 < w idx ->
  X - w idx <= 0 -> 0 < u1 < 1 -> 0 < u2 < 1 -> gk (pq_pop q h) -> length (pq_items q h) = k ->
  let r' := Rpower (u1 * (1 - t) + t) (1 / w idx) in
  let h' := pq_push q (idx, Fin r') (pq_pop q h) in
  body idx (h, Fin X, u1 :: u2 :: us) = Ok (h', Fin (ln u2 / ln (top_key h')), us) /\ gk h' /\ length (pq_items q h') = k /\ 0 < ln u2 / ln (top_key h').
Proof using Hpow Hlog Hq Hwt Hk.
  intros Hi ET Et Ht Hw HX Hu1 Hu2 G L r' h'.
  assert (Hr' : 0 < r' < 1) by (apply Rpower_lt1; [split; nra|apply Rdiv_lt_0_compat; lra]).
  assert (G' : gk h').
  { unfold PProb3.gk. rewrite List.Forall_forall. intros x Hx. pose proof Hq as (_ & B2 & _). apply (Permutation_in _ (B2 _ _)) in Hx as [<-|Hx]; [exists r'; auto|].
    unfold PProb3.gk in G. rewrite List.Forall_forall in G. now apply G. }
  assert (L' : length (pq_items q h') = k) by exact (len_swap q k Hq h _ _ ET L).
  destruct (gk_top q k Hq Hk1 h' G' L') as (c' & T' & ET' & HT').
  pose proof (log_ratio u2 T' Hu2 HT') as [El Epos]. rewrite (top_key_eq q h' c' T' ET').
  split; [|auto]. unfold PProb2.body. rewrite Hwt by auto. cbn [bind].
  change (fle EA (fsub EA (Fin X) (Fin (w idx))) (f0 EA)) with (Rleb (X + - w idx) 0). unfold Rleb. destruct (Rle_dec (X + - w idx) 0); [|lra].
  rewrite (queue_top_eq _ _ ET). cbn [bind snd]. rewrite tape_draw. rewrite Hpow, Hlog. rewrite Et.
  change (fdiv EA (f1 EA) (Fin (w idx))) with (ediv (Fin 1) (Fin (w idx))). rewrite ediv_fin by lra.
  change (fadd EA (fmul EA (Fin u1) (fsub EA (f1 EA) (Fin t))) (Fin t)) with (Fin (u1 * (1 + - t) + t)).
  rewrite pow_fin; [|nra|apply Rgt_not_eq, Rdiv_lt_0_compat; lra].
  replace (1 + - t) with (1 - t) by ring. fold r'. rewrite tape_draw.
  match goal with |- context [queue_top q ?hh] => change hh with h' end.
  rewrite (queue_top_eq _ _ ET'). cbn [bind snd]. rewrite El. reflexivity.
Qed.

Lemma gk_pop h x : gk h -> pq_top q h = Some x -> gk (pq_pop q h).
Proof using Hq.
  intros G E. unfold PProb3.gk in *. rewrite List.Forall_forall in *. intros y Hy. apply G.
  destruct Hq as (_ & _ & _ & B). eapply Permutation_in; [apply Permutation_sym, (B h x E)|now right].
Qed.

Lemma body_skip idx h X us : (idx < n)%nat -> ~ X - w idx <= 0 -> body idx (h, Fin X, us) = Ok (h, Fin (X - w idx), us).
Proof using Hwt Hk.
  intros Hi HX. unfold PProb2.body. rewrite Hwt by lia. cbn [bind].
  change (fle EA (fsub EA (Fin X) (Fin (w idx))) (f0 EA)) with (Rleb (X + - w idx) 0). unfold Rleb. destruct (Rle_dec (X + - w idx) 0); [lra|].
  reflexivity.
Qed.

Lemma loop_many : forall mm idx h X us, (idx + mm <= n)%nat -> gk h -> length (pq_items q h) = k -> 0 < X ->
  (2 * mm <= length us)%nat -> unit_list us ->
  exists X' us', for_from idx mm body (h, Fin X, us) = Ok (jumpk mm idx h X us, X', us') /\ length (pq_items q (jumpk mm idx h X us)) = k.
Proof using Hpow Hlog Hq Hwt Hnn Hk.
  induction mm as [|mm IH]; intros idx h X us Hi G L HX HL HU; cbn [for_from PProb3.jumpk].
  - eexists _, _. split; [reflexivity|exact L].
  - destruct (Rle_dec (X - w idx) 0) as [Hc|Hc].
    + destruct us as [|u1 [|u2 us]]; [cbn in HL; lia|cbn in HL; lia|]. pose proof (Forall_inv HU) as Hu1. pose proof (Forall_inv_tail HU) as HU1. pose proof (Forall_inv HU1) as Hu2. pose proof (Forall_inv_tail HU1) as HU2. cbn beta in *.
      assert (Hw : 0 < w idx) by (pose proof (Hnn idx ltac:(lia)); lra).
      destruct (gk_top q k Hq Hk1 h G L) as (c & T & ET & HT).
      set (t := Rpower T (w idx)). assert (Ht : 0 < t < 1) by now apply Rpower_lt1.
      destruct (body_swap idx h c T t X u1 u2 us ltac:(lia) ET (pow_fin T (w idx) ltac:(lra) ltac:(lra)) ltac:(lra) Hw Hc Hu1 Hu2 (gk_pop h _ G ET) L) as (E & G' & L' & P').
      rewrite E. cbn [bind]. rewrite (top_key_eq q h c T ET). unfold pw. destruct (Rle_dec T 0); [lra|]. fold t.
      apply IH; auto; [lia|cbn in HL; lia].
    + rewrite (body_skip idx h X us ltac:(lia) Hc). cbn [bind]. apply IH; auto; [lia|lra|lia].
Qed.

(** the same from a zero key on top *)
Lemma loop_zero mm idx h c us : (idx + mm <= n)%nat -> pq_top q h = Some (c, Fin 0) -> gk (pq_pop q h) -> length (pq_items q h) = k ->
  ((0 < mm)%nat -> 0 < w idx) -> (2 * mm <= length us)%nat -> unit_list us ->
  exists X' us', for_from idx mm body (h, Fin 0, us) = Ok (jumpk mm idx h 0 us, X', us') /\ length (pq_items q (jumpk mm idx h 0 us)) = k.
Proof using Hpow Hlog Hq Hwt Hnn Hk.
  intros Hi ET G L Hw HL HU. destruct mm as [|mm].
  - eexists _, _. split; [reflexivity|exact L].
  - specialize (Hw ltac:(lia)). cbn [for_from PProb3.jumpk]. destruct (Rle_dec (0 - w idx) 0) as [Hc|]; [|lra].
    destruct us as [|u1 [|u2 us]]; [cbn in HL; lia|cbn in HL; lia|]. pose proof (Forall_inv HU) as Hu1. pose proof (Forall_inv_tail HU) as HU1. pose proof (Forall_inv HU1) as Hu2. pose proof (Forall_inv_tail HU1) as HU2. cbn beta in *.
    assert (EP : epow (Fin 0) (Fin (w idx)) = Fin 0).
    { unfold epow. destruct (Req_EM_T (w idx) 0); [lra|]. destruct (Req_EM_T 0 0); [|lra]. destruct (Rlt_dec 0 (w idx)); [reflexivity|lra]. }
    destruct (body_swap idx h c 0 0 0 u1 u2 us ltac:(lia) ET EP ltac:(lra) Hw Hc Hu1 Hu2 G L) as (E & G' & L' & P').
    rewrite E. cbn [bind]. rewrite (top_key_eq q h c 0 ET). unfold pw. destruct (Rle_dec 0 0); [|lra].
    apply loop_many; auto; [lia|cbn in HL; lia].
Qed.

(** draining *)
Lemma drain_eq : forall j i h buffer, length buffer = (i + j)%nat -> length (pq_items q h) = j ->
  exists h', for_from i j (fun i bh => let '(buffer, h) := bh in
        top <- queue_top q h ;; buffer <- vset buffer i (fst top) ;; Ok (buffer, pq_pop q h)) (buffer, h)
    = Ok (firstn i buffer ++ drain q j h, h').
Proof using Hk Hq k n q.
  induction j as [|j IH]; intros i h buffer HL HI; cbn [for_from drain].
  - exists h. rewrite app_nil_r, firstn_all2 by lia. reflexivity.
  - destruct (top_some q Hq h) as ([c key] & E). { intros E0. rewrite E0 in HI. discriminate. }
    rewrite (queue_top_eq _ _ E). cbn [bind fst]. rewrite vset_ok by lia. cbn [bind]. rewrite E.
    assert (HI' : length (pq_items q (pq_pop q h)) = j).
    { destruct Hq as (_ & _ & _ & B). pose proof (Permutation_length (B h _ E)) as P. cbn [length] in P. rewrite HI in P. injection P as P. symmetry. exact P. }
    destruct (IH (S i) (pq_pop q h) (upd buffer i c)) as (h' & E'); [rewrite upd_length; lia|exact HI'|].
    exists h'. rewrite E'. do 2 f_equal. rewrite (firstn_S_nth_error _ _ i c) by (rewrite nth_error_upd_eq by lia; reflexivity).
    rewrite <- app_assoc. cbn [app]. f_equal. clear. revert i; induction buffer as [|b l IH]; intros [|i]; cbn; auto. now rewrite IH.
Qed.

(** filling *)
Definition fill_body (idx : nat) (hs : pq q * list R) : res (pq q * list R) :=
  let '(h, s) := hs in
  let (u, s) := r_real tape_rng (f0 EA) (f1 EA) s in
  w <- weight idx ;;
  let r := lpow EA m u (fdiv EA (f1 EA) w) in
  Ok (pq_push q (idx, r) h, s).

Lemma fill_key idx u : (idx < n)%nat -> 0 < u < 1 -> lpow EA m (Fin u) (fdiv EA (f1 EA) (Fin (w idx))) = res_key (w idx) u.
Proof using Hpow Hnn.
  intros Hi Hu. rewrite Hpow. unfold res_key. destruct (Req_EM_T (w idx) 0) as [E|N].
  - rewrite E. assert (ED : fdiv EA (f1 EA) (Fin 0) = PInf).
    { cbn. destruct (Req_EM_T 0 0); [|lra]. unfold sinf. destruct (Rlt_dec 0 1); [reflexivity|lra]. }
    rewrite ED. unfold epow. rewrite (Rabs_pos_eq u) by lra. destruct (Req_EM_T u 1); [lra|]. destruct (Rlt_dec u 1); [|lra]. reflexivity.
  - pose proof (Hnn idx Hi). change (fdiv EA (f1 EA) (Fin (w idx))) with (ediv (Fin 1) (Fin (w idx))). rewrite ediv_fin by auto.
    apply pow_fin; [lra|]. apply Rgt_not_eq, Rdiv_lt_0_compat; lra.
Qed.

Lemma fill_eq : forall j idx h us, (idx + j <= n)%nat -> (j <= length us)%nat -> unit_list us ->
  for_from idx j fill_body (h, us) = Ok (res_fill q w j idx h us).
Proof using Hk Hnn Hpow Hwt k m n q w weight.
  induction j as [|j IH]; intros idx h us Hi HL HU; cbn [for_from res_fill]; [reflexivity|].
  destruct us as [|u us]; [cbn in HL; lia|]. pose proof (Forall_inv HU) as Hu. pose proof (Forall_inv_tail HU) as HU1. cbn beta in *.
  unfold fill_body at 1. rewrite tape_draw, Hwt by lia. cbn [bind]. rewrite fill_key by (auto; lia).
  apply IH; auto; [lia|cbn in HL; lia].
Qed.

Lemma res_fill_app : forall j idx h us1 us2, length us1 = j -> res_fill q w j idx h (us1 ++ us2) = (fst (res_fill q w j idx h us1), us2).
Proof using.
  induction j as [|j IH]; intros idx h [|u us1] us2 HL; try discriminate; cbn [res_fill app fst]; [now destruct us2|].
  now apply IH; injection HL.
Qed.

(** the heap after filling *)
Definition filled (i : nat) (h : pq q) : Prop :=
  Permutation (keysof q h) (seq 0 i) /\
  forall j key, In (j, key) (pq_items q h) ->
    (w j = 0 -> key = Fin 0) /\ (w j <> 0 -> exists r, key = Fin r /\ 0 < r < 1).
Lemma fill_filled : forall j idx h us, filled idx h -> (idx + j <= n)%nat -> length us = j -> unit_list us ->
  filled (idx + j) (fst (res_fill q w j idx h us)).
Proof using Hk Hnn Hq k n q w.
  induction j as [|j IH]; intros idx h [|u us] HF Hi HL HU; try discriminate; cbn [res_fill fst].
  - now rewrite Nat.add_0_r.
  - pose proof (Forall_inv HU) as Hu. pose proof (Forall_inv_tail HU) as HU1. cbn beta in *. replace (idx + S j)%nat with (S idx + j)%nat by lia.
    apply IH; auto; [|lia]. destruct HF as [I1 I2]. split.
    + rewrite seq_S. eapply Permutation_trans; [apply keys_push; auto|]. cbn [fst].
      eapply Permutation_trans; [apply perm_skip; exact I1|apply Permutation_cons_append].
    + intros j0 key Hin. apply (items_push q Hq) in Hin as [E|Hin]; [|now apply I2]. inversion E; subst j0 key. unfold res_key. split; intros H.
      * destruct (Req_EM_T (w idx) 0); [reflexivity|contradiction].
      * destruct (Req_EM_T (w idx) 0); [contradiction|]. eexists. split; [reflexivity|]. pose proof (Hnn idx ltac:(lia)).
        apply Rpower_lt1; auto. apply Rdiv_lt_0_compat; lra.
Qed.

Lemma filled_cases h : filled k h -> length (pq_items q h) = k /\
  (gk h \/ ((z < k)%nat /\ exists c, pq_top q h = Some (c, Fin 0) /\ gk (pq_pop q h))).
Proof using Hq Hord Hk Hpos Hnn.
  intros [I1 I2]. assert (L : length (pq_items q h) = k).
  { pose proof (Permutation_length I1) as P. rewrite seq_length in P. unfold keysof in P. now rewrite map_length in P. }
  split; [exact L|].
  assert (Hin : forall j key, In (j, key) (pq_items q h) -> (j < k)%nat).
  { intros j key H. assert (In j (keysof q h)) by (unfold keysof; change j with (fst (j, key)); now apply in_map).
    eapply Permutation_in in H0; [|exact I1]. apply in_seq in H0. lia. }
  destruct (lt_dec z k) as [Hzk|Hzk].
  2:{ left. unfold PProb3.gk. rewrite List.Forall_forall. intros [j key] H. cbn. apply (I2 j key H). specialize (Hin j key H). pose proof (Hpos j ltac:(lia) ltac:(lia)). lra. }
  destruct (Req_EM_T (w z) 0) as [Ez|Nz].
  2:{ left. unfold PProb3.gk. rewrite List.Forall_forall. intros [j key] H. cbn. apply (I2 j key H). specialize (Hin j key H).
      destruct (Nat.eq_dec j z) as [->|]; auto. pose proof (Hpos j ltac:(lia) ltac:(lia)). lra. }
  right. split; auto.
  assert (Hz0 : In (z, Fin 0) (pq_items q h)).
  { assert (H : In z (keysof q h)) by (eapply Permutation_in; [apply Permutation_sym; exact I1|apply in_seq; lia]).
    unfold keysof in H. apply in_map_iff in H as ([j key] & Ej & H). cbn in Ej. subst j.
    destruct (I2 z key H) as [Hk0 _]. now rewrite <- (Hk0 Ez). }
  assert (Hcmp : List.Forall (fun y => exists r, snd y = Fin r) (pq_items q h)).
  { apply List.Forall_forall. intros [j key] H. cbn. destruct (I2 j key H) as [A B].
    destruct (Req_EM_T (w j) 0) as [E|N]; [exists 0; auto|]. destruct (B N) as (r & -> & _). eauto. }
  destruct (top_some q Hq h) as ([c key] & E). { intros E0. rewrite E0 in Hz0. destruct Hz0. }
  pose proof (Hord h (c, key) E Hcmp (z, Fin 0) Hz0) as HO. cbn in HO.
  pose proof (top_in q Hq h _ E) as HT. destruct (I2 c key HT) as [A B].
  assert (Ec : c = z).
  { destruct (Nat.eq_dec c z); auto. exfalso. specialize (Hin c key HT). pose proof (Hpos c ltac:(lia) ltac:(lia)).
    destruct (B ltac:(lra)) as (r & -> & Hr). cbn in HO. unfold Rltb in HO. destruct (Rlt_dec 0 r); [discriminate|lra]. }
  subst c. exists z. rewrite (A Ez) in E. split; [exact E|]. unfold PProb3.gk. rewrite List.Forall_forall. intros [j key'] H. cbn.
  assert (Hj : j <> z).
  { intros ->. pose proof (keys_pop q Hq h _ E) as P. cbn [fst] in P.
    assert (ND : NoDup (z :: keysof q (pq_pop q h))) by (eapply Permutation_NoDup; [eapply Permutation_trans; [apply Permutation_sym; exact I1|exact P]|apply seq_NoDup]).
    inversion ND; subst. apply H2. unfold keysof. change z with (fst (z, key')). now apply in_map. }
  pose proof (items_pop q Hq h _ _ E H) as H'. apply (I2 j key' H'). specialize (Hin j key' H'). pose proof (Hpos j ltac:(lia) Hj). lra.
Qed.

Definition X0 (u : R) (h : pq q) : R := if Rle_dec (top_key h) 0 then 0 else ln u / ln (top_key h).

(** the outcome of a call *)
Lemma outcome buffer us1 u us2 : length us1 = k -> unit_list us1 -> 0 < u < 1 -> unit_list us2 -> (2 * (n - k) <= length us2)%nat ->
  let h := fst (res_fill q w k 0 (pq_empty q) us1) in
  exists s', reservoir_sampling_A_ExpJ m tape_rng q k n weight buffer (us1 ++ u :: us2) = Ok (drain q k (jumpk (n - k) k h (X0 u h) us2), s').
Proof using Hpow Hlog Hq Hord Hk Hwt Hnn Hpos.
  intros HL1 HU1 Hu HU2 HL2 h. unfold reservoir_sampling_A_ExpJ. destruct (Nat.eqb_spec k 0) as [|_]; [lia|].
  replace (Nat.min n k) with k by lia.
  match goal with |- context [for_n k ?b ?st] => replace (for_n k b st) with (Ok (h, u :: us2) : res (pq q * list R)) end.
  2:{ symmetry. transitivity (for_from 0 k fill_body (pq_empty q, us1 ++ u :: us2)); [reflexivity|].
    rewrite fill_eq; [|lia|rewrite app_length; lia|apply Forall_app; split; auto; constructor; auto]. now rewrite res_fill_app by auto. }
  cbn [bind].
  assert (HF : filled k h).
  { apply (fill_filled k 0 (pq_empty q) us1); auto; [|lia]. destruct Hq as (B0 & _). unfold filled, keysof. rewrite B0. split; [constructor|intros ? ? []]. }
  rewrite tape_draw. destruct (filled_cases h HF) as (L & HC).
  assert (D : exists T, (exists c, pq_top q h = Some (c, Fin T)) /\ fdiv EA (llog EA m (Fin u)) (llog EA m (Fin T)) = Fin (X0 u h) /\
     exists X' us', for_from k (n - k) body (h, Fin (X0 u h), us2) = Ok (jumpk (n - k) k h (X0 u h) us2, X', us') /\
       length (pq_items q (jumpk (n - k) k h (X0 u h) us2)) = k).
  { rewrite Hlog. unfold X0. destruct HC as [G|(Hz & c & ET & G)].
    - destruct (gk_top q k Hq Hk1 h G L) as (c & T & ET & HT). exists T. split; [eauto|]. rewrite (top_key_eq q h c T ET).
      destruct (Rle_dec T 0); [lra|]. destruct (log_ratio u T Hu HT) as [El Ep]. split; [exact El|]. apply loop_many; auto. lia.
    - exists 0. split; [eauto|]. rewrite (top_key_eq q h c 0 ET). destruct (Rle_dec 0 0); [|lra]. split.
      + unfold elog. destruct (Rlt_dec 0 u); [|lra]. destruct (Rlt_dec 0 0); [lra|]. destruct (Req_EM_T 0 0); [|lra]. reflexivity.
      + apply (loop_zero _ _ _ c); auto; [lia|]. intros Hm. apply Hpos; lia. }
  destruct D as (T & (c & ET) & EX & X' & us' & EL & LL).
  rewrite (queue_top_eq _ _ ET). cbn [bind snd]. rewrite EX.
  match type of EL with _ = ?rhs => match goal with |- context [for_from ?i ?kk ?b ?st] =>
    replace (for_from i kk b st) with rhs by (symmetry; exact EL) end end.
  cbn [bind]. rewrite LL.
  destruct (drain_eq k 0 (jumpk (n - k) k h (X0 u h) us2) (resize 0%nat buffer k)) as (h' & ED); [apply resize_length|exact LL|].
  unfold for_n. rewrite ED. cbn [bind firstn app]. eauto.
Qed.

(** lifting through the filling phase *)
Lemma expects_fill (G1 G2 : pq q -> list R -> R) m1 m2 :
  (forall h v, filled k h -> expects m1 (G1 h) v -> expects m2 (G2 h) v) ->
  forall j idx h v, filled idx h -> (idx + j = k)%nat ->
  expects (j + m1) (fun us => let '(h', us') := res_fill q w j idx h us in G1 h' us') v ->
  expects (j + m2) (fun us => let '(h', us') := res_fill q w j idx h us in G2 h' us') v.
Proof using Hq Hnn Hk.
  intros HG. induction j as [|j IH]; intros idx h v HF Hj HE.
  - cbn [Nat.add] in *. replace idx with k in HF by lia.
    apply (expects_ext _ _ (G2 h)); [intros [|u us] _ _; reflexivity|]. apply HG; auto.
  - cbn [Nat.add] in *. destruct HE as (hh & ex & H1 & H2). exists hh, ex. split; auto. intros u Hu Nu. specialize (H1 u Hu Nu).
    apply (IH (S idx) (pq_push q (idx, res_key (w idx) u) h)); [|lia|exact H1].
    pose proof (fill_filled 1 idx h (u :: nil) HF ltac:(lia) eq_refl ltac:(constructor; [auto|constructor])) as H. now rewrite Nat.add_1_r in H.
Qed.

Theorem expj_law (f : list nat -> R) buffer v :
  expects n (fun us => f (a_res q w k n us)) v ->
  expects (k + S (2 * (n - k))) (fun us => of_output f (reservoir_sampling_A_ExpJ m tape_rng q k n weight buffer us)) v.
Proof using Hpow Hlog Hq Hord Hk Hwt Hnn Hpos.
  intros HE. replace n with (k + (n - k))%nat in HE at 1 by lia.
  set (F := fun h => f (drain q k h)).
  assert (H0 : filled 0 (pq_empty q)).
  { destruct Hq as (B0 & _). unfold filled, keysof. rewrite B0. split; [constructor|intros ? ? []]. }
  pose proof (expects_fill (fun h us => F (res_run q w (n - k) k h us))
     (fun h us => match us with [] => 0 | u :: us' => F (jumpk (n - k) k h (X0 u h) us') end) (n - k) (S (2 * (n - k)))) as HL.
  specialize (HL ltac:(
    intros h v' HF HE'; destruct (filled_cases h HF) as (L & [G|(Hz & c & ET & G)]);
    [ pose proof (jumpk_law q w k Hq Hk1 F (n - k) k h v' 0 G L ltac:(intros; apply Hnn; lia) HE') as J;
      rewrite Nat.add_0_r in J; apply (expects_ext _ _ _ _) with (2 := J);
      intros [|u us] HLL HU; [reflexivity|]; unfold X0;
      destruct (gk_top q k Hq Hk1 h G L) as (c & T & ET & HT); rewrite (top_key_eq q h c T ET);
      destruct (Rle_dec T 0); [lra|reflexivity]
    | pose proof (jumpk_law0 q w k Hq Hk1 F (n - k) k h c v' 0 ET G L ltac:(intros; apply Hnn; lia) ltac:(intros; apply Hpos; lia) HE') as J;
      rewrite Nat.add_0_r in J; apply (expects_ext _ _ _ _) with (2 := J);
      intros [|u us] HLL HU; [reflexivity|]; unfold X0; rewrite (top_key_eq q h c 0 ET);
      destruct (Rle_dec 0 0); [reflexivity|lra] ])).
  specialize (HL k 0%nat (pq_empty q) v H0 eq_refl).
  assert (HE2 : expects (k + (n - k)) (fun us => let '(h', us') := res_fill q w k 0 (pq_empty q) us in F (res_run q w (n - k) k h' us')) v).
  { apply (expects_ext _ _ _ _) with (2 := HE). intros us _ _. unfold a_res, F. destruct (res_fill q w k 0 (pq_empty q) us). reflexivity. }
  specialize (HL HE2). apply (expects_ext _ _ _ _) with (2 := HL). intros us HLen HU.
  assert (Hsplit : exists us1 u us2, us = us1 ++ u :: us2 /\ length us1 = k /\ length us2 = (2 * (n - k))%nat).
  { exists (firstn k us). destruct (skipn k us) as [|u us2] eqn:E.
    - pose proof (skipn_length k us) as H. rewrite E in H. cbn in H. lia.
    - exists u, us2. split; [now rewrite <- E, firstn_skipn|]. pose proof (skipn_length k us) as H. rewrite E in H. cbn [length] in H.
      rewrite firstn_length. lia. }
  destruct Hsplit as (us1 & u & us2 & -> & HL1 & HL2). apply Forall_app in HU as [HU1 HU2]. pose proof (Forall_inv HU2). pose proof (Forall_inv_tail HU2). cbn beta in *.
  destruct (outcome buffer us1 u us2 HL1 HU1) as (s' & E); auto; [lia|]. rewrite E. cbn [of_output].
  rewrite res_fill_app by auto. reflexivity.
Qed.
End Many.
