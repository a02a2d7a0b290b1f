(** Proofs about reservoir sampling: undefined behaviour for k > n, zero weights. *)
From Verif Require Import Base BaseFacts Arith64 MRandom SRandom PRandom RFacts.
From Coq Require Import Permutation Sorting.Sorted Reals Lra.

Section UBSec.
Context {a : Arith} (m : Libm a) (g : Rng a) (q : PQ a).
Hypothesis Hbag : pq_bag q.
Variable weight : nat -> res (F a).
Variable n : nat.
Hypothesis Hw : forall i, i < n -> is_ok (weight i).

Lemma drain_more k h buffer : length (keysof q h) = n -> length buffer = n -> n < k ->
  for_n k (fun i bh => let '(buffer, h) := bh in
        top <- queue_top q h ;; buffer <- vset buffer i (fst top) ;; Ok (buffer, pq_pop q h)) (buffer, h)
  = UB UbEmptyQueue.
Proof.
  intros Hh Hb Hk. unfold for_n. replace k with (n + S (k - S n)) by lia. rewrite for_from_app.
  match goal with |- context[for_from 0 n ?b ?s] =>
    assert (D : okp (for_from 0 n b s) (fun bh => length (keysof q (snd bh)) = 0)) end.
  { eapply okp_impl.
    - apply (for_n_inv _ (fun i bh => length (fst bh) = n /\ length (keysof q (snd bh)) = n - i)).
      + cbn. lia.
      + intros i [b h1] Hi [H1 H2]. cbn [fst snd] in *.
        destruct (queue_top_ok q Hbag h1 (n - S i)) as (x & E & Et); [lia|]. rewrite E. cbn [bind].
        rewrite vset_ok by lia. cbn. rewrite upd_length. split; auto.
        pose proof (Permutation_length (keys_pop q Hbag h1 x Et)) as HL. cbn in HL. unfold keysof in *. lia.
    - intros bh [_ H]. lia. }
  apply okp_ex in D as ([b h1] & E & HL). rewrite E. cbn [bind for_from snd] in *.
  unfold queue_top. destruct (pq_top q h1) as [x|] eqn:Et; [|reflexivity].
  apply (keys_pop q Hbag) in Et. apply Permutation_length in Et. cbn in Et. lia.
Qed.

Lemma reservoir_ub k buffer s : n < k ->
  reservoir_sampling_A_ExpJ m g q k n weight buffer s = UB UbEmptyQueue.
Proof.
  intros Hk. unfold reservoir_sampling_A_ExpJ. destruct (Nat.eqb_spec k 0) as [|_]; [lia|].
  replace (Nat.min n k) with n by lia.
  match goal with |- context[bind (for_n n ?b ?s0) _] =>
    assert (D : okp (for_n n b s0) (fun hs => Permutation (keysof q (fst hs)) (seq 0 n))) end.
  { apply (for_n_inv _ (fun i hs => Permutation (keysof q (fst hs)) (seq 0 i))).
    - cbn. unfold keysof. destruct Hbag as (-> & _). constructor.
    - intros i [h t] Hi HI. destruct (r_real g (f0 a) (f1 a) t) as [u t'].
      assert (Hwi : is_ok (weight i)) by (apply Hw; lia). apply is_ok_ex in Hwi as (w & Ew).
      rewrite Ew. cbn [bind okp fst] in *. rewrite seq_S.
      eapply Permutation_trans; [apply keys_push; auto|]. cbn [fst].
      eapply Permutation_trans; [apply perm_skip; exact HI|apply Permutation_cons_append]. }
  apply okp_ex in D as ([h t] & E & HI). rewrite E. cbn [bind fst] in *.
  destruct (r_real g (f0 a) (f1 a) t) as [u t'].
  assert (HL : length (keysof q h) = n) by (rewrite (Permutation_length HI), seq_length; auto).
  unfold queue_top at 1. destruct (pq_top q h) as [x|] eqn:Et; [|reflexivity]. cbn [bind].
  rewrite Nat.sub_diag. cbn [for_from bind].
  replace (length (pq_items q h)) with n by (unfold keysof in HL; now rewrite map_length in HL).
  rewrite drain_more; auto. apply resize_length.
Qed.
End UBSec.

(** ** One index of weight zero *)
Local Open Scope R_scope.

Lemma ln_neg u : 0 < u < 1 -> ln u < 0.
Proof. intros H. rewrite <- ln_1. apply ln_increasing; lra. Qed.

Lemma Rpower_unit u w : 0 < u < 1 -> 0 < w -> 0 < Rpower u w < 1.
Proof.
  intros Hu Hw. split; [apply exp_pos|]. unfold Rpower.
  rewrite <- exp_0. apply exp_increasing. pose proof (ln_neg u Hu). nra.
Qed.

Lemma epow_unit u w : 0 < u < 1 -> 0 < w ->
  exists r, epow (Fin u) (Fin w) = Fin r /\ 0 < r < 1.
Proof.
  intros Hu Hw. unfold epow. destruct (Req_EM_T w 0); [lra|]. destruct (Req_EM_T u 0); [lra|].
  exists (Rpow u w). split; auto. unfold Rpow. destruct (Rlt_dec 0 u); [|lra]. now apply Rpower_unit.
Qed.

Lemma ediv_fin r s : s <> 0 -> ediv (Fin r) (Fin s) = Fin (r / s).
Proof. intros H. cbn. destruct (Req_EM_T s 0); auto. contradiction. Qed.

Lemma elog_fin r : 0 < r -> elog (Fin r) = Fin (ln r).
Proof. intros H. cbn. destruct (Rlt_dec 0 r); auto. contradiction. Qed.

Lemma X_pos u v : 0 < u < 1 -> 0 < v < 1 ->
  exists x, ediv (elog (Fin u)) (elog (Fin v)) = Fin x /\ 0 < x.
Proof.
  intros Hu Hv. rewrite !elog_fin by lra. pose proof (ln_neg u Hu). pose proof (ln_neg v Hv).
  rewrite ediv_fin by lra. exists (ln u / ln v). split; auto.
  replace (ln u / ln v) with ((- ln u) * / (- ln v)) by (field; lra).
  apply Rmult_lt_0_compat; [lra|]. apply Rinv_0_lt_compat. lra.
Qed.

Section Zero.
Variable m : Libm EA.
Hypothesis Hpow : lpow EA m = epow.
Hypothesis Hlog : llog EA m = elog.
Variable g : Rng EA.
(** draws strictly between 0 and 1 *)
Hypothesis Hdraw : forall s, exists u, fst (r_real g (Fin 0) (Fin 1) s) = Fin u /\ 0 < u < 1.
Variable q : PQ EA.
Hypothesis Hbag : pq_bag q.
Hypothesis Hord : pq_ordered (a:=EA) (fun x : ext => exists r, x = Fin r) q.
Variable n k z : nat.
Variable w : nat -> R.
Hypothesis Hz : w z = 0.
Hypothesis Hpos : forall i, (i < n)%nat -> i <> z -> 0 < w i.
Hypothesis Hk : (1 <= k < n)%nat.
Definition wt (i : nat) : res ext := Ok (Fin (w i)).

Definition good (h : pq q) : Prop :=
  forall i key, In (i, key) (pq_items q h) -> i <> z /\ exists r, key = Fin r /\ 0 < r < 1.

Definition initial (i : nat) (h : pq q) : Prop :=
  Permutation (keysof q h) (seq 0 i) /\
  forall j key, In (j, key) (pq_items q h) ->
    (j = z -> key = Fin 0) /\ (j <> z -> exists r, key = Fin r /\ 0 < r < 1).

Lemma draw_cases s : exists u s', r_real g (Fin 0) (Fin 1) s = (Fin u, s') /\ 0 < u < 1.
Proof.
  destruct (Hdraw s) as (u & E & Hu). destruct (r_real g (Fin 0) (Fin 1) s) as [v s'].
  cbn in E. subst v. eauto.
Qed.

Lemma items_push x h y : In y (pq_items q (pq_push q x h)) <-> y = x \/ In y (pq_items q h).
Proof.
  destruct Hbag as (_ & B & _). split; intros H.
  - eapply Permutation_in in H; [|apply B]. destruct H; auto.
  - eapply Permutation_in; [apply Permutation_sym, B|]. cbn. destruct H; auto.
Qed.

Lemma items_pop h x y : pq_top q h = Some x -> In y (pq_items q (pq_pop q h)) -> In y (pq_items q h).
Proof.
  intros E H. destruct Hbag as (_ & _ & _ & B). eapply Permutation_in; [apply Permutation_sym, (B h x E)|].
  cbn; auto.
Qed.

Lemma top_in h x : pq_top q h = Some x -> In x (pq_items q h).
Proof.
  intros E. destruct Hbag as (_ & _ & _ & B). eapply Permutation_in; [apply Permutation_sym, (B h x E)|].
  cbn; auto.
Qed.

Lemma good_top h x : good h -> pq_top q h = Some x -> exists r, snd x = Fin r /\ 0 < r < 1.
Proof.
  intros G E. destruct x as [i key]. apply (G i key). now apply top_in.
Qed.

(** one replacement step: the new key lies in (0,1) when the threshold [t] lies in [0,1) *)
Lemma new_key t u v : 0 <= t < 1 -> 0 < u < 1 -> 0 < v ->
  exists r, epow (eadd (emul (Fin u) (eadd (Fin 1) (eopp (Fin t)))) (Fin t)) (ediv (Fin 1) (Fin v)) = Fin r /\ 0 < r < 1.
Proof.
  intros Ht Hu Hv. rewrite ediv_fin by lra. cbn [eopp eadd emul].
  apply epow_unit.
  - split; nra.
  - apply Rdiv_lt_0_compat; lra.
Qed.

Lemma zero_step h i s : (i < n)%nat -> i <> z -> length (keysof q h) = k ->
  (exists x, pq_top q h = Some x /\ exists t, epow (snd x) (Fin (w i)) = Fin t /\ 0 <= t < 1) ->
  good (pq_pop q h) ->
  okp ( top <- queue_top q h ;;
          let t := lpow EA m (snd top) (Fin (w i)) in
          let (u, s) := r_real g (f0 EA) (f1 EA) s in
          let uniform_from_t_to_one := fadd EA (fmul EA u (fsub EA (f1 EA) t)) t in
          let r := lpow EA m uniform_from_t_to_one (fdiv EA (f1 EA) (Fin (w i))) in
          let h := pq_push q (i, r) (pq_pop q h) in
          let (u, s) := r_real g (f0 EA) (f1 EA) s in
          top <- queue_top q h ;;
          Ok (h, fdiv EA (elog u) (elog (snd top)), s))
      (fun hxs => let '(h, X, s) := hxs in
         length (keysof q h) = k /\ good h /\ exists x, X = Fin x /\ 0 < x).
Proof.
  intros Hi Hne HL (x & Et & t & Ept & Ht) Hgood.
  unfold queue_top at 1. rewrite Et. cbn [bind]. rewrite Hpow, Ept.
  destruct (draw_cases s) as (u & s1 & Eu & Hu). cbn [f0 f1 EA fadd fmul fsub fdiv]. rewrite Eu.
  destruct (new_key t u (w i) Ht Hu (Hpos i Hi Hne)) as (r & Er & Hr).
  cbn zeta. rewrite Er.
  destruct (draw_cases s1) as (u2 & s2 & Eu2 & Hu2). rewrite Eu2.
  set (h2 := pq_push q (@pair nat (F EA) i (Fin r)) (pq_pop q h)).
  assert (HL2 : length (keysof q h2) = k).
  { unfold h2. rewrite (Permutation_length (keys_push q Hbag _ _)).
    pose proof (Permutation_length (keys_pop q Hbag h x Et)) as HH. cbn in *. lia. }
  assert (G2 : good h2).
  { intros j key Hin. apply items_push in Hin as [E|Hin].
    - inversion E; subst. split; auto. eauto.
    - now apply Hgood. }
  destruct (queue_top_ok q Hbag h2 (k - 1)) as (y & Ey & Ety); [lia|].
  rewrite Ey. cbn [bind okp]. split; auto. split; auto.
  destruct (good_top h2 y G2 Ety) as (v & -> & Hv). now apply X_pos.
Qed.

Lemma reservoir_no_zero buffer s :
  okp (reservoir_sampling_A_ExpJ m g q k n wt buffer s) (fun r => ~ In z (fst r)).
Proof.
  unfold reservoir_sampling_A_ExpJ. destruct (Nat.eqb_spec k 0) as [|_]; [lia|].
  replace (Nat.min n k) with k by lia.
  apply okp_bind. eapply okp_impl.
  { apply (for_n_inv _ (fun i hs => initial i (fst hs))).
    - cbn. destruct Hbag as (B0 & _). unfold initial, keysof. rewrite B0. split; [constructor|]. intros ? ? [].
    - intros i [h t] Hi [I1 I2]. cbn [fst] in *.
      destruct (draw_cases t) as (u & t' & Eu & Hu). cbn [f0 f1 EA]. rewrite Eu. cbn [wt bind okp fst].
      rewrite Hpow. split.
      + rewrite seq_S. eapply Permutation_trans; [apply keys_push; auto|]. cbn [fst].
        eapply Permutation_trans; [apply perm_skip; exact I1|apply Permutation_cons_append].
      + intros j key Hin. apply items_push in Hin as [E|Hin]; [|now apply I2].
        inversion E; subst j key. cbn [fdiv EA f1].
        split; intros Hj.
        * subst i. rewrite Hz. cbn [ediv]. destruct (Req_EM_T 0 0); [|lra].
          unfold sinf. destruct (Rlt_dec 0 1); [|lra]. cbn [epow].
          rewrite Rabs_right by lra. destruct (Req_EM_T u 1); [lra|]. destruct (Rlt_dec u 1); [auto|lra].
        * pose proof (Hpos i ltac:(lia) Hj) as Hwi. change (exists r, epow (Fin u) (ediv (Fin 1) (Fin (w i))) = Fin r /\ 0 < r < 1). rewrite ediv_fin by lra. apply epow_unit; auto.
          apply Rdiv_lt_0_compat; lra. }
  intros [h t] [I1 I2]. cbn [fst] in *.
  destruct (draw_cases t) as (u & t' & Eu & Hu). cbn [f0 f1 EA]. rewrite Eu.
  assert (HL : length (keysof q h) = k) by (rewrite (Permutation_length I1), seq_length; auto).
  destruct (queue_top_ok q Hbag h (k - 1)) as (x & Ex & Etx); [lia|]. rewrite Ex. cbn [bind].
  rewrite Hlog. apply okp_bind.
  set (SInv := fun (i : nat) (hxs : pq q * ext * rst g) => let '(h, X, s) := hxs in
       length (keysof q h) = k /\
       ((good h /\ exists x, X = Fin x /\ 0 < x) \/
        (i = k /\ (z < k)%nat /\ X = Fin 0 /\ good (pq_pop q h) /\ exists x, pq_top q h = Some x /\ snd x = Fin 0))).
  eapply okp_impl.
  { apply (for_from_inv _ SInv).
    - (* initial state *)
      unfold SInv. split; auto. destruct (Nat.lt_ge_cases z k) as [Hzk|Hzk].
      + right. split; auto. split; auto.
        assert (Hzin : In (z, Fin 0) (pq_items q h)).
        { assert (Hin : In z (keysof q h)) by (eapply Permutation_in; [apply Permutation_sym; exact I1|apply in_seq; lia]).
          unfold keysof in Hin. apply in_map_iff in Hin as ([j key] & Ej & Hin). cbn in Ej. subst j.
          destruct (I2 z key Hin) as [Hk0 _]. now rewrite <- (Hk0 eq_refl). }
        assert (Hcmp : Forall (fun y => exists r, snd y = Fin r) (pq_items q h)).
        { apply Forall_forall. intros [j key] Hin. cbn. destruct (I2 j key Hin) as [A B].
          destruct (Nat.eq_dec j z) as [Ez|Ez]; [eauto|]. destruct (B Ez) as (r & -> & _). eauto. }
        pose proof (Hord h x Etx Hcmp _ Hzin) as Hlt. cbn in Hlt.
        destruct x as [jx kx]. pose proof (top_in _ _ Etx) as Hxin. destruct (I2 jx kx Hxin) as [A B].
        destruct (Nat.eq_dec jx z) as [Ez|Ez].
        2: { exfalso. destruct (B Ez) as (r & -> & Hr). cbn in Hlt.
             destruct (Rltb_spec 0 r); [discriminate|lra]. }
        subst jx. specialize (A eq_refl). subst kx. cbn [snd].
        split.
        * rewrite elog_fin by lra. cbn [elog]. destruct (Rlt_dec 0 0); [lra|].
          destruct (Req_EM_T 0 0); [|lra]. reflexivity.
        * split; [|eauto]. intros j key Hin.
          assert (Hjz : j <> z).
          { intros ->. pose proof (keys_pop q Hbag h _ Etx) as HP. cbn [fst] in HP.
            assert (HN : NoDup (z :: keysof q (pq_pop q h))).
            { eapply Permutation_NoDup; [exact HP|]. eapply Permutation_NoDup; [apply Permutation_sym; exact I1|apply seq_NoDup]. }
            inversion HN as [|? ? HN1 _]; subst. apply HN1. apply (in_map fst) in Hin. exact Hin. }
          split; auto. apply (I2 j key); auto. eapply items_pop; eauto.
      + left. assert (G : good h).
        { intros j key Hin. assert (Hj : (j < k)%nat).
          { apply (in_map fst) in Hin. cbn in Hin. eapply Permutation_in in Hin; [|exact I1].
            apply in_seq in Hin. lia. }
          split; [lia|]. apply (I2 j key Hin). lia. }
        split; auto. destruct (good_top h x G Etx) as (v & -> & Hv). now apply X_pos.
    - intros i [[h1 X] t1] Hi [HL1 HI]. cbn [wt bind].
      destruct HI as [[G (xx & -> & Hxx)]|(Ei & Hzk & -> & Gp & y & Ety & Ey)].
      + cbn [fsub EA eopp eadd]. destruct (Nat.eq_dec i z) as [->|Hne].
        * rewrite Hz. cbn [fle EA eleb f0]. destruct (Rleb_spec (xx + - 0) 0); [lra|].
          cbn. split; auto. left. split; auto. exists (xx + - 0). split; auto. lra.
        * cbn [fle EA eleb f0]. destruct (Rleb_spec (xx + - w i) 0) as [Hle|Hgt].
          -- destruct (top_some q Hbag h1) as [y Ety].
             { intros H0. unfold keysof in HL1. rewrite H0 in HL1. cbn in HL1. lia. }
             assert (P1 : exists x, pq_top q h1 = Some x /\ exists t, epow (snd x) (Fin (w i)) = Fin t /\ 0 <= t < 1).
             { exists y. split; auto. destruct (good_top h1 y G Ety) as (v & -> & Hv).
               destruct (epow_unit v (w i) Hv (Hpos i ltac:(lia) Hne)) as (r & Er & Hr).
               exists r. split; auto. lra. }
             assert (P2 : good (pq_pop q h1)) by (intros j key Hin; apply G; eapply items_pop; eauto).
             refine (okp_impl _ _ _ _ (zero_step h1 i t1 ltac:(lia) Hne HL1 P1 P2) _).
             intros [[h2 X2] t2] (A1 & A2 & A3). split; auto.
          -- cbn. split; auto. left. split; auto. exists (xx + - w i). split; auto. lra.
      + subst i. assert (Hne : k <> z) by lia. assert (Hwk : 0 < w k) by (apply Hpos; lia).
        cbn [fsub EA eopp eadd fle eleb f0]. destruct (Rleb_spec (0 + - w k) 0) as [_|Hgt]; [|lra].
        assert (P1 : exists x, pq_top q h1 = Some x /\ exists t, epow (snd x) (Fin (w k)) = Fin t /\ 0 <= t < 1).
        { exists y. split; auto. rewrite Ey. exists 0. split; [|lra].
          cbn [epow]. destruct (Req_EM_T (w k) 0); [lra|].
          destruct (Req_EM_T 0 0); [|lra]. destruct (Rlt_dec 0 (w k)); [auto|lra]. }
        refine (okp_impl _ _ _ _ (zero_step h1 k t1 ltac:(lia) Hne HL1 P1 Gp) _).
        intros [[h2 X2] t2] (A1 & A2 & A3). split; auto. }
  intros [[h1 X] t1] [HL1 HI].
  assert (G : good h1).
  { destruct HI as [[G _]|(Ei & _)]; auto. lia. }
  assert (EL : length (pq_items q h1) = k) by (unfold keysof in HL1; now rewrite map_length in HL1).
  rewrite EL. apply okp_bind.
  eapply okp_impl; [apply (drain_ok q Hbag k h1 (resize 0%nat buffer k)); [auto|apply resize_length]|].
  intros [b hh] HP. cbn [fst okp] in *. intros Hin. eapply Permutation_in in Hin; [|exact HP].
  unfold keysof in Hin. apply in_map_iff in Hin as ([j key] & Ej & Hin). cbn in Ej. subst j.
  apply G in Hin as [Hne _]. congruence.
Qed.

End Zero.
