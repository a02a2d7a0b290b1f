(** Proofs: the law of the whole output of the sampler, and expectations of any function of it. *)
From Verif Require Import Base BaseFacts Arith64 MRandom SRandom PRandom RFacts PReservoir SProb PProb PProb4 PProb5 PProb6 PProb7 PProb8.
From Coq Require Import Permutation Reals Lra Sorted.
Local Open Scope R_scope.

Lemma expects_total {A} n (f : A -> list R -> R) (v : A -> R) l : (forall x, In x l -> expects n (f x) (v x)) ->
  expects n (fun us => total (fun x => f x us) l) (total v l).
Proof.
  induction l as [|x l IH]; intros H; [exact (expects_const n 0)|].
  apply (expects_ext _ _ (fun us => 1 * f x us + 1 * total (fun x => f x us) l)); [intros; unfold total; cbn; ring|].
  replace (total v (x :: l)) with (1 * v x + 1 * total v l) by (unfold total; cbn; ring).
  apply expects_lin; [apply H; now left|apply IH; intros; apply H; now right].
Qed.

Lemma in_arrangements k : forall l s, In s (arrangements k l) <-> length s = k /\ NoDup s /\ incl s l.
Proof.
  induction k as [|k IH]; intros l s; cbn [arrangements].
  - split.
    + intros [<-|[]]. split; [reflexivity|]. split; [constructor|intros ? []].
    + intros (H & _ & _). destruct s; [now left|discriminate].
  - rewrite in_flat_map. split.
    + intros (i & Hi & H). apply in_map_iff in H as (t & <- & H). apply IH in H as (H1 & H2 & H3). split; [cbn; lia|]. split.
      * constructor; auto. intros Hx. apply H3 in Hx. now apply remove_In in Hx.
      * intros y [<-|Hy]; auto. apply H3 in Hy. now apply in_remove in Hy.
    + intros (H1 & H2 & H3). destruct s as [|i t]; [discriminate|]. apply NoDup_cons_iff in H2 as [Ni H2].
      exists i. split; [apply H3; now left|]. apply in_map_iff. exists t. split; auto. apply IH. split; [cbn in H1; lia|]. split; auto.
      intros y Hy. apply in_in_remove; [intros ->; contradiction|]. apply H3. now right.
Qed.
Lemma remove_NoDup i l : NoDup l -> NoDup (remove Nat.eq_dec i l).
Proof.
  induction 1 as [|x t Hx HN IH]; cbn; [constructor|]. destruct (Nat.eq_dec i x); auto. constructor; auto.
  intros H. apply in_remove in H. tauto.
Qed.
Lemma arrangements_NoDup k : forall l, NoDup l -> NoDup (arrangements k l).
Proof.
  induction k as [|k IH]; intros l HN; cbn [arrangements]; [repeat constructor; intros []|].
  assert (G : forall l0, NoDup l0 -> NoDup (flat_map (fun i => map (cons i) (arrangements k (remove Nat.eq_dec i l))) l0)).
  { induction 1 as [|x t Hx HN' IH']; cbn [flat_map]; [constructor|]. apply NoDup_app_intro; auto.
    - apply FinFun.Injective_map_NoDup; [intros a b E; now injection E|]. apply IH. now apply remove_NoDup.
    - intros s H1 H2. apply in_map_iff in H1 as (s1 & <- & _). apply in_flat_map in H2 as (y & Hy & H2).
      apply in_map_iff in H2 as (s2 & E & _). injection E as E _. subst. contradiction. }
  now apply G.
Qed.
Lemma total_same (f : list nat -> R) (x : list nat) l : NoDup l -> In x l -> total (fun s => f s * same x s) l = f x.
Proof.
  induction l as [|y t IH]; intros HN H; [destruct H|]. apply NoDup_cons_iff in HN as [Ny HN].
  change (f y * same x y + total (fun s => f s * same x s) t = f x). unfold same at 1. destruct (list_eq_dec Nat.eq_dec x y) as [<-|NE].
  - assert (Z : forall t, ~ In x t -> total (fun s => f s * same x s) t = 0).
    { clear. induction t as [|y t IH]; intros H; [reflexivity|]. change (f y * same x y + total (fun s => f s * same x s) t = 0).
      rewrite IH by (intros H'; apply H; now right). unfold same. destruct (list_eq_dec Nat.eq_dec x y) as [->|]; [exfalso; apply H; now left|ring]. }
    rewrite Z by auto. ring.
  - destruct H as [->|H]; [congruence|]. rewrite IH by auto. ring.
Qed.

Section All.
Variable q : PQ EA.
Variable w : nat -> R.
Hypothesis Hq : pq_bag q.
Hypothesis Hord : pq_ordered (a:=EA) (fun x : ext => exists r, x = Fin r) q.
Variables k n z : nat.
Hypothesis Hk : (1 <= k <= n)%nat.
Hypothesis Hnn : forall j, (j < n)%nat -> 0 <= w j.
Hypothesis Hpos : forall j, (j < n)%nat -> j <> z -> 0 < w j.
Hypothesis Hfull : (k < n)%nat \/ forall j, (j < n)%nat -> 0 < w j.

Lemma a_res_law L : length L = k -> NoDup L -> (forall i, In i L -> (i < n)%nat) ->
  expects n (fun us => same (rev (a_res q w k n us)) L) (successive w L (wsum w 0 n)).
Proof using All.
  intros H1 H2 H3.
  destruct (Forall_Exists_dec (fun j => 0 < w j) (fun j => Rlt_dec 0 (w j)) L) as [HF|HX].
  - apply (successive_law q w Hq Hord k n z); auto. intros i Hi. eapply List.Forall_forall in HF; eauto.
  - apply Exists_exists in HX as (x & Hx & Wx). pose proof (H3 x Hx) as Xn. assert (Zx : w x = 0) by (pose proof (Hnn x Xn); lra).
    rewrite (successive_zero w x L Hx Zx). apply (expects_ext _ _ (fun _ => 0)); [|apply expects_const].
    intros us HL HU. unfold same. destruct (list_eq_dec Nat.eq_dec (rev (a_res q w k n us)) L) as [E|]; [exfalso|reflexivity].
    destruct Hk as [Hk1 Hk2]. destruct (a_res_top q w Hq Hord k Hk1 us n Hk2 HL) as (A & B & C & D).
    destruct Hfull as [Hlt|HA]; [|specialize (HA x Xn); lra].
    assert (HJ : exists j, (j < n)%nat /\ ~ In j (a_res q w k n us)).
    { destruct (Forall_Exists_dec (fun j => In j (a_res q w k n us)) (fun j => in_dec Nat.eq_dec j _) (seq 0 n)) as [HF|HX].
      - exfalso. assert (I : incl (seq 0 n) (a_res q w k n us)) by (intros j Hj; eapply List.Forall_forall in HF; eauto).
        apply NoDup_incl_length in I; [|apply seq_NoDup]. rewrite seq_length in I. lia.
      - apply Exists_exists in HX as (j & X1 & X2). exists j. apply in_seq in X1. split; auto. lia. }
    destruct HJ as (j & Hj & Nj). assert (Hxo : In x (a_res q w k n us)) by (apply in_rev; rewrite E; exact Hx).
    specialize (D x j Hxo Hj Nj).
    assert (Wj : 0 < w j). { destruct (Nat.eq_dec j z) as [Ej|]; [|auto]. exfalso. apply Nj. replace j with x; auto. rewrite Ej. destruct (Nat.eq_dec x z); auto. specialize (Hpos x Xn n0). lra. }
    rewrite (key_zero w us x Zx), (key_ky w us j Wj) in D. cbn in D. unfold Rleb in D.
    pose proof (ky_pos w us j). destruct (Rle_dec (kf w 0 us j) 0); [lra|discriminate].
Qed.
Lemma a_res_expectation (f : list nat -> R) :
  expects n (fun us => f (a_res q w k n us)) (total (fun L => f (rev L) * successive w L (wsum w 0 n)) (arrangements k (seq 0 n))).
Proof using All.
  apply (expects_ext _ _ (fun us => total (fun L => f (rev L) * same (rev (a_res q w k n us)) L) (arrangements k (seq 0 n)))).
  - intros us HL HU. rewrite (total_same (fun L => f (rev L))).
    + now rewrite rev_involutive.
    + apply arrangements_NoDup, seq_NoDup.
    + destruct Hk as [Hk1 Hk2]. destruct (a_res_top q w Hq Hord k Hk1 us n Hk2 HL) as (A & B & C & D).
      apply in_arrangements. split; [now rewrite rev_length|]. split; [now apply NoDup_rev|]. intros i Hi. apply in_seq. apply in_rev, C in Hi. lia.
  - apply expects_total. intros L HL. apply in_arrangements in HL as (H1 & H2 & H3).
    replace (f (rev L) * successive w L (wsum w 0 n)) with (f (rev L) * successive w L (wsum w 0 n) + 0 * 0) by ring.
    apply (expects_ext _ _ (fun us => f (rev L) * same (rev (a_res q w k n us)) L + 0 * 0)); [intros; ring|].
    apply (expects_lin n (fun us => same (rev (a_res q w k n us)) L) (fun _ => 0)); [|apply expects_const].
    apply a_res_law; auto. intros i Hi. apply H3, in_seq in Hi. lia.
Qed.
End All.
