(** Proofs: the output of A-Res, read from the back, follows the law of successive weighted sampling. *)
From Verif Require Import Base BaseFacts Arith64 MRandom SRandom PRandom RFacts PReservoir SProb PProb PProb5 PProb6 PProb7.
From Coq Require Import Permutation Reals Lra Sorted.
From Coquelicot Require Import Coquelicot.
Local Open Scope R_scope.

Lemma NoDup_app_intro {A} (l1 l2 : list A) : NoDup l1 -> NoDup l2 -> (forall x, In x l1 -> In x l2 -> False) -> NoDup (l1 ++ l2).
Proof.
  induction l1 as [|x l IH]; cbn; intros H1 H2 H; auto. apply NoDup_cons_iff in H1 as [Nx H1]. constructor; [|apply IH; eauto].
  intros Hx. apply in_app_iff in Hx as [Hx|Hx]; eauto.
Qed.
Section Keys.
Variable key : nat -> R.
Lemma orders_ind n : forall l b, length l = n -> NoDup l -> distinct_on key l -> (forall x, In x l -> 0 < key x) ->
  rsum (ind_chain key 0 b) (orders n l) = b2r (all_lt key l b).
Proof using.
  induction n as [|n IH]; intros l b HL HN HD HP; cbn [orders].
  - destruct l; [|discriminate]. cbn. ring.
  - rewrite rsum_flat, (rsum_ext _ (pick key 0 b)).
    + rewrite sel_pick; auto; [|intros x Hx; specialize (HP x Hx); lra].
      assert (E : all_lt key l 0 = false). { destruct l as [|x t]; [discriminate|]. apply all_lt_not. exists x. split; [now left|]. specialize (HP x (or_introl eq_refl)). lra. }
      rewrite E. rewrite andb_true_r. reflexivity.
    + intros [x r] Hx. cbn [fst snd]. pose proof (sel_perm _ _ Hx) as P. cbn [fst snd] in P. rewrite rsum_map.
      assert (HR : length r = n) by (apply Permutation_length in P; cbn in P; lia).
      assert (ND : NoDup (x :: r)) by (eapply Permutation_NoDup; [apply Permutation_sym; exact P|exact HN]).
      apply NoDup_cons_iff in ND as [Nx ND].
      assert (HPr : forall y, In y (x :: r) -> 0 < key y) by (intros y Hy; apply HP; eapply Permutation_in; eauto).
      assert (HDr : distinct_on key r). { intros i j Hi Hj. apply HD; (eapply Permutation_in; [exact P|now right]). }
      rewrite (rsum_ext _ (fun s => (if Rlt_dec (key x) b then 1 else 0) * ind_chain key 0 (key x) s)).
      * rewrite rsum_scal, IH; auto; [|intros y Hy; apply HPr; now right]. unfold pick. cbn [fst snd].
        destruct (Rlt_dec 0 (key x)) as [|C]; [|exfalso; apply C, HPr; now left]. destruct (Rlt_dec (key x) b); ring.
      * intros s _. cbn [ind_chain]. destruct (Rlt_dec 0 (key x)) as [|C]; [|exfalso; apply C, HPr; now left].
        destruct (Rlt_dec (key x) b); ring.
Qed.

Fixpoint lk (b : R) (L : list nat) : R := match L with [] => b | x :: t => lk (key x) t end.
Lemma ind_chain_app a L : forall b s, ind_chain key a b (L ++ s) = ind_chain key a b L * ind_chain key a (lk b L) s.
Proof using.
  induction L as [|x t IH]; intros b s; cbn [app ind_chain lk]; [ring|]. rewrite IH.
  destruct (Rlt_dec a (key x)); [|ring]. destruct (Rlt_dec (key x) b); ring.
Qed.

(** the chain indicator as a proposition *)
Lemma ind_chain_01 a L : forall b, ind_chain key a b L = 1 \/ ind_chain key a b L = 0.
Proof using. induction L as [|x t IH]; intros b; cbn; auto. destruct (Rlt_dec a (key x)); auto. destruct (Rlt_dec (key x) b); auto. Qed.
Lemma ind_chain_true a L : forall b, ind_chain key a b L = 1 <->
  (forall x, In x L -> a < key x < b) /\ StronglySorted (fun i j => key j < key i) L.
Proof using.
  induction L as [|x t IH]; intros b; cbn [ind_chain].
  - split; [intros _; split; [intros x []|constructor]|auto].
  - destruct (Rlt_dec a (key x)) as [L1|L1]; [destruct (Rlt_dec (key x) b) as [L2|L2]|].
    + rewrite IH. split.
      * intros [H1 H2]. split; [intros y [<-|Hy]; [lra|]; specialize (H1 y Hy); lra|]. constructor; auto.
        apply List.Forall_forall. intros y Hy. now apply H1.
      * intros [H1 H2]. inversion H2 as [|? ? H3 H4]; subst. split; auto. intros y Hy. split; [apply H1; now right|].
        eapply List.Forall_forall in H4; eauto.
    + split; [lra|]. intros [H1 _]. specialize (H1 x (or_introl eq_refl)). lra.
    + split; [lra|]. intros [H1 _]. specialize (H1 x (or_introl eq_refl)). lra.
Qed.
Lemma lk_min L : forall b, L <> [] -> StronglySorted (fun i j => key j < key i) L -> (forall x, In x L -> lk b L <= key x) /\ In (lk b L) (map key L).
Proof using.
  induction L as [|x t IH]; intros b HN HS; [congruence|]. inversion HS as [|? ? H3 H4]; subst. cbn [lk].
  destruct t as [|y t].
  - cbn. split; [intros z [<-|[]]; lra|auto].
  - destruct (IH (key x) ltac:(discriminate) H3) as [H1 H2]. split; [|now right].
    intros z [<-|Hz]; [|auto]. specialize (H1 y (or_introl eq_refl)). pose proof (Forall_inv H4). cbn beta in *. lra.
Qed.
(** strictly sorted permutations agree *)
Lemma sorted_unique L : forall L', StronglySorted (fun i j => key j < key i) L -> StronglySorted (fun i j => key j < key i) L' -> Permutation L L' -> L = L'.
Proof using.
  induction L as [|x t IH]; intros [|y t'] H H' P.
  - reflexivity.
  - apply Permutation_length in P. discriminate.
  - apply Permutation_length in P. discriminate.
  - apply StronglySorted_inv in H as [H1 H2]. apply StronglySorted_inv in H' as [H3 H4].
    assert (x = y) as ->.
    { assert (Hx : In x (y :: t')) by (eapply Permutation_in; [exact P|now left]).
      assert (Hy : In y (x :: t)) by (eapply Permutation_in; [apply Permutation_sym; exact P|now left]).
      destruct Hx as [->|Hx]; auto. destruct Hy as [->|Hy]; auto.
      eapply List.Forall_forall in Hx; [|exact H4]. eapply List.Forall_forall in Hy; [|exact H2]. cbn beta in *. lra. }
    f_equal. apply IH; auto. now apply Permutation_cons_inv in P.
Qed.
End Keys.

Section Weights.
Variable w : nat -> R.
Lemma pl_app L : forall s, pl w (L ++ s) = successive w L (wl w (L ++ s)) * pl w s.
Proof using.
  induction L as [|x t IH]; intros s; cbn [app pl successive wl]; [ring|]. rewrite IH.
  replace (w x + wl w (t ++ s) - w x) with (wl w (t ++ s)) by ring. ring.
Qed.
Lemma successive_zero z L : In z L -> w z = 0 -> forall W, successive w L W = 0.
Proof using.
  intros H Hz. induction L as [|x t IH]; intros W; [destruct H|]. cbn [successive]. destruct H as [->|H].
  - rewrite Hz. unfold Rdiv. ring.
  - rewrite (IH H). ring.
Qed.
Lemma wl_app L s : wl w (L ++ s) = wl w L + wl w s.
Proof using. induction L as [|x t IH]; cbn; [ring|]. rewrite IH. ring. Qed.
Lemma wl_seq m : forall i, wl w (seq i m) = wsum w i m.
Proof using. induction m as [|m IH]; intros i; cbn; auto. now rewrite IH. Qed.
Lemma wl_filter l : (forall j, In j l -> 0 <= w j) -> wl w (filter (fun j => if Rlt_dec 0 (w j) then true else false) l) = wl w l.
Proof using.
  induction l as [|x t IH]; intros H; auto. cbn [filter wl]. specialize (IH ltac:(intros; apply H; now right)).
  destruct (Rlt_dec 0 (w x)); cbn [wl]; rewrite IH; auto. pose proof (H x (or_introl eq_refl)). replace (w x) with 0 by lra. ring.
Qed.

(** ** Ties have probability zero *)
Definition noties (us : list R) : Prop := forall i j, (i < j < length us)%nat -> 0 < w i -> 0 < w j -> kap w i (nth i us 0) <> kap w j (nth j us 0).
Lemma expects_off_ties m : forall pre f g v, unit_list pre -> noties pre -> sexpects m g v ->
  (forall us, length us = m -> unit_list us -> noties (pre ++ us) -> f us = g us) -> expects m f v.
Proof using.
  induction m as [|m IH]; intros pre f g v HU HN HE HF.
  - cbn in *. rewrite <- HE. apply HF; auto; [constructor|now rewrite app_nil_r].
  - destruct HE as (h & H1 & H2).
    exists h, (map (fun i => Rpower (kap w i (nth i pre 0)) (w (length pre))) (seq 0 (length pre))). split; auto.
    intros u Hu Nu. apply (IH (pre ++ (u :: nil)) _ (fun us => g (u :: us))).
    + apply Forall_app. split; auto.
    + intros i j Hij Hi Hj. rewrite app_length in Hij. cbn [length] in Hij. destruct (Nat.eq_dec j (length pre)) as [->|Nj].
      * rewrite (app_nth1 pre) by lia. rewrite app_nth2, Nat.sub_diag by lia. cbn [nth]. intros E. apply Nu. apply in_map_iff. exists i. split; [|apply in_seq; lia].
        rewrite E. unfold kap. rewrite Rpower_mult. replace (1 / w (length pre) * w (length pre)) with 1 by (field; lra). apply Rpower_1. lra.
      * rewrite !app_nth1 by lia. apply HN; auto. lia.
    + now apply H1.
    + intros us HL HUs HNT. apply HF; [cbn; lia|constructor; auto|]. rewrite <- app_assoc in HNT. exact HNT.
Qed.
End Weights.

Lemma sorted_rev (RR : nat -> nat -> Prop) l : StronglySorted RR l -> StronglySorted (fun i j => RR j i) (rev l).
Proof.
  induction 1 as [|x t H1 IH H2]; cbn [rev]; [constructor|].
  clear H1. revert H2. induction (rev t) as [|y r IHr] eqn:E in t, IH |- *; intros H2; cbn [app]; [repeat constructor|].
  inversion IH as [|? ? H3 H4]; subst. constructor.
  - apply (IHr (rev r)); [now rewrite rev_involutive|exact H3|].
    apply List.Forall_forall. intros a Ha. eapply List.Forall_forall in H2; [exact H2|]. apply in_rev. rewrite E. right. now apply in_rev.
  - apply Forall_app. split; auto. constructor; [|constructor]. eapply List.Forall_forall in H2; [exact H2|]. apply in_rev. rewrite E. now left.
Qed.
Lemma sorted_impl (RR QQ : nat -> nat -> Prop) l : NoDup l -> (forall i j, In i l -> In j l -> i <> j -> RR i j -> QQ i j) -> StronglySorted RR l -> StronglySorted QQ l.
Proof.
  intros HN HI H. induction H as [|x t H1 IH H2]; [constructor|]. apply NoDup_cons_iff in HN as [Nx HN]. constructor.
  - apply IH; auto. intros i j Hi Hj. apply HI; now right.
  - apply List.Forall_forall. intros y Hy. eapply List.Forall_forall in H2; [|exact Hy]. apply HI; auto; [now left|now right|]. intros ->. contradiction.
Qed.


Section Final.
Variable q : PQ EA.
Variable w : nat -> R.
Hypothesis Hq : pq_bag q.
Hypothesis Hord : pq_ordered (a:=EA) (fun x : ext => exists r, x = Fin r) q.
Variables k n z : nat.
Hypothesis Hk : (1 <= k <= n)%nat.
Hypothesis Hnn : forall j, (j < n)%nat -> 0 <= w j.
Hypothesis Hpos : forall j, (j < n)%nat -> j <> z -> 0 < w j.
Variable L : list nat.
Hypothesis HLk : length L = k.
Hypothesis HLn : NoDup L.
Hypothesis HLr : forall i, In i L -> (i < n)%nat.
Hypothesis HLp : forall i, In i L -> 0 < w i.

Definition rest : list nat :=
  filter (fun j => if in_dec Nat.eq_dec j L then false else true) (filter (fun j => if Rlt_dec 0 (w j) then true else false) (seq 0 n)).
Lemma in_rest j : In j rest <-> (j < n)%nat /\ 0 < w j /\ ~ In j L.
Proof using HLk Hk L k n w.
  unfold rest. rewrite !filter_In, in_seq. destruct (in_dec Nat.eq_dec j L), (Rlt_dec 0 (w j)); intuition (try discriminate; try lia).
Qed.
Lemma rest_perm : Permutation (L ++ rest) (filter (fun j => if Rlt_dec 0 (w j) then true else false) (seq 0 n)).
Proof using HLk HLn HLp HLr Hk L k n w.
  apply NoDup_Permutation.
  - apply NoDup_app_intro; auto; [unfold rest; do 2 apply NoDup_filter; apply seq_NoDup|]. intros x Hx Hr. apply in_rest in Hr. tauto.
  - apply NoDup_filter, seq_NoDup.
  - intros x. rewrite in_app_iff, in_rest, filter_In, in_seq. specialize (HLr x). specialize (HLp x).
    destruct (Rlt_dec 0 (w x)), (in_dec Nat.eq_dec x L); intuition (try discriminate; try lia; try lra).
Qed.

Section Us.
Variable us : list R.
Hypothesis HUl : length us = n.
Hypothesis HU : unit_list us.
Hypothesis HNT : noties w us.
Notation ky := (kf w 0 us).
Lemma ky_pos j : 0 < ky j.
Proof using. apply exp_pos. Qed.
Lemma ky_lt1 j : (j < n)%nat -> 0 < w j -> ky j < 1.
Proof using HLk HU HUl Hk L k n us w.
  intros Hj Hw. unfold kf, kap. rewrite Nat.sub_0_r. apply Rpower_lt1; [|apply Rdiv_lt_0_compat; lra].
  eapply List.Forall_forall in HU; [exact HU|]. apply nth_In. lia.
Qed.
Lemma ky_distinct i j : (i < n)%nat -> (j < n)%nat -> 0 < w i -> 0 < w j -> i <> j -> ky i <> ky j.
Proof using HLk HNT HUl Hk L k n us w.
  intros Hi Hj Wi Wj Hne. unfold kf. rewrite !Nat.sub_0_r. destruct (Nat.lt_ge_cases i j).
  - apply HNT; auto. lia.
  - apply not_eq_sym. apply HNT; auto. lia.
Qed.
Lemma key_ky j : 0 < w j -> key w us j = Fin (ky j).
Proof using. intros H. unfold key, res_key, kf, kap. rewrite Nat.sub_0_r. destruct (Req_EM_T (w j) 0); [lra|reflexivity]. Qed.
Lemma key_le i j : 0 < w i -> 0 < w j -> eleb (key w us i) (key w us j) = true -> ky i <= ky j.
Proof using. intros Hi Hj. rewrite !key_ky by auto. cbn. unfold Rleb. destruct (Rle_dec (ky i) (ky j)); [auto|discriminate]. Qed.
Lemma key_zero j : w j = 0 -> key w us j = Fin 0.
Proof using. intros H. unfold key, res_key. destruct (Req_EM_T (w j) 0); [reflexivity|lra]. Qed.

Lemma same_chain : same (rev (a_res q w k n us)) L = ind_chain ky 0 1 L * b2r (all_lt ky rest (lk ky 1 L)).
Proof using All.
  destruct Hk as [Hk1 Hk2].
  destruct (a_res_top q w Hq Hord k Hk1 us n Hk2 HUl) as (A & B & C & D).
  pose proof (a_res_sorted q w Hq Hord k Hk1 us n Hk2 HUl) as HS. set (out := a_res q w k n us) in *.
  assert (HLne : L <> []) by (intros E; rewrite E in HLk; cbn in HLk; lia).
  assert (Hout : (forall i, In i out -> 0 < w i) -> StronglySorted (fun i j => ky j < ky i) (rev out)).
  { intros Hp. apply sorted_rev with (RR := fun i j => ky i < ky j). revert HS. apply sorted_impl; auto.
    intros i j Hi Hj Hne H. apply key_le in H; auto. assert (ky i <> ky j) by (apply ky_distinct; auto). lra. }
  unfold same. destruct (list_eq_dec Nat.eq_dec (rev out) L) as [E|NE].
  - assert (Hio : forall i, In i L <-> In i out) by (intros i; rewrite <- E; symmetry; apply in_rev).
    assert (HSL : StronglySorted (fun i j => ky j < ky i) L) by (rewrite <- E; apply Hout; auto; intros i Hi; apply HLp, Hio; auto).
    replace (ind_chain ky 0 1 L) with 1.
    2:{ symmetry. apply ind_chain_true. split; auto. intros x Hx. split; [apply ky_pos|apply ky_lt1; auto]. }
    destruct (all_lt ky rest (lk ky 1 L)) eqn:EA; cbn; [ring|]. exfalso. apply all_lt_not in EA as (x & Hx & EA). apply in_rest in Hx as (X1 & X2 & X3).
    destruct (lk_min ky L 1 HLne HSL) as [_ Hl]. apply in_map_iff in Hl as (y & Ey & Hy).
    assert (ky x <= ky y). { apply key_le; auto. apply D; [now apply Hio|auto|]. now rewrite <- Hio. }
    assert (ky x <> ky y) by (apply ky_distinct; auto; intros ->; contradiction). lra.
  - destruct (ind_chain_01 ky 0 L 1) as [E1|E1]; rewrite E1; [|ring].
    destruct (all_lt ky rest (lk ky 1 L)) eqn:EA; cbn; [|ring]. exfalso. apply NE. rewrite all_lt_spec in EA.
    apply ind_chain_true in E1 as [H1 H2]. destruct (lk_min ky L 1 HLne H2) as [Hmin _].
    assert (Hsub : incl out L).
    { intros i Hi. destruct (in_dec Nat.eq_dec i L) as [|Ni]; auto. exfalso.
      assert (HJ : exists j, In j L /\ ~ In j out).
      { destruct (Forall_Exists_dec (fun j => In j out) (fun j => in_dec Nat.eq_dec j out) L) as [HF|HX].
        - exfalso. assert (I : incl L out) by (intros j Hj; eapply List.Forall_forall in HF; eauto).
          apply Ni. apply (NoDup_length_incl HLn (l' := out)); auto. lia.
        - apply Exists_exists in HX as (j & X1 & X2). eauto. }
      destruct HJ as (j & Hj & Nj). specialize (D i j Hi (HLr j Hj) Nj).
      destruct (Rlt_dec 0 (w i)) as [Wi|Wi].
      - apply key_le in D; auto. assert (ky i < lk ky 1 L) by (apply EA, in_rest; auto). specialize (Hmin j Hj). lra.
      - assert (w i = 0) by (pose proof (Hnn i (C i Hi)); lra). rewrite (key_zero i) in D by auto. rewrite (key_ky j) in D by auto. cbn in D. unfold Rleb in D.
        pose proof (ky_pos j). destruct (Rle_dec (ky j) 0); [lra|discriminate]. }
    assert (P : Permutation out L). { apply NoDup_Permutation_bis; auto. lia. }
    apply (sorted_unique ky); auto.
    eapply Permutation_trans; [apply Permutation_sym, Permutation_rev|exact P].
Qed.
End Us.

Lemma successive_law : expects n (fun us => same (rev (a_res q w k n us)) L) (successive w L (wsum w 0 n)).
Proof using All.
  assert (HR : NoDup rest) by (unfold rest; do 2 apply NoDup_filter; apply seq_NoDup).
  assert (HW : forall s, Permutation s rest -> wl w (L ++ s) = wsum w 0 n).
  { intros s P. rewrite <- wl_seq, <- (wl_filter w (seq 0 n)). 2:{ intros j Hj. apply in_seq in Hj. apply Hnn. lia. }
    apply wl_perm. eapply Permutation_trans; [apply Permutation_app_head; exact P|apply rest_perm]. }
  apply (expects_off_ties w n [] _ (fun us => rsum (fun s => ind_chain (kf w 0 us) 0 1 (L ++ s)) (orders (length rest) rest))).
  - constructor.
  - intros i j Hij. cbn in Hij. lia.
  - assert (EV : rsum (fun s => pl w (L ++ s)) (orders (length rest) rest) = successive w L (wsum w 0 n)).
    { rewrite (rsum_ext _ (fun s => successive w L (wsum w 0 n) * pl w s)).
      - rewrite rsum_scal, orders_sum; auto; [ring|]. apply List.Forall_forall. intros j Hj. now apply in_rest in Hj.
      - intros s Hs. rewrite pl_app, HW; auto. eapply orders_perm; eauto. }
    rewrite <- EV. apply sexpects_rsum. intros s Hs. apply orders_perm in Hs; auto. apply order_law.
    + apply NoDup_app_intro; auto; [eapply Permutation_NoDup; [apply Permutation_sym; exact Hs|auto]|].
      intros x Hx Hr. eapply Permutation_in in Hr; [|exact Hs]. apply in_rest in Hr. tauto.
    + intros j Hj. apply in_app_iff in Hj as [Hj|Hj]; [split; auto|]. eapply Permutation_in in Hj; [|exact Hs]. apply in_rest in Hj. tauto.
  - intros us HUl HU HNT. cbn [app] in HNT. rewrite same_chain; auto.
    rewrite <- (orders_ind (kf w 0 us) (length rest) rest (lk (kf w 0 us) 1 L)); auto.
    + rewrite <- rsum_scal. apply rsum_ext. intros s _. symmetry. apply ind_chain_app.
    + intros i j Hi Hj Hne. apply in_rest in Hi, Hj. apply (ky_distinct us); tauto.
    + intros x _. apply ky_pos.
Qed.
End Final.
