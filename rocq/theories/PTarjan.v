(** Proofs about [MTarjan]. *)
From Verif Require Import Base BaseFacts MNetwork MTarjan STarjan.
From Coq Require Import Permutation Sorting.Sorted.

Lemma reach_trans adj u v w : reach adj u v -> reach adj v w -> reach adj u w.
Proof. induction 1; auto. intros. econstructor; eauto. Qed.

Lemma reach_one adj u w : edge adj u w -> reach adj u w.
Proof. intros. econstructor; eauto. constructor. Qed.

Section Tarjan.
Variable adj : list (list nat).
Hypothesis Hadj : adj_ok adj.
Notation n := (length adj).

Definition vis (st : tarjan) u := nth u (visited st) false = true.
Definition prc (st : tarjan) u := nth u (processed st) false = true.
Definition nm (st : tarjan) u := nth u (num st) 0.
Definition lw (st : tarjan) u := nth u (lowest st) 0.
Arguments vis : simpl never.
Arguments prc : simpl never.
Arguments nm : simpl never.
Arguments lw : simpl never.
Definition gray st u := vis st u /\ ~ prc st u.

Lemma vis_dec st u : {vis st u} + {~ vis st u}.
Proof. unfold vis. destruct (nth u (visited st) false); [left|right]; auto. Qed.

Record Inv (st : tarjan) : Prop := {
  i_num : length (num st) = n;
  i_low : length (lowest st) = n;
  i_vis : length (visited st) = n;
  i_prc : length (processed st) = n;
  i_nd : NoDup (stk st ++ concat (scc_list st));
  i_all : forall u, vis st u <-> In u (stk st ++ concat (scc_list st));
  i_pv : forall u, prc st u -> vis st u;
  i_gray : forall u, gray st u -> In u (stk st);
  i_idx : forall u, vis st u -> nm st u < index_counter st;
  i_sorted : StronglySorted (fun a b => nm st b < nm st a) (stk st);
  i_scc : Forall (mutually_reachable adj) (scc_list st);
  i_ne : Forall (fun c => c <> []) (scc_list st)
}.

Lemma vis_lt st u : Inv st -> vis st u -> u < n.
Proof.
  intros I H. rewrite <- (i_vis _ I). destruct (Nat.lt_ge_cases u (length (visited st))); auto.
  unfold vis in H. rewrite nth_overflow in H by auto. discriminate.
Qed.

Record Post (st : tarjan) (v : nat) (s : tarjan) : Prop := {
  p_inv : Inv s;
  p_idx : index_counter st <= index_counter s;
  p_frame : forall u, vis st u -> vis s u /\ nm s u = nm st u /\ lw s u = lw st u /\ (prc s u <-> prc st u);
  p_v : vis s v;
  p_new : forall u, vis s u -> ~ vis st u -> prc s u /\ reach adj v u /\ index_counter st <= nm s u;
  p_clo : forall u w, vis s u -> ~ vis st u -> edge adj u w -> vis s w;
  p_seg : exists seg, stk s = seg ++ stk st /\ (lw s v = nm s v -> seg = []) /\
     (forall w, In w seg -> ~ vis st w /\
        exists x, reach adj w x /\ In x (stk s) /\ nm s x < nm s w /\ lw s v <= nm s x);
  p_low : lw s v = nm s v \/ exists x, gray st x /\ nm st x = lw s v /\ reach adj v x;
  p_back : forall p, edge adj v p -> p <> v -> gray st p -> lw s v <= nm st p;
  p_nv : nm s v = index_counter st;
  p_sym : symmetric adj ->
     (lw s v < nm s v /\ scc_list s = scc_list st) \/
     (lw s v = nm s v /\ exists c, scc_list s = scc_list st ++ [c])
}.

(** Invariant of the neighbour loop of v; [st1] is the state after [enter]. *)
Record LI (st st1 : tarjan) (v : nat) (pre : list nat) (s : tarjan) : Prop := {
  l_inv : Inv s;
  l_idx : index_counter st1 <= index_counter s;
  l_frame : forall u, vis st1 u -> vis s u /\ nm s u = nm st1 u /\ (u <> v -> lw s u = lw st1 u) /\ (prc s u <-> prc st1 u);
  l_new : forall u, vis s u -> ~ vis st1 u -> prc s u /\ reach adj v u /\ index_counter st1 <= nm s u;
  l_clo : forall u w, vis s u -> ~ vis st1 u -> edge adj u w -> vis s w;
  l_seg : exists seg, stk s = seg ++ v :: stk st /\
     (forall w, In w seg -> ~ vis st1 w /\
        exists x, reach adj w x /\ In x (stk s) /\ nm s x < nm s w /\ lw s v <= nm s x);
  l_low : lw s v = nm s v \/ exists x, gray st x /\ nm st x = lw s v /\ reach adj v x;
  l_le : lw s v <= nm s v;
  l_pre : forall u, In u pre -> vis s u;
  l_back : forall p, In p pre -> p <> v -> gray st p -> lw s v <= nm st p;
  l_sym : symmetric adj -> scc_list s = scc_list st
}.

Definition unv (st : tarjan) : nat := length (filter negb (visited st)).

Lemma filter_len_mono (l l' : list bool) : length l = length l' ->
  (forall i, nth i l false = true -> nth i l' false = true) ->
  length (filter negb l') <= length (filter negb l).
Proof.
  revert l'; induction l as [|a l IH]; intros [|b l'] HL H; cbn in *; try discriminate; auto.
  assert (IH' : length (filter negb l') <= length (filter negb l)).
  { apply IH; [lia|]. intros i Hi. apply (H (S i)). exact Hi. }
  specialize (H 0). cbn in H. destruct a, b; cbn in *; try lia; try (discriminate H; auto).
Qed.

Lemma filter_len_upd (l : list bool) v : v < length l -> nth v l false = false ->
  S (length (filter negb (upd l v true))) = length (filter negb l).
Proof.
  revert v; induction l as [|a l IH]; intros [|v] Hv H; cbn in *; try lia.
  - subst a. reflexivity.
  - specialize (IH v). destruct a; cbn; rewrite <- IH; auto; lia.
Qed.

Lemma unv_mono st s : Inv st -> Inv s -> (forall u, vis st u -> vis s u) -> unv s <= unv st.
Proof.
  intros I I' H. apply filter_len_mono; [|exact H].
  rewrite (i_vis _ I). symmetry. apply I'.
Qed.

Definition entered (st : tarjan) v : tarjan :=
  mkT (upd (num st) v (index_counter st)) (upd (lowest st) v (index_counter st))
      (upd (visited st) v true) (processed st) (v :: stk st) (S (index_counter st)) (scc_list st).

Lemma enter_eq st v : Inv st -> v < n -> enter st v = Ok (entered st v).
Proof.
  intros I Hv. unfold enter. rewrite vset_ok by (rewrite (i_num _ I); auto). cbn [bind].
  rewrite vset_ok by (rewrite (i_low _ I); auto). cbn [bind].
  rewrite vset_ok by (rewrite (i_vis _ I); auto). reflexivity.
Qed.

Lemma entered_vis st v u : Inv st -> v < n -> vis (entered st v) u <-> u = v \/ vis st u.
Proof.
  intros I Hv. unfold vis. cbn. destruct (Nat.eq_dec v u) as [<-|Hne].
  - rewrite nth_upd_eq by (rewrite (i_vis _ I); auto). tauto.
  - rewrite nth_upd_neq by auto. split; auto. intros [E|E]; auto; congruence.
Qed.

Lemma entered_nm st v u : Inv st -> v < n -> nm (entered st v) u = if v =? u then index_counter st else nm st u.
Proof.
  intros I Hv. unfold nm. cbn. rewrite nth_upd. rewrite (i_num _ I).
  apply Nat.ltb_lt in Hv. rewrite Hv. now rewrite andb_true_r.
Qed.

Lemma entered_lw st v u : Inv st -> v < n -> lw (entered st v) u = if v =? u then index_counter st else lw st u.
Proof.
  intros I Hv. unfold lw. cbn. rewrite nth_upd. rewrite (i_low _ I).
  apply Nat.ltb_lt in Hv. rewrite Hv. now rewrite andb_true_r.
Qed.

Lemma StronglySorted_ext X (R R' : X -> X -> Prop) l :
  (forall a b, In a l -> In b l -> R a b -> R' a b) -> StronglySorted R l -> StronglySorted R' l.
Proof.
  intros H Hs. induction Hs as [|a l Hs IH Ha]; constructor.
  - apply IH. intros; apply H; cbn; auto.
  - rewrite Forall_forall in *. intros b Hb. apply H; cbn; auto.
Qed.

Lemma entered_inv st v : Inv st -> v < n -> ~ vis st v -> Inv (entered st v).
Proof.
  intros I Hv Hnv. constructor; cbn; try rewrite upd_length; try apply I.
  - constructor; [|apply I]. intros Hin. apply Hnv. now apply (i_all _ I).
  - intros u. rewrite entered_vis by auto. rewrite (i_all _ I). split; intros [E|E]; auto.
  - intros u Hu. apply entered_vis; auto. right. apply (i_pv _ I). exact Hu.
  - intros u [Hu Hp]. apply entered_vis in Hu as [->|Hu]; auto. right. apply (i_gray _ I). split; auto.
  - intros u Hu. rewrite entered_nm by auto. destruct (Nat.eqb_spec v u); [lia|].
    apply entered_vis in Hu as [->|Hu]; auto; [congruence|]. apply (i_idx _ I) in Hu. lia.
  - constructor.
    + eapply StronglySorted_ext; [|apply (i_sorted _ I)]. intros a b Ha Hb.
      rewrite !entered_nm by auto.
      assert (vis st a) by (apply (i_all _ I), in_or_app; auto).
      assert (vis st b) by (apply (i_all _ I), in_or_app; auto).
      destruct (Nat.eqb_spec v a); [subst; tauto|]. destruct (Nat.eqb_spec v b); [subst; tauto|]. auto.
    + apply Forall_forall. intros b Hb. rewrite !entered_nm by auto. rewrite Nat.eqb_refl.
      assert (vis st b) by (apply (i_all _ I), in_or_app; auto).
      destruct (Nat.eqb_spec v b); [subst; tauto|]. now apply (i_idx _ I).
Qed.

Lemma entered_LI st v : Inv st -> v < n -> ~ vis st v -> LI st (entered st v) v [] (entered st v).
Proof.
  intros I Hv Hnv. pose proof (entered_inv st v I Hv Hnv) as I1.
  constructor; auto.
  - intros u Hu. tauto.
  - intros u Hu Hn. tauto.
  - intros u w Hu Hn. tauto.
  - exists []. split; auto. intros w [].
  - left. rewrite entered_lw, entered_nm by auto. now rewrite Nat.eqb_refl.
  - rewrite entered_lw, entered_nm by auto. rewrite Nat.eqb_refl. lia.
  - intros u [].
  - intros u [].
Qed.

Definition lowered (s : tarjan) v x : tarjan :=
  mkT (num s) (upd (lowest s) v (Nat.min (lw s v) x)) (visited s) (processed s) (stk s) (index_counter s) (scc_list s).

Lemma lower_eq s v x : Inv s -> v < n -> lower s v x = Ok (lowered s v x).
Proof.
  intros I Hv. unfold lower. rewrite (vget_lt _ _ _ 0) by (rewrite (i_low _ I); auto). cbn [bind].
  rewrite vset_ok by (rewrite (i_low _ I); auto). reflexivity.
Qed.

Lemma lowered_inv s v x : Inv s -> Inv (lowered s v x).
Proof. intros I. constructor; cbn; try rewrite upd_length; apply I. Qed.

Lemma lowered_lw s v x u : Inv s -> v < n ->
  lw (lowered s v x) u = if v =? u then Nat.min (lw s v) x else lw s u.
Proof.
  intros I Hv. unfold lw at 1. cbn. rewrite nth_upd. rewrite (i_low _ I).
  apply Nat.ltb_lt in Hv. rewrite Hv. now rewrite andb_true_r.
Qed.

(** Lowering [lowest[v]] to the number of a vertex that is gray before [enter] or not below the
    current one keeps the loop invariant. *)
Lemma LI_lower st st1 v pre s x : LI st st1 v pre s -> v < n ->
  (nm s v <= x \/ exists y, gray st y /\ nm st y = x /\ reach adj v y) ->
  LI st st1 v pre (lowered s v x).
Proof.
  intros L Hv Hx. destruct L as [LI0 Li Lf Ln Lc Ls Ll Lle Lp Lb Lsy].
  assert (E : lw (lowered s v x) v = Nat.min (lw s v) x)
    by (rewrite lowered_lw by auto; now rewrite Nat.eqb_refl).
  constructor; auto.
  - now apply lowered_inv.
  - intros u Hu. destruct (Lf u Hu) as (F1 & F2 & F3 & F4). repeat split; auto; try apply F4.
    intros Hne. rewrite lowered_lw by auto. destruct (Nat.eqb_spec v u); [congruence|auto].
  - destruct Ls as (seg & Es & Hs). exists seg. split; auto. intros w Hw.
    destruct (Hs w Hw) as (H1 & y & H2 & H3 & H4 & H5). split; auto. exists y. repeat split; auto.
    rewrite E. change (nm (lowered s v x) y) with (nm s y). lia.
  - rewrite E. change (nm (lowered s v x) v) with (nm s v).
    destruct (Nat.min_spec (lw s v) x) as [[Hm ->]|[Hm ->]]; auto.
    destruct Hx as [Hx|Hx]; [left; lia|right; exact Hx].
  - rewrite E. change (nm (lowered s v x) v) with (nm s v). lia.
  - intros p Hp Hne Hg. rewrite E. specialize (Lb p Hp Hne Hg). lia.
Qed.

Lemma LI_snoc st st1 v pre s u : LI st st1 v pre s -> vis s u ->
  (u <> v -> gray st u -> lw s v <= nm st u) -> LI st st1 v (pre ++ [u]) s.
Proof.
  intros L Hu Hb. destruct L. constructor; auto.
  - intros w Hw. apply in_app_or in Hw as [Hw|[<-|[]]]; auto.
  - intros w Hw Hne Hg. apply in_app_or in Hw as [Hw|[<-|[]]]; auto.
Qed.

(** The result of a recursive call extends the loop invariant. *)
Lemma LI_child st v pre s u s' :
  Inv st -> v < n -> ~ vis st v ->
  LI st (entered st v) v pre s -> edge adj v u -> ~ vis s u -> Post s u s' ->
  LI st (entered st v) v (pre ++ [u]) (lowered s' v (lw s' u)).
Proof.
  intros I Hv Hnv L Huv Hnu P.
  set (st1 := entered st v) in *.
  assert (V1 : vis st1 v) by (apply entered_vis; auto).
  assert (Vs : vis s v) by (apply (l_frame _ _ _ _ _ L); auto).
  assert (Hgv : gray s v).
  { split; auto. destruct (l_frame _ _ _ _ _ L v V1) as (_ & _ & _ & F). intros Hp. apply F in Hp.
    apply Hnv. apply (i_pv _ I). exact Hp. }
  destruct (p_frame _ _ _ P v Vs) as (Vs' & Env & Elv & Epv).
  assert (Nv : nm s v = index_counter st).
  { destruct (l_frame _ _ _ _ _ L v V1) as (_ & -> & _). unfold st1. rewrite entered_nm by auto.
    now rewrite Nat.eqb_refl. }
  assert (Elow : lw (lowered s' v (lw s' u)) v = Nat.min (lw s' v) (lw s' u)).
  { rewrite lowered_lw by (try apply P; auto). now rewrite Nat.eqb_refl. }
  assert (Hgst : forall x, gray s x -> x = v \/ gray st x).
  { intros x [Gx Gp]. destruct (vis_dec st1 x) as [Hx|Hx].
    - apply entered_vis in Hx as [->|Hx]; auto. right. split; auto.
      intros Hp. apply Gp. apply (l_frame _ _ _ _ _ L).
      + apply entered_vis; auto.
      + exact Hp.
    - exfalso. apply Gp. now apply (l_new _ _ _ _ _ L). }
  assert (Hgnm : forall x, gray st x -> nm s x = nm st x).
  { intros x Hx. destruct (l_frame _ _ _ _ _ L x) as (_ & E & _).
    - apply entered_vis; auto. right. apply Hx.
    - rewrite E. unfold st1. rewrite entered_nm by auto. destruct (Nat.eqb_spec v x); auto.
      subst. exfalso. apply Hnv. apply Hx. }
  constructor.
  - apply lowered_inv, P.
  - cbn. pose proof (p_idx _ _ _ P). pose proof (l_idx _ _ _ _ _ L). unfold st1 in *. cbn in *. lia.
  - intros x Hx. destruct (l_frame _ _ _ _ _ L x Hx) as (F1 & F2 & F3 & F4).
    destruct (p_frame _ _ _ P x F1) as (G1 & G2 & G3 & G4).
    split; [exact G1|]. split; [change (nm s' x = nm st1 x); congruence|]. split.
    + intros Hne. rewrite lowered_lw by (try apply P; auto). destruct (Nat.eqb_spec v x); [congruence|].
      rewrite G3. auto.
    + change (prc s' x <-> prc st1 x). tauto.
  - intros x Hx Hnx. change (vis s' x) in Hx. change (prc s' x /\ reach adj v x /\ index_counter st1 <= nm s' x).
    destruct (vis_dec s x) as [Hsx|Hsx].
    + destruct (l_new _ _ _ _ _ L x Hsx Hnx) as (A1 & A2 & A3).
      destruct (p_frame _ _ _ P x Hsx) as (G1 & G2 & G3 & G4).
      rewrite G2. tauto.
    + destruct (p_new _ _ _ P x Hx Hsx) as (A1 & A2 & A3). split; auto. split.
      * econstructor; eauto.
      * pose proof (l_idx _ _ _ _ _ L). lia.
  - intros x w Hx Hnx Hw. change (vis s' x) in Hx. change (vis s' w).
    destruct (vis_dec s x) as [Hsx|Hsx].
    + apply (p_frame _ _ _ P). eapply (l_clo _ _ _ _ _ L); eauto.
    + eapply (p_clo _ _ _ P); eauto.
  - destruct (l_seg _ _ _ _ _ L) as (seg & Es & Hs).
    destruct (p_seg _ _ _ P) as (seg' & Es' & _ & Hs').
    exists (seg' ++ seg). split; [cbn; rewrite Es', Es; now rewrite app_assoc|].
    intros w Hw. rewrite Elow. change (nm (lowered s' v (lw s' u))) with (nm s').
    change (stk (lowered s' v (lw s' u))) with (stk s').
    apply in_app_or in Hw as [Hw|Hw].
    + destruct (Hs' w Hw) as (H1 & x & H2 & H3 & H4 & H5). split.
      * intros Hc. apply H1. now apply (l_frame _ _ _ _ _ L).
      * exists x. repeat split; auto. lia.
    + destruct (Hs w Hw) as (H1 & x & H2 & H3 & H4 & H5). split; auto.
      exists x.
      assert (vis s x) by (apply (i_all _ (l_inv _ _ _ _ _ L)), in_or_app; auto).
      assert (vis s w).
      { apply (i_all _ (l_inv _ _ _ _ _ L)), in_or_app. left. rewrite Es. apply in_or_app; auto. }
      destruct (p_frame _ _ _ P x H) as (_ & -> & _).
      destruct (p_frame _ _ _ P w H0) as (_ & -> & _).
      repeat split; auto; [rewrite Es'; apply in_or_app; auto|lia].
  - rewrite Elow. change (nm (lowered s' v (lw s' u)) v) with (nm s' v).
    destruct (Nat.min_spec (lw s' v) (lw s' u)) as [[Hm ->]|[Hm ->]].
    + rewrite Elv, Env. apply L.
    + destruct (p_low _ _ _ P) as [E|(x & Gx & Ex & Rx)].
      * (* u is the root of its own component: its number exceeds that of v *)
        exfalso. rewrite E, (p_nv _ _ _ P) in Hm.
        pose proof (l_idx _ _ _ _ _ L). pose proof (l_le _ _ _ _ _ L). unfold st1 in *. cbn in *.
        rewrite Elv in Hm. lia.
      * destruct (Hgst x Gx) as [->|Gx'].
        -- left. rewrite <- Ex. symmetry. apply (p_frame _ _ _ P). auto.
        -- right. exists x. split; auto. split; [rewrite <- Ex; symmetry; auto|].
           econstructor; eauto.
  - rewrite Elow. change (nm (lowered s' v (lw s' u)) v) with (nm s' v).
    rewrite Elv, Env. pose proof (l_le _ _ _ _ _ L). lia.
  - intros x Hx. change (vis s' x). apply in_app_or in Hx as [Hx|[<-|[]]].
    + apply (p_frame _ _ _ P). now apply (l_pre _ _ _ _ _ L).
    + exact (p_v _ _ _ P).
  - intros p Hp Hne Hg. rewrite Elow. apply in_app_or in Hp as [Hp|[<-|[]]].
    + pose proof (l_back _ _ _ _ _ L p Hp Hne Hg). rewrite Elv. lia.
    + exfalso. apply Hnu. apply (l_frame _ _ _ _ _ L). apply entered_vis; auto. right. apply Hg.
  - intros Hsym. cbn. rewrite <- (l_sym _ _ _ _ _ L Hsym).
    destruct (p_sym _ _ _ P Hsym) as [[_ E]|[E _]]; auto.
    exfalso. assert (Hne : v <> u) by (intros ->; apply Hnu; auto).
    pose proof (p_back _ _ _ P v (Hsym _ _ Huv) Hne Hgv) as Hb.
    rewrite E, (p_nv _ _ _ P), Nv in Hb. pose proof (l_idx _ _ _ _ _ L). unfold st1 in *. cbn in *. lia.
Qed.

Lemma pop_until_seg v seg rest acc :
  ~ In v seg -> pop_until v (seg ++ v :: rest) acc = Ok (acc ++ seg ++ [v], rest).
Proof.
  revert acc; induction seg as [|x seg IH]; intros acc Hv; cbn.
  - now rewrite Nat.eqb_refl.
  - destruct (Nat.eqb_spec x v) as [->|Hne]; [exfalso; apply Hv; cbn; auto|].
    rewrite IH by (cbn in Hv; tauto). now rewrite <- app_assoc.
Qed.

Lemma prc_upd (s : tarjan) pr v u : length (processed s) = n -> v < n -> pr = upd (processed s) v true ->
  (nth u pr false = true <-> u = v \/ prc s u).
Proof.
  intros HL Hv ->. unfold prc. destruct (Nat.eq_dec v u) as [<-|Hne].
  - rewrite nth_upd_eq by lia. tauto.
  - rewrite nth_upd_neq by auto. split; auto. intros [E|E]; auto; congruence.
Qed.

Lemma leave_post st v av s : Inv st -> v < n -> ~ vis st v ->
  av = nth v adj [] ->
  LI st (entered st v) v av s -> okp (leave s v) (Post st v).
Proof.
  intros I Hv Hnv Eav L. set (st1 := entered st v) in *.
  pose proof (l_inv _ _ _ _ _ L) as Is.
  assert (V1 : vis st1 v) by (apply entered_vis; auto).
  assert (Vs : vis s v) by (apply (l_frame _ _ _ _ _ L); auto).
  assert (Nv : nm s v = index_counter st).
  { destruct (l_frame _ _ _ _ _ L v V1) as (_ & -> & _). unfold st1. rewrite entered_nm by auto.
    now rewrite Nat.eqb_refl. }
  unfold leave. rewrite vset_ok by (rewrite (i_prc _ Is); auto). cbn [bind].
  rewrite (vget_lt _ _ _ 0) by (rewrite (i_low _ Is); auto). cbn [bind].
  rewrite (vget_lt _ _ _ 0) by (rewrite (i_num _ Is); auto). cbn [bind].
  fold (lw s v) (nm s v).
  set (pr := upd (processed s) v true).
  assert (Hpr : forall u, nth u pr false = true <-> u = v \/ prc s u).
  { intros u. apply (prc_upd s); auto. apply Is. }
  assert (Hfr : forall u, vis st u -> vis s u /\ nm s u = nm st u /\ lw s u = lw st u /\ (nth u pr false = true <-> prc st u)).
  { intros u Hu. assert (Hu1 : vis st1 u) by (apply entered_vis; auto).
    assert (Hne : u <> v) by (intros ->; tauto).
    destruct (l_frame _ _ _ _ _ L u Hu1) as (F1 & F2 & F3 & F4). split; auto.
    split; [rewrite F2; unfold st1; rewrite entered_nm by auto; destruct (Nat.eqb_spec v u); congruence|].
    split; [rewrite F3 by auto; unfold st1; rewrite entered_lw by auto; destruct (Nat.eqb_spec v u); congruence|].
    rewrite Hpr, F4. unfold prc, st1. cbn. split; [intros [?|?]; [congruence|auto]|auto]. }
  assert (Hnew : forall u, vis s u -> ~ vis st u -> nth u pr false = true /\ reach adj v u /\ index_counter st <= nm s u).
  { intros u Hu Hnu. destruct (Nat.eq_dec u v) as [->|Hne].
    - split; [apply Hpr; auto|]. split; [constructor|lia].
    - destruct (l_new _ _ _ _ _ L u Hu) as (A1 & A2 & A3).
      + intros Hc. apply entered_vis in Hc as [?|?]; auto.
      + split; [apply Hpr; auto|]. split; auto. unfold st1 in A3. cbn in A3. lia. }
  assert (Hclo : forall u w, vis s u -> ~ vis st u -> edge adj u w -> vis s w).
  { intros u w Hu Hnu Hw. destruct (Nat.eq_dec u v) as [->|Hne].
    - apply (l_pre _ _ _ _ _ L). rewrite Eav. exact Hw.
    - eapply (l_clo _ _ _ _ _ L); eauto. intros Hc. apply entered_vis in Hc as [?|?]; auto. }
  assert (Hback : forall p, edge adj v p -> p <> v -> gray st p -> lw s v <= nm st p).
  { intros p Hp. apply (l_back _ _ _ _ _ L). rewrite Eav. exact Hp. }
  assert (Hidx : index_counter st <= index_counter s).
  { pose proof (l_idx _ _ _ _ _ L). unfold st1 in *. cbn in *. lia. }
  destruct (l_seg _ _ _ _ _ L) as (seg & Es & Hs).
  assert (Hseg_v : ~ In v seg).
  { intros Hin. apply (Hs v) in Hin. tauto. }
  assert (HpvAll : forall u, nth u pr false = true -> vis s u).
  { intros u Hu. apply Hpr in Hu as [->|Hu]; auto. now apply (i_pv _ Is). }
  destruct (Nat.eqb_spec (lw s v) (nm s v)) as [E|E].
  - (* v is a root: pop the component *)
    rewrite Es, pop_until_seg by auto. cbn [bind okp app].
    assert (Hstk : forall x, In x (stk st) -> nm s x < nm s v).
    { intros x Hx. assert (Vx : vis st x) by (apply (i_all _ I), in_or_app; auto).
      destruct (Hfr x Vx) as (_ & -> & _). rewrite Nv. now apply (i_idx _ I). }
    assert (Hto : forall k w, nm s w < k -> In w seg -> reach adj w v).
    { induction k as [|k IHk]; intros w Hk Hw; [lia|].
      destruct (Hs w Hw) as (_ & x & Rx & Ix & Lx & Gx).
      rewrite Es in Ix. apply in_app_or in Ix as [Ix|[<-|Ix]].
      - eapply reach_trans; [exact Rx|]. apply IHk; auto. lia.
      - exact Rx.
      - specialize (Hstk x Ix). lia. }
    assert (Hsegvis : forall w, In w seg -> vis s w).
    { intros w Hw. apply (i_all _ Is), in_or_app. left. rewrite Es. apply in_or_app; auto. }
    assert (Hfrom : forall w, In w seg -> reach adj v w).
    { intros w Hw. destruct (Hs w Hw) as (Hnw & _). apply (l_new _ _ _ _ _ L); auto. }
    assert (Hcomp : mutually_reachable adj (seg ++ [v])).
    { intros a b Ha Hb. apply reach_trans with v.
      - apply in_app_or in Ha as [Ha|[<-|[]]]; [eapply Hto; eauto|constructor].
      - apply in_app_or in Hb as [Hb|[<-|[]]]; [eauto|constructor]. }
    set (s' := mkT (num s) (lowest s) (visited s) pr (stk st) (index_counter s) (scc_list s ++ [seg ++ [v]])).
    assert (HPerm : Permutation (stk s ++ concat (scc_list s)) (stk st ++ concat (scc_list s ++ [seg ++ [v]]))).
    { rewrite Es, concat_app. cbn. rewrite app_nil_r.
      replace (seg ++ v :: stk st) with ((seg ++ [v]) ++ stk st) by (now rewrite <- app_assoc).
      rewrite <- app_assoc.
      eapply Permutation_trans; [apply Permutation_app_comm|]. rewrite <- app_assoc. apply Permutation_refl. }
    constructor.
    + constructor; cbn; try apply Is.
      * unfold pr. rewrite upd_length. apply Is.
      * eapply Permutation_NoDup; [exact HPerm|apply Is].
      * intros u. change (vis s u <-> In u (stk st ++ concat (scc_list s ++ [seg ++ [v]]))).
        rewrite (i_all _ Is). split; apply Permutation_in; [|apply Permutation_sym]; exact HPerm.
      * exact HpvAll.
      * intros u [Hu Hp]. change (vis s u) in Hu.
        assert (Hg : gray s u) by (split; auto; intros Hc; apply Hp; apply Hpr; auto).
        apply (i_gray _ Is) in Hg. rewrite Es in Hg. apply in_app_or in Hg as [Hg|[<-|Hg]]; auto; exfalso; apply Hp.
        -- destruct (Hs u Hg) as (Hnu & _). apply Hpr. right. now apply (l_new _ _ _ _ _ L).
        -- apply Hpr; auto.
      * pose proof (i_sorted _ Is) as Hso. rewrite Es in Hso. clear -Hso.
        induction seg as [|a seg IH]; cbn in Hso; inversion Hso; subst; auto.
      * apply Forall_app. split; [apply Is|]. constructor; auto.
      * apply Forall_app. split; [apply Is|]. constructor; auto. now destruct seg.
    + cbn. exact Hidx.
    + exact Hfr.
    + exact Vs.
    + exact Hnew.
    + exact Hclo.
    + exists []. split; auto. split; auto. intros w [].
    + left. exact E.
    + exact Hback.
    + exact Nv.
    + intros Hsym. right. split; [exact E|]. exists (seg ++ [v]). cbn.
      now rewrite (l_sym _ _ _ _ _ L Hsym).
  - (* v stays on the stack *)
    cbn [okp].
    destruct (l_low _ _ _ _ _ L) as [E'|(y & Gy & Ey & Ry)]; [congruence|].
    constructor.
    + constructor; cbn; try apply Is.
      * unfold pr. rewrite upd_length. apply Is.
      * exact HpvAll.
      * intros u [Hu Hp]. apply (i_gray _ Is). split; auto. intros Hc. apply Hp, Hpr; auto.
    + cbn. exact Hidx.
    + exact Hfr.
    + exact Vs.
    + exact Hnew.
    + exact Hclo.
    + exists (seg ++ [v]). cbn. split; [rewrite Es; now rewrite <- app_assoc|].
      split; [intros Hc; elim E; exact Hc|].
      intros w Hw. apply in_app_or in Hw as [Hw|[<-|[]]].
      * destruct (Hs w Hw) as (H1 & x & H2 & H3 & H4 & H5). split.
        -- intros Hc. apply H1. apply entered_vis; auto.
        -- exists x. repeat split; auto.
      * split; auto. exists y. split; auto. split.
        -- rewrite Es. apply in_or_app. right. right. now apply (i_gray _ I).
        -- destruct (Hfr y) as (_ & Fy & _); [apply Gy|].
           change (nm s y < nm s v /\ lw s v <= nm s y). pose proof (l_le _ _ _ _ _ L). lia.
    + right. exists y. auto.
    + exact Hback.
    + exact Nv.
    + intros Hsym. left. split; [|now apply (l_sym _ _ _ _ _ L)].
      change (lw s v < nm s v). pose proof (l_le _ _ _ _ _ L). lia.
Qed.

Lemma dfs_post fuel : forall st v, Inv st -> v < n -> ~ vis st v -> unv st <= fuel ->
  okp (depth_first_search fuel adj v st) (Post st v).
Proof.
  induction fuel as [|fuel IH]; intros st v I Hv Hnv Hf.
  - exfalso. assert (Hnf : nth v (visited st) false = false) by (now apply not_true_is_false).
    pose proof (filter_len_upd (visited st) v) as H. rewrite (i_vis _ I) in H.
    specialize (H Hv Hnf). unfold unv in Hf. lia.
  - cbn [depth_first_search]. rewrite enter_eq by auto. cbn [bind].
    rewrite (vget_lt _ _ _ []) by auto. cbn [bind].
    apply okp_bind.
    assert (I1 : Inv (entered st v)) by (now apply entered_inv).
    assert (U1 : unv (entered st v) <= fuel).
    { unfold unv. cbn. assert (Hnf : nth v (visited st) false = false) by (now apply not_true_is_false).
      pose proof (filter_len_upd (visited st) v) as H. rewrite (i_vis _ I) in H.
      specialize (H Hv Hnf). unfold unv in Hf. lia. }
    eapply okp_impl.
    + apply (for_each_inv _ _ (LI st (entered st v) v)).
      * now apply entered_LI.
      * intros pre u suf s Eq L.
        assert (Hedge : edge adj v u).
        { unfold edge. rewrite Eq. apply in_or_app; right; cbn; auto. }
        assert (Hu : u < n) by (eapply Hadj; eauto).
        pose proof (l_inv _ _ _ _ _ L) as Is.
        destruct (Nat.eqb_spec u v) as [->|Hne].
        -- cbn. apply LI_snoc; auto; [|congruence]. apply (l_frame _ _ _ _ _ L).
           apply entered_vis; auto.
        -- rewrite (vget_lt _ _ _ false) by (rewrite (i_vis _ Is); auto). cbn [bind].
           destruct (nth u (visited s) false) eqn:Ev; cbn [negb].
           ++ rewrite (vget_lt _ _ _ false) by (rewrite (i_prc _ Is); auto). cbn [bind].
              destruct (nth u (processed s) false) eqn:Ep; cbn [negb].
              ** cbn. apply LI_snoc; auto. intros _ Hg. exfalso. apply Hg.
                 assert (F := l_frame _ _ _ _ _ L u). destruct F as (_ & _ & _ & F).
                 { apply entered_vis; auto. right. apply Hg. }
                 apply F. exact Ep.
              ** rewrite (vget_lt _ _ _ 0) by (rewrite (i_num _ Is); auto). cbn [bind].
                 rewrite lower_eq by auto. cbn [okp]. fold (nm s u).
                 assert (Hgu : gray st u).
                 { destruct (vis_dec (entered st v) u) as [Hx|Hx].
                   - pose proof Hx as Hx'. apply entered_vis in Hx as [->|Hx]; [congruence| |auto|auto]. split; auto.
                     intros Hp. destruct (l_frame _ _ _ _ _ L u Hx') as (_ & _ & _ & F).
                     assert (prc s u) by (apply F; exact Hp). unfold prc in *. congruence.
                   - exfalso. destruct (l_new _ _ _ _ _ L u Ev Hx) as (Hp & _). unfold prc in *. congruence. }
                 assert (Enm : nm s u = nm st u).
                 { destruct (l_frame _ _ _ _ _ L u) as (_ & -> & _).
                   - apply entered_vis; auto. right. apply Hgu.
                   - rewrite entered_nm by auto. destruct (Nat.eqb_spec v u); congruence. }
                 apply LI_snoc.
                 --- apply LI_lower; auto. right. exists u. split; auto. split; [congruence|].
                     now apply reach_one.
                 --- exact Ev.
                 --- intros _ _. rewrite lowered_lw by auto. rewrite Nat.eqb_refl. lia.
           ++ assert (Hnu : ~ vis s u) by (unfold vis; congruence).
              assert (HP : okp (depth_first_search fuel adj u s) (Post s u)).
              { apply IH; auto. eapply Nat.le_trans; [|exact U1]. apply unv_mono; auto.
                intros x Hx. now apply (l_frame _ _ _ _ _ L). }
              apply okp_ex in HP as (s' & Es' & P). rewrite Es'. cbn [bind].
              rewrite (vget_lt _ _ _ 0) by (rewrite (i_low _ (p_inv _ _ _ P)); auto). cbn [bind].
              rewrite lower_eq by (try apply P; auto). cbn [okp].
              eapply LI_child; eauto.
    + intros s L. eapply leave_post; eauto.
Qed.

(** ** The top-level loop *)
Record Top (i : nat) (st : tarjan) : Prop := {
  t_inv : Inv st;
  t_stk : stk st = [];
  t_prc : forall u, vis st u -> prc st u;
  t_vis : forall u, u < i -> vis st u;
  t_clo : forall u w, vis st u -> edge adj u w -> vis st w;
  t_sym : symmetric adj -> forall u w, vis st u -> reach adj u w ->
            exists c, In c (scc_list st) /\ In u c /\ In w c
}.

Lemma nth_repeat_false m k : nth k (repeat false m) false = false.
Proof. apply nth_repeat. Qed.

Lemma init_top : Top 0 (tarjan_init adj).
Proof.
  assert (NV : forall u, ~ vis (tarjan_init adj) u).
  { intros u. unfold vis. cbn. rewrite nth_repeat_false. discriminate. }
  constructor; try (intros; exfalso; eapply NV; eassumption); auto; try (intros; lia).
  constructor; try (intros; exfalso; eapply NV; eassumption); cbn; try apply repeat_length; try solve [constructor].
  - intros u. split; [intros Hu; elim (NV u Hu)|intros []].
  - intros u [Hu _]. elim (NV u Hu).
Qed.

Lemma reach_closed (P : nat -> Prop) u w :
  (forall a b, P a -> edge adj a b -> P b) -> P u -> reach adj u w -> P w.
Proof. intros HP Hu H. induction H; eauto. Qed.

Lemma top_step i st : i < n -> Top i st ->
  okp (vi <- vget (visited st) i ;;
       if negb vi then depth_first_search (S n) adj i st else Ok st) (Top (S i)).
Proof.
  intros Hi T. pose proof (t_inv _ _ T) as I.
  rewrite (vget_lt _ _ _ false) by (rewrite (i_vis _ I); auto). cbn [bind].
  destruct (nth i (visited st) false) eqn:Ev; cbn [negb].
  - cbn. destruct T. constructor; auto. intros u Hu.
    destruct (Nat.eq_dec u i) as [->|]; [exact Ev|apply t_vis0; lia].
  - assert (Hni : ~ vis st i) by (unfold vis; congruence).
    assert (HP : okp (depth_first_search (S n) adj i st) (Post st i)).
    { apply dfs_post; auto. unfold unv. rewrite <- (i_vis _ I).
      assert (Hfl : forall l : list bool, length (filter negb l) <= length l)
        by (induction l as [|[] l IHl]; cbn; lia).
      specialize (Hfl (visited st)). lia. }
    eapply okp_impl; [exact HP|]. clear HP. intros s P.
    assert (Hng : forall x, ~ gray st x) by (intros x [Hx Hp]; apply Hp; now apply (t_prc _ _ T)).
    assert (Hroot : lw s i = nm s i).
    { destruct (p_low _ _ _ P) as [E|(x & Gx & _)]; auto. elim (Hng x Gx). }
    destruct (p_seg _ _ _ P) as (seg & Es & Hseg & _). specialize (Hseg Hroot). subst seg.
    assert (Estk : stk s = []) by (rewrite Es; cbn; apply T).
    assert (Hclo : forall u w, vis s u -> edge adj u w -> vis s w).
    { intros u w Hu Hw. destruct (vis_dec st u) as [Hs|Hs].
      - apply (p_frame _ _ _ P). eapply (t_clo _ _ T); eauto.
      - eapply (p_clo _ _ _ P); eauto. }
    constructor; auto.
    + apply P.
    + intros u Hu. destruct (vis_dec st u) as [Hs|Hs].
      * apply (p_frame _ _ _ P); auto. now apply (t_prc _ _ T).
      * now apply (p_new _ _ _ P).
    + intros u Hu. destruct (Nat.eq_dec u i) as [->|Hne]; [exact (p_v _ _ _ P)|].
      apply (p_frame _ _ _ P). apply (t_vis _ _ T). lia.
    + intros Hsym u w Hu Hr.
      destruct (p_sym _ _ _ P Hsym) as [[E _]|[_ (c & Ec)]]; [lia|].
      destruct (vis_dec st u) as [Hs|Hs].
      * destruct (t_sym _ _ T Hsym u w Hs Hr) as (d & Hd & H1 & H2). exists d.
        rewrite Ec. split; [apply in_or_app; auto|auto].
      * assert (Hin : forall x, vis s x -> ~ vis st x -> In x c).
        { intros x Hx Hnx. pose proof (proj1 (i_all _ (p_inv _ _ _ P) x) Hx) as H.
          rewrite Estk, Ec, concat_app in H. cbn in H. rewrite app_nil_r in H.
          apply in_app_or in H as [H|H]; auto. exfalso. apply Hnx. apply (i_all _ I).
          apply in_or_app. auto. }
        assert (Hw : vis s w /\ ~ vis st w).
        { apply (reach_closed (fun x => vis s x /\ ~ vis st x) u w); auto.
          intros a b [Ha1 Ha2] Hab. split; [eauto|]. intros Hb. apply Ha2.
          eapply (t_clo _ _ T); [exact Hb|]. now apply Hsym. }
        exists c. rewrite Ec. split; [apply in_or_app; right; cbn; auto|].
        split; apply Hin; tauto.
Qed.

Theorem tarjan_top : okp (tarjan_run adj) (Top n).
Proof.
  unfold tarjan_run. apply for_n_inv; [apply init_top|].
  intros i st Hi T. now apply top_step.
Qed.

End Tarjan.
