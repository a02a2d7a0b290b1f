(** Proofs about [MNetwork]: remove_double_counting, setters, histories, edge counts. *)
From Verif Require Import Base BaseFacts MNetwork SNetwork PNetwork.
From Coq Require Import Permutation Sorting.Sorted.

Lemma StronglySorted_snoc X (R : X -> X -> Prop) l a :
  StronglySorted R l -> Forall (fun x => R x a) l -> StronglySorted R (l ++ [a]).
Proof.
  induction l as [|x l IH]; intros Hs Hf; cbn.
  - repeat constructor.
  - inversion Hs; inversion Hf; subst. constructor; [apply IH; auto|].
    apply Forall_app. auto.
Qed.

Lemma StronglySorted_snoc_inv X (R : X -> X -> Prop) l a :
  StronglySorted R (l ++ [a]) -> StronglySorted R l /\ Forall (fun x => R x a) l.
Proof.
  induction l as [|x l IH]; intros Hs; cbn in *.
  - split; constructor.
  - inversion Hs as [|? ? H1 H2]; subst. apply Forall_app in H2 as [H2 H3].
    inversion H3; subst. apply IH in H1 as [Ha Hb]. split; constructor; auto.
Qed.

Section Rdc.
Context {A W : Type}.
Notation net := (network A W).
Variable wadd : W -> W -> W.
Variable sorter : list nat -> list nat.
Hypothesis Hsort : sorter_ok sorter.

(** [acc] is the grouping of the sorted list [P]. *)
Definition groups (P acc : list (nat * W)) : Prop :=
  StronglySorted lt (map fst acc) /\
  (forall j, In j (map fst acc) <-> In j (map fst P)) /\
  (forall j w, In (j, w) acc -> exists w0 ws,
      map snd (filter (fun p => fst p =? j) P) = w0 :: ws /\ w = fold_left wadd ws w0).

Lemma back_add_snoc l a w : back_add wadd (l ++ [a]) w = Ok (l ++ [wadd a w]).
Proof. unfold back_add. rewrite rev_app_distr. cbn. now rewrite rev_involutive. Qed.

Definition lastk (acc : list (nat * W)) : option nat :=
  match rev acc with [] => None | p :: _ => Some (fst p) end.

Lemma lastk_snoc acc p : lastk (acc ++ [p]) = Some (fst p).
Proof. unfold lastk. now rewrite rev_app_distr. Qed.

Lemma filter_none (P : list (nat * W)) j :
  (forall p, In p P -> fst p <> j) -> filter (fun p => fst p =? j) P = [].
Proof.
  induction P as [|p P IH]; intros H; cbn; auto.
  rewrite (proj2 (Nat.eqb_neq _ _)) by (apply H; cbn; auto). apply IH. intros; apply H; cbn; auto.
Qed.

Lemma groups_new P acc cur w :
  groups P acc -> Forall (fun k => k <= cur) (map fst P) -> lastk acc <> Some cur ->
  groups (P ++ [(cur, w)]) (acc ++ [(cur, w)]).
Proof.
  intros (G1 & G2 & G3) Hle Hlast.
  assert (Hlt : Forall (fun k => k < cur) (map fst acc)).
  { destruct acc as [|p acc _] using rev_ind; [constructor|].
    rewrite lastk_snoc in Hlast. rewrite map_app in G1 |- *. cbn in G1 |- *.
    apply StronglySorted_snoc_inv in G1 as [G1 G1'].
    assert (Hp : fst p <= cur).
    { rewrite Forall_forall in Hle. apply Hle. apply G2. rewrite map_app. apply in_or_app.
      right; cbn; auto. }
    assert (Hp' : fst p < cur).
    { destruct (Nat.eq_dec (fst p) cur); [congruence|lia]. }
    apply Forall_app. split; [|repeat constructor; auto].
    eapply Forall_impl; [|exact G1']. intros k Hk. cbn in Hk. lia. }
  assert (Hnot : forall p, In p P -> fst p <> cur).
  { intros p Hp E. assert (Hin : In cur (map fst acc)).
    { apply G2. rewrite <- E. now apply in_map. }
    rewrite Forall_forall in Hlt. specialize (Hlt _ Hin). lia. }
  split; [|split].
  - rewrite map_app. apply StronglySorted_snoc; auto.
  - intros j. rewrite !map_app, !in_app_iff, G2. reflexivity.
  - intros j w' Hin. apply in_app_or in Hin as [Hin|[[= <- <-]|[]]].
    + destruct (G3 _ _ Hin) as (w0 & ws & E1 & E2). exists w0, ws. split; auto.
      rewrite filter_app, map_app, E1. cbn [filter fst].
      destruct (Nat.eqb_spec cur j) as [E|_]; [|now rewrite app_nil_r].
      exfalso. subst j. apply (in_map fst) in Hin. cbn in Hin.
      rewrite Forall_forall in Hlt. specialize (Hlt _ Hin). lia.
    + exists w, []. split; auto. rewrite filter_app, map_app, filter_none by auto.
      cbn. now rewrite Nat.eqb_refl.
Qed.

Lemma groups_add P acc cur w w1 :
  groups P (acc ++ [(cur, w1)]) ->
  groups (P ++ [(cur, w)]) (acc ++ [(cur, wadd w1 w)]).
Proof.
  intros (G1 & G2 & G3). rewrite map_app in G1, G2. cbn in G1, G2.
  destruct (StronglySorted_snoc_inv _ _ _ _ G1) as [G1a G1b].
  split; [|split].
  - rewrite map_app. exact G1.
  - intros j. rewrite !map_app. cbn. rewrite G2, in_app_iff. cbn. split; [tauto|].
    intros [H|[<-|[]]]; auto. apply G2. apply in_or_app; right; cbn; auto.
  - intros j w' Hin. apply in_app_or in Hin as [Hin|[[= <- <-]|[]]].
    + destruct (G3 j w') as (w0 & ws & E1 & E2); [apply in_or_app; auto|].
      exists w0, ws. split; auto. rewrite filter_app, map_app, E1. cbn [filter fst].
      destruct (Nat.eqb_spec cur j) as [E|_]; [|now rewrite app_nil_r].
      exfalso. subst j. apply (in_map fst) in Hin. cbn in Hin.
      rewrite Forall_forall in G1b. specialize (G1b _ Hin). lia.
    + destruct (G3 cur w1) as (w0 & ws & E1 & E2); [apply in_or_app; right; cbn; auto|].
      exists w0, (ws ++ [w]). rewrite filter_app, map_app, E1. cbn [filter fst].
      rewrite Nat.eqb_refl. cbn. split; auto. rewrite fold_left_app. cbn. congruence.
Qed.

Lemma sorter_lt keys i s : nth_error (sorter keys) i = Some s -> s < length keys.
Proof.
  intros H. apply nth_error_In in H. destruct (Hsort keys) as [Hp _].
  eapply Permutation_in in H; [|exact Hp]. apply in_seq in H. lia.
Qed.

Lemma sorter_length keys : length (sorter keys) = length keys.
Proof. destruct (Hsort keys) as [Hp _]. now rewrite (Permutation_length Hp), seq_length. Qed.

Lemma rdc_row_merged ns ws : length ns = length ws ->
  okp (rdc_row wadd sorter ns ws)
      (fun p => length (fst p) = length (snd p) /\
                merged wadd (combine ns ws) (combine (fst p) (snd p))).
Proof.
  intros HL. unfold rdc_row. apply okp_bind.
  destruct ws as [|d ws'] eqn:Ews.
  { destruct ns; [|discriminate]. cbn. split; auto. split; [constructor|].
    split; [tauto|]. intros ? ? []. }
  rewrite <- Ews in *. clear Ews ws'.
  set (L := combine ns ws).
  assert (HLL : length L = length ns) by (unfold L; rewrite combine_length; lia).
  set (SL := map (fun i => nth i L (0, d)) (sorter ns)).
  assert (HSL : length SL = length ns) by (unfold SL; rewrite map_length; apply sorter_length).
  assert (HSLs : StronglySorted le (map fst SL)).
  { apply Sorted_StronglySorted; [intros a b c; lia|].
    unfold SL. rewrite map_map. destruct (Hsort ns) as [Hp Hs].
    replace (map (fun x => fst (nth x L (0, d))) (sorter ns)) with (map (fun i => nth i ns 0) (sorter ns)); auto.
    apply map_ext_in. intros i Hi. eapply Permutation_in in Hi; [|exact Hp]. apply in_seq in Hi.
    unfold L. rewrite combine_nth by auto. reflexivity. }
  eapply okp_impl.
  - apply (for_n_inv _ (fun i st => exists acc, st = (lastk acc, map fst acc, map snd acc) /\
                                     groups (firstn i SL) acc)).
    + exists []. split; auto. split; [constructor|]. split; [tauto|]. intros ? ? [].
    + intros i st Hi (acc & -> & Hg).
      rewrite (vget_lt _ _ _ 0) by (rewrite sorter_length; auto). cbn [bind].
      set (s := nth i (sorter ns) 0).
      assert (Hs : s < length ns).
      { apply (sorter_lt ns i). apply nth_error_nth'. now rewrite sorter_length. }
      rewrite (vget_lt _ _ _ 0) by auto. cbn [bind].
      rewrite (vget_lt _ _ _ d) by lia. cbn [bind].
      set (cur := nth s ns 0). set (w := nth s ws d).
      assert (HSi : nth_error SL i = Some (cur, w)).
      { unfold SL. rewrite nth_error_map. rewrite (nth_error_nth' _ 0) by (now rewrite sorter_length).
        cbn. f_equal. unfold L. fold s. now rewrite combine_nth by auto. }
      assert (HSS : firstn (S i) SL = firstn i SL ++ [(cur, w)]).
      { now apply firstn_S_nth_error. }
      assert (Hle : Forall (fun k => k <= cur) (map fst (firstn i SL))).
      { assert (HH : StronglySorted le (map fst (firstn (S i) SL))).
        { rewrite <- (firstn_skipn (S i) SL), map_app in HSLs. clear -HSLs.
          induction (map fst (firstn (S i) SL)) as [|x l IH]; [constructor|].
          cbn in HSLs. inversion HSLs as [|? ? H1 H2]; subst. constructor; auto.
          apply Forall_app in H2. tauto. }
        rewrite HSS, map_app in HH. cbn in HH. now apply StronglySorted_snoc_inv in HH. }
      rewrite HSS.
      destruct (lastk acc) as [l|] eqn:El.
      * destruct (Nat.eqb_spec l cur) as [E|E]; cbn [negb].
        -- subst l. destruct acc as [|[k w1] acc _] using rev_ind; [discriminate|].
           rewrite lastk_snoc in El. cbn in El. inversion El; subst k.
           rewrite !map_app. cbn [map fst snd]. rewrite back_add_snoc. cbn.
           exists (acc ++ [(cur, wadd w1 w)]). rewrite lastk_snoc, !map_app. split; auto.
           now apply groups_add.
        -- cbn. exists (acc ++ [(cur, w)]). rewrite lastk_snoc, !map_app. split; auto.
           apply groups_new; auto. congruence.
      * cbn. exists (acc ++ [(cur, w)]). rewrite lastk_snoc, !map_app. split; auto.
        apply groups_new; auto. congruence.
  - intros st (acc & -> & Hg). cbn. rewrite !map_length. split; auto.
    rewrite combine_map_fst_snd. rewrite <- HSL, firstn_all in Hg.
    assert (HP : Permutation SL L).
    { unfold SL. destruct (Hsort ns) as [Hp _].
      eapply Permutation_trans; [apply Permutation_map; exact Hp|].
      rewrite <- HLL. rewrite map_nth_seq. apply Permutation_refl. }
    destruct Hg as (G1 & G2 & G3). split; [auto|]. split.
    + intros j. rewrite G2. split; apply Permutation_in; [|apply Permutation_sym]; now apply Permutation_map.
    + intros j w Hin. destruct (G3 j w Hin) as (w0 & ws0 & E1 & E2).
      exists w0, ws0. split; auto. rewrite <- E1. apply Permutation_map.
      clear -HP. induction HP; cbn; auto.
      * destruct (fst x =? j); auto.
      * destruct (fst x =? j), (fst y =? j); auto. constructor.
      * eapply Permutation_trans; eauto.
Qed.

Lemma row_combine_unfold (g : net) i : row g i = combine (nth i (neigh g) []) (nth i (wts g) []).
Proof. reflexivity. Qed.

Lemma map_fst_combine X Y (l : list X) (l' : list Y) :
  length l = length l' -> map fst (combine l l') = l.
Proof. revert l'; induction l as [|x l IH]; intros [|y l']; cbn; try discriminate; auto. intros H. now rewrite IH by lia. Qed.

Lemma map_snd_combine X Y (l : list X) (l' : list Y) :
  length l = length l' -> map snd (combine l l') = l'.
Proof. revert l'; induction l as [|x l IH]; intros [|y l']; cbn; try discriminate; auto. intros H. now rewrite IH by lia. Qed.

Theorem rdc_ok (g : net) : wf g ->
  okp (remove_double_counting wadd sorter g) (fun g' =>
    wf g' /\ agents g' = agents g /\ dir g' = dir g /\
    forall i, i < length (agents g) -> merged wadd (row g i) (row g' i)).
Proof.
  intros Hwf. destruct Hwf as (H1 & H2 & H3 & H4). unfold remove_double_counting, n_agents.
  set (n := length (agents g)) in *.
  eapply okp_impl.
  - apply (for_n_inv _ (fun m g' => agents g' = agents g /\ dir g' = dir g /\ length (neigh g') = n /\
        length (wts g') = n /\
        (forall i, i < n -> length (nth i (neigh g') []) = length (nth i (wts g') [])) /\
        (forall i, m <= i -> nth i (neigh g') [] = nth i (neigh g) [] /\ nth i (wts g') [] = nth i (wts g) []) /\
        (forall i, i < m -> i < n -> merged wadd (row g i) (row g' i)))).
    + do 6 (split; [solve [auto]|]). intros; lia.
    + intros i g' Hi (I1 & I2 & I3 & I4 & I5 & I6 & I7).
      rewrite (vget_lt _ _ _ []) by lia. cbn [bind].
      rewrite (vget_lt _ _ _ []) by lia. cbn [bind].
      destruct (I6 i (le_n i)) as [E1 E2].
      pose proof (rdc_row_merged (nth i (neigh g') []) (nth i (wts g') []) (I5 i Hi)) as Hr.
      apply okp_ex in Hr as ([nc wc] & Hr & Hlen & Hm). cbn in Hlen, Hm. rewrite Hr. cbn [bind].
      rewrite vset_ok by lia. cbn [bind]. rewrite vset_ok by lia. cbn.
      do 2 (split; [auto|]). do 2 (split; [now rewrite upd_length|]). split; [|split].
      * intros k Hk. destruct (Nat.eq_dec i k) as [<-|Hne].
        -- rewrite !nth_upd_eq by lia. auto.
        -- rewrite !nth_upd_neq by auto. auto.
      * intros k Hk. rewrite !nth_upd_neq by lia. apply I6; lia.
      * intros k Hk Hk'. destruct (Nat.eq_dec i k) as [<-|Hne].
        -- unfold row in *. cbn. rewrite !nth_upd_eq by lia. rewrite <- E1, <- E2. apply Hm.
        -- unfold row in *. cbn. rewrite !nth_upd_neq by lia. apply I7; lia.
  - intros g' (I1 & I2 & I3 & I4 & I5 & I6 & I7).
    split; [|split; [auto|split; [auto|]]].
    + unfold wf. rewrite I1. fold n. repeat split; auto.
      intros i j Hj. destruct (Nat.lt_ge_cases i n) as [Hi|Hi].
      * specialize (I7 i Hi Hi). destruct I7 as (_ & M & _).
        apply (H4 i). unfold row in M. specialize (M j).
        rewrite map_fst_combine in M by auto. apply M in Hj.
        rewrite map_fst_combine in Hj by auto. auto.
      * rewrite nth_overflow in Hj by lia. destruct Hj.
    + intros i Hi. apply I7; auto.
Qed.

(** A strictly increasing row is left alone. *)
Lemma sorter_id keys : StronglySorted lt keys -> sorter keys = seq 0 (length keys).
Proof.
  intros Hs. destruct (Hsort keys) as [Hp Hle].
  assert (Hnth : forall a b, a < b -> b < length keys -> nth a keys 0 < nth b keys 0).
  { clear -Hs. induction Hs as [|x l Hs IH Hx]; intros [|a] [|b] Hab Hb; cbn in *; try lia.
    - rewrite Forall_forall in Hx. apply Hx. apply nth_In. lia.
    - apply IH; lia. }
  assert (Hlt : StronglySorted lt (sorter keys)).
  { apply Sorted_StronglySorted in Hle; [|intros a b c; lia].
    assert (Hnd : NoDup (sorter keys)) by (eapply Permutation_NoDup; [apply Permutation_sym; exact Hp|apply seq_NoDup]).
    assert (Hin : forall i, In i (sorter keys) -> i < length keys).
    { intros i Hi. eapply Permutation_in in Hi; [|exact Hp]. apply in_seq in Hi. lia. }
    clear Hp. induction (sorter keys) as [|i l IH]; constructor.
    - cbn in Hle. inversion Hle; inversion Hnd; subst. apply IH; auto. intros; apply Hin; cbn; auto.
    - cbn in Hle. inversion Hle as [|? ? Ha Hb]; inversion Hnd as [|? ? Hc Hd]; subst.
      apply Forall_forall. intros j Hj. rewrite Forall_forall in Hb.
      specialize (Hb _ (in_map (fun i => nth i keys 0) _ _ Hj)). cbn in Hb.
      assert (i <> j) by congruence.
      destruct (Nat.lt_ge_cases i j); auto. exfalso.
      assert (j < i) by lia. specialize (Hnth j i H1 (Hin i (or_introl eq_refl))). lia. }
  clear Hle Hnth Hs.
  assert (G : forall m k l, StronglySorted lt l -> Permutation l (seq k m) -> l = seq k m).
  { induction m as [|m IH]; intros k l Hl Hpl.
    - apply Permutation_sym, Permutation_nil in Hpl. auto.
    - destruct l as [|x l]; [apply Permutation_nil in Hpl; discriminate|].
      inversion Hl as [|? ? Hl1 Hl2]; subst. rewrite Forall_forall in Hl2.
      assert (Hx : x = k).
      { assert (In k (x :: l)) by (eapply Permutation_in; [apply Permutation_sym; exact Hpl|cbn; auto]).
        assert (Hix : In x (seq k (S m))) by (eapply Permutation_in; [exact Hpl|cbn; auto]).
        apply in_seq in Hix. destruct H as [->|H]; auto. specialize (Hl2 _ H). lia. }
      subst x. cbn. f_equal. apply IH; auto. cbn in Hpl. eapply Permutation_cons_inv; eauto. }
  apply G; auto.
Qed.

Lemma rdc_row_id ns ws : length ns = length ws -> StronglySorted lt ns ->
  rdc_row wadd sorter ns ws = Ok (ns, ws).
Proof.
  intros HL Hs. unfold rdc_row. rewrite sorter_id by auto.
  destruct ws as [|d ws'] eqn:Ews; [destruct ns; [reflexivity|discriminate]|].
  rewrite <- Ews in *. clear Ews ws'.
  match goal with |- bind (for_n ?n ?b ?s0) ?k = _ =>
    assert (H : okp (for_n n b s0) (fun st => exists l, st = (l, firstn n ns, firstn n ws))) end.
  { apply okp_impl with (P := fun st => st = (match length ns with 0 => None | S m => Some (nth m ns 0) end,
        firstn (length ns) ns, firstn (length ns) ws)).
    2: { intros st ->. eauto. }
    apply (for_n_inv _ (fun i st => st = (match i with 0 => None | S m => Some (nth m ns 0) end,
        firstn i ns, firstn i ws))); auto.
    intros i st Hi ->.
    rewrite (vget_lt _ _ _ 0) by (rewrite seq_length; auto). cbn [bind].
    rewrite seq_nth by auto. cbn [plus].
    rewrite (vget_lt _ _ _ 0) by lia. cbn [bind]. rewrite (vget_lt _ _ _ d) by lia. cbn [bind].
    replace (match match i with 0 => None | S m => Some (nth m ns 0) end with
             | Some l => negb (l =? nth i ns 0) | None => true end) with true.
    - cbn. rewrite <- !firstn_S_nth by lia. reflexivity.
    - destruct i as [|m]; auto.
      assert (Hlt : nth m ns 0 < nth (S m) ns 0).
      { clear -Hs Hi. revert m Hi. induction Hs as [|x l Hs IH Hx]; intros m Hi; cbn in *; [lia|].
        destruct m as [|m].
        - rewrite Forall_forall in Hx. apply Hx. apply nth_In. lia.
        - apply IH. lia. }
      symmetry. apply negb_true_iff, Nat.eqb_neq. lia. }
  apply okp_ex in H as (st & E & l & ->). rewrite E. cbn.
  rewrite firstn_all. rewrite HL, firstn_all. reflexivity.
Qed.

Theorem rdc_idempotent_row_sorted (g : net) : wf g ->
  (forall i, i < length (agents g) -> StronglySorted lt (nth i (neigh g) [])) ->
  remove_double_counting wadd sorter g = Ok g.
Proof.
  intros (H1 & H2 & H3 & H4) Hs. unfold remove_double_counting, n_agents.
  match goal with |- ?m = _ => assert (H : okp m (fun g' => g' = g)) end.
  { apply (for_n_inv _ (fun _ g' => g' = g)); auto. intros i g' Hi ->.
    rewrite (vget_lt _ _ _ []) by lia. cbn [bind]. rewrite (vget_lt _ _ _ []) by lia. cbn [bind].
    rewrite rdc_row_id by auto. cbn [bind]. rewrite !vset_ok by lia. cbn.
    rewrite !upd_nth_same by (apply nth_error_nth'; lia). now destruct g. }
  apply okp_ex in H as (g' & E & ->). exact E.
Qed.

End Rdc.

(** ** Setters *)
Section Setters.
Context {A W : Type}.
Notation net := (network A W).

Lemma vget_upd_eq X (v : list X) i a : i < length v -> vget (upd v i a) i = Ok a.
Proof. intros H. apply vget_ok. now apply nth_error_upd_eq. Qed.

Lemma vget_upd_neq X (v : list X) i k a : k <> i -> vget (upd v i a) k = vget v k.
Proof. intros H. unfold vget. now rewrite nth_error_upd_neq by auto. Qed.

Lemma replaced_upd (g : net) i ns ws :
  i < length (neigh g) -> i < length (wts g) ->
  row_replaced g (mkNet (agents g) (upd (neigh g) i ns) (upd (wts g) i ws) (dir g)) i ns ws.
Proof.
  intros H1 H2. unfold row_replaced, get_neighbours, get_weights. cbn.
  rewrite !vget_upd_eq by auto. repeat split; auto; now apply vget_upd_neq.
Qed.

Lemma set_weights_ok (g : net) i ns ws :
  get_neighbours g i = Ok ns -> i < length (wts g) -> length ns = length ws ->
  exists h, set_weights g i ws = (h, Ok tt) /\ row_replaced g h i ns ws.
Proof.
  unfold get_neighbours, set_weights. intros E Hi HL. rewrite E.
  rewrite (proj2 (Nat.eqb_eq _ _) HL). cbn [negb]. rewrite vset_ok by auto.
  eexists. split; [reflexivity|]. unfold row_replaced, get_neighbours, get_weights. cbn.
  rewrite vget_upd_eq by auto. repeat split; auto. now apply vget_upd_neq.
Qed.

Lemma set_weights_throw (g : net) i ns ws :
  get_neighbours g i = Ok ns -> length ns <> length ws ->
  set_weights g i ws = (g, Throw ExRuntime).
Proof.
  unfold get_neighbours, set_weights. intros E HL. rewrite E.
  rewrite (proj2 (Nat.eqb_neq _ _) HL). reflexivity.
Qed.

Lemma set_neighbours_ok (g : net) i ns ws :
  i < length (neigh g) -> i < length (wts g) -> length ns = length ws ->
  exists h, set_neighbours_and_weights g i ns ws = (h, Ok tt) /\ row_replaced g h i ns ws.
Proof.
  unfold set_neighbours_and_weights. intros Hn Hw HL.
  rewrite (proj2 (Nat.eqb_eq _ _) HL). cbn [negb]. rewrite !vset_ok by auto.
  eexists. split; [reflexivity|]. now apply replaced_upd.
Qed.

Lemma set_neighbours_throw (g : net) i ns ws :
  length ns <> length ws -> set_neighbours_and_weights g i ns ws = (g, Throw ExRuntime).
Proof.
  unfold set_neighbours_and_weights. intros HL. now rewrite (proj2 (Nat.eqb_neq _ _) HL).
Qed.

Lemma set_neighbours_const_ok (g : net) i ns w :
  i < length (neigh g) -> i < length (wts g) ->
  exists h, set_neighbours_const g i ns w = Ok h /\ row_replaced g h i ns (repeat w (length ns)).
Proof.
  unfold set_neighbours_const. intros Hn Hw. rewrite !vset_ok by auto. cbn.
  eexists. split; [reflexivity|]. now apply replaced_upd.
Qed.

Lemma push_back_ok (g : net) i ns ws j w :
  get_neighbours g i = Ok ns -> get_weights g i = Ok ws ->
  exists h, push_back_neighbour_and_weight g i j w = Ok h /\ row_replaced g h i (ns ++ [j]) (ws ++ [w]).
Proof.
  unfold get_neighbours, get_weights, push_back_neighbour_and_weight. intros En Ew.
  rewrite En. cbn [bind].
  assert (i < length (neigh g)) by (apply nth_error_Some; apply vget_ok in En; congruence).
  assert (i < length (wts g)) by (apply nth_error_Some; apply vget_ok in Ew; congruence).
  rewrite vset_ok by auto. cbn [bind]. rewrite Ew. cbn [bind]. rewrite vset_ok by auto. cbn [bind].
  eexists. split; [reflexivity|]. now apply replaced_upd.
Qed.

(** ** Histories *)
Lemma wf_replaced (g : net) i ns ws : wf g -> i < length (agents g) ->
  length ns = length ws -> Forall (fun j => j < length (agents g)) ns ->
  wf (mkNet (agents g) (upd (neigh g) i ns) (upd (wts g) i ws) (dir g)).
Proof.
  intros (H1 & H2 & H3 & H4) Hi HL HF. unfold wf. cbn. rewrite !upd_length.
  repeat split; auto.
  - intros k Hk. destruct (Nat.eq_dec i k) as [<-|Hne].
    + rewrite !nth_upd_eq by lia. auto.
    + rewrite !nth_upd_neq by auto. auto.
  - intros k j Hj. destruct (Nat.eq_dec i k) as [<-|Hne].
    + rewrite nth_upd_eq in Hj by lia. rewrite Forall_forall in HF. auto.
    + rewrite nth_upd_neq in Hj by auto. eauto.
Qed.

Lemma nth_map_nil X Y (l : list X) i : nth i (map (fun _ => @nil Y) l) [] = [].
Proof. revert i; induction l as [|x l IH]; intros [|i]; cbn; auto. Qed.

Lemma step_ok wadd sorter (g : net) o :
  sorter_ok sorter -> wf g -> op_in_range (length (agents g)) o ->
  wf (fst (net_step wadd sorter g o)) /\
  agents (fst (net_step wadd sorter g o)) = agents g /\
  (snd (net_step wadd sorter g o) = Ok tt \/
   (snd (net_step wadd sorter g o) = Throw ExRuntime /\ fst (net_step wadd sorter g o) = g)).
Proof.
  intros Hs Hwf Hr. pose proof Hwf as (H1 & H2 & H3 & H4).
  destruct o as [i ws|i ns w|i ns ws|i j w| | | | |]; cbn [net_step].
  - cbn in Hr. unfold set_weights. rewrite (vget_lt _ _ _ []) by lia.
    destruct (length (nth i (neigh g) []) =? length ws) eqn:E; cbn [negb].
    + rewrite vset_ok by lia. cbn. apply Nat.eqb_eq in E. split; [|auto].
      replace (neigh g) with (upd (neigh g) i (nth i (neigh g) [])) by (apply upd_nth_same, nth_error_nth'; lia).
      apply wf_replaced; auto. apply Forall_forall. eauto.
    + cbn. auto.
  - cbn in Hr. destruct Hr as [Hi HF]. unfold set_neighbours_const.
    rewrite !vset_ok by lia. cbn. split; [|auto]. apply wf_replaced; auto. now rewrite repeat_length.
  - cbn in Hr. destruct Hr as [Hi HF]. unfold set_neighbours_and_weights.
    destruct (length ns =? length ws) eqn:E; cbn [negb].
    + rewrite !vset_ok by lia. cbn. apply Nat.eqb_eq in E. split; [|auto]. now apply wf_replaced.
    + cbn. auto.
  - cbn in Hr. destruct Hr as [Hi Hj]. unfold push_back_neighbour_and_weight.
    rewrite (vget_lt _ _ _ []) by lia. cbn [bind]. rewrite vset_ok by lia. cbn [bind].
    rewrite (vget_lt _ _ _ []) by lia. cbn [bind]. rewrite vset_ok by lia. cbn.
    split; [|auto]. apply wf_replaced; auto.
    + rewrite !app_length, H3 by auto. reflexivity.
    + apply Forall_app. split; [|auto]. apply Forall_forall. eauto.
  - rewrite transpose_exact by (now apply wf_toggle_safe). cbn. split; [|auto].
    exact (wf_switch _ (wf_toggled g Hwf)).
  - rewrite toggle_exact by (now apply wf_toggle_safe). cbn. split; [|auto]. now apply wf_toggled.
  - cbn. split; auto.
  - pose proof (rdc_ok wadd sorter Hs g Hwf) as H. apply okp_ex in H as (g' & E & W' & Ag & _).
    rewrite E. cbn. auto.
  - cbn. split; [|auto]. unfold wf, clear. cbn. rewrite !map_length.
    repeat split; auto.
    + intros i Hi. now rewrite !nth_map_nil.
    + intros i j Hj. rewrite nth_map_nil in Hj. destruct Hj.
Qed.

Lemma run_ok wadd sorter os : sorter_ok sorter -> forall (g : net),
  wf g -> Forall (op_in_range (length (agents g))) os ->
  wf (run wadd sorter g os) /\ agents (run wadd sorter g os) = agents g.
Proof.
  intros Hs. unfold run. induction os as [|o os IH]; intros g Hwf HF; cbn; auto.
  inversion HF as [|? ? Ho Hos]; subst.
  destruct (step_ok wadd sorter g o Hs Hwf Ho) as (W' & Ag & _).
  rewrite <- Ag in Hos. destruct (IH _ W' Hos) as [W'' Ag'].
  split; auto. congruence.
Qed.

Lemma run_app wadd sorter (g : net) o1 o2 :
  run wadd sorter g (o1 ++ o2) = run wadd sorter (run wadd sorter g o1) o2.
Proof. apply fold_left_app. Qed.

Lemma wf_sized (d : A) n : wf (net_sized d n : net).
Proof.
  unfold wf, net_sized. cbn. rewrite !repeat_length. repeat split; auto.
  - intros i Hi. now rewrite !nth_repeat.
  - intros i j Hj. rewrite nth_repeat in Hj. destruct Hj.
Qed.

Lemma wf_of_agents (ag : list A) : wf (net_of_agents ag : net).
Proof.
  unfold wf, net_of_agents. cbn. rewrite !repeat_length. repeat split; auto.
  - intros i Hi. now rewrite !nth_repeat.
  - intros i j Hj. rewrite nth_repeat in Hj. destruct Hj.
Qed.

(** ** Edge counts *)
Lemma length_edges (g : net) : wf g ->
  length (edges g) = list_sum (map (@length nat) (neigh g)).
Proof.
  intros (H1 & H2 & H3 & H4). unfold edges.
  rewrite flat_map_concat_map.
  rewrite <- (map_nth_seq _ (map (@length nat) (neigh g)) 0). rewrite map_length.
  assert (G : forall l, (forall i, In i l -> i < length (neigh g)) ->
    length (concat (map (fun i => map (fun p : nat * W => match dir g with Outgoing => (i, fst p, snd p) | Incoming => (fst p, i, snd p) end) (row g i)) l))
    = list_sum (map (fun i => nth i (map (length (A:=nat)) (neigh g)) 0) l)).
  { induction l as [|i l IH]; intros Hl; cbn; auto.
    rewrite app_length, map_length, IH by (intros; apply Hl; cbn; auto). f_equal.
    assert (Hi : i < length (neigh g)) by (apply Hl; cbn; auto).
    change 0 with (length (@nil nat)). rewrite map_nth.
    unfold row. rewrite combine_length, <- H3 by lia. lia. }
  apply G. intros i Hi. apply in_seq in Hi. lia.
Qed.

Lemma to_int32_small z : (-2147483648 <= z < 2147483648)%Z -> to_int32 z = z.
Proof. intros H. unfold to_int32. rewrite Z.mod_small; lia. Qed.

Lemma to_size_t_small z : (0 <= z < 18446744073709551616)%Z -> to_size_t z = z.
Proof. intros H. unfold to_size_t. now apply Z.mod_small. Qed.

Lemma n_edges_total_sum (g : net) :
  (Z.of_nat (list_sum (map (@length nat) (neigh g))) < 2147483648)%Z ->
  n_edges_total g = Z.of_nat (list_sum (map (@length nat) (neigh g))).
Proof.
  unfold n_edges_total.
  enough (G : forall l acc, (0 <= acc)%Z -> (acc + Z.of_nat (list_sum (map (@length nat) l)) < 2147483648)%Z ->
    fold_left (fun (acc : Z) (row : list nat) => to_int32 (to_size_t acc + Z.of_nat (length row))%Z) l acc
    = (acc + Z.of_nat (list_sum (map (@length nat) l)))%Z).
  { intros H. rewrite G by lia. rewrite to_size_t_small; lia. }
  induction l as [|r l IH]; intros acc H0 H; cbn [fold_left map list_sum fold_right] in *; [lia|].
  change (fold_right Nat.add 0 (map (length (A:=nat)) l)) with (list_sum (map (@length nat) l)) in *.
  rewrite Nat2Z.inj_add in *.
  rewrite (to_size_t_small acc) by lia. rewrite to_int32_small by lia.
  rewrite IH by lia. lia.
Qed.

(** In general the count is the true one modulo 2^32, sign-extended to 64 bits. *)
Lemma n_edges_total_wrap (g : net) :
  n_edges_total g = to_size_t (to_int32 (Z.of_nat (list_sum (map (@length nat) (neigh g))))).
Proof.
  unfold n_edges_total. f_equal.
  enough (G : forall l acc, fold_left (fun (acc : Z) (row : list nat) => to_int32 (to_size_t acc + Z.of_nat (length row))%Z) l (to_int32 acc)
    = to_int32 (acc + Z.of_nat (list_sum (map (@length nat) l)))%Z).
  { apply (G _ 0%Z). }
  assert (Q : forall a b, to_int32 (to_size_t (to_int32 a) + b) = to_int32 (a + b)).
  { intros a b.
    assert (E1 : exists q, to_size_t (to_int32 a) = (a + q * 4294967296)%Z).
    { unfold to_size_t, to_int32.
      rewrite (Z.mod_eq _ 18446744073709551616) by lia.
      match goal with |- context[(?x / 18446744073709551616)%Z] => set (q1 := (x / 18446744073709551616)%Z) end.
      rewrite (Z.mod_eq _ 4294967296) by lia.
      match goal with |- context[((a + _) / 4294967296)%Z] => set (q2 := ((a + 2147483648) / 4294967296)%Z) end.
      exists (- q2 - 4294967296 * q1)%Z. ring. }
    destruct E1 as (q & ->). unfold to_int32. f_equal.
    replace (a + q * 4294967296 + b + 2147483648)%Z with (a + b + 2147483648 + q * 4294967296)%Z by ring.
    now rewrite Z.mod_add by lia. }
  induction l as [|r l IH]; intros acc; cbn [fold_left map list_sum fold_right].
  - now rewrite Z.add_0_r.
  - rewrite Q, IH. f_equal.
    change (fold_right Nat.add 0 (map (length (A:=nat)) l)) with (list_sum (map (@length nat) l)). lia.
Qed.

End Setters.
