(** Proofs about [MNetwork]: toggle, transpose, switch. *)
From Verif Require Import Base BaseFacts MNetwork SNetwork.
From Coq Require Import Permutation Sorting.Sorted.

(** ** General list facts *)
Lemma flat_map_ext_in X Y (f g : X -> list Y) l :
  (forall x, In x l -> f x = g x) -> flat_map f l = flat_map g l.
Proof.
  induction l as [|x l IH]; intros H; cbn; auto.
  rewrite H by (cbn; auto). f_equal. apply IH. intros; apply H; cbn; auto.
Qed.

Lemma flat_map_perm_key X (key : X -> nat) (L : list X) n :
  (forall x, In x L -> key x < n) ->
  Permutation (flat_map (fun k => filter (fun x => key x =? k) L) (seq 0 n)) L.
Proof.
  induction L as [|x L IH]; intros H.
  - cbn. assert (E : flat_map (fun _ : nat => @nil X) (seq 0 n) = []).
    { induction (seq 0 n); cbn; auto. }
    rewrite E. constructor.
  - assert (G : forall m i, i <= key x < i + m ->
        Permutation (flat_map (fun k => filter (fun x => key x =? k) (x :: L)) (seq i m))
                    (x :: flat_map (fun k => filter (fun x => key x =? k) L) (seq i m))).
    { induction m as [|m IHm]; intros i Hi; [lia|]. cbn [seq flat_map].
      cbn [filter]. destruct (key x =? i) eqn:E.
      - apply Nat.eqb_eq in E. cbn. constructor. apply Permutation_app_head.
        match goal with |- Permutation ?a ?b => assert (Q : a = b); [|rewrite Q; apply Permutation_refl] end.
        apply flat_map_ext_in. intros k Hk. apply in_seq in Hk.
        assert (Hk' : key x =? k = false) by (apply Nat.eqb_neq; lia). now rewrite Hk'.
      - apply Nat.eqb_neq in E.
        eapply Permutation_trans; [apply Permutation_app_head; apply IHm; lia|].
        apply Permutation_sym, Permutation_middle. }
    eapply Permutation_trans; [apply G; cbn; specialize (H x (or_introl eq_refl)); lia|].
    constructor. apply IH. intros; apply H; cbn; auto.
Qed.

Lemma flat_map_map X Y Z (f : X -> Y) (g : Y -> list Z) l :
  flat_map g (map f l) = flat_map (fun x => g (f x)) l.
Proof. induction l; cbn; congruence. Qed.

Lemma map_flat_map X Y Z (f : Y -> Z) (g : X -> list Y) l :
  map f (flat_map g l) = flat_map (fun x => map f (g x)) l.
Proof. induction l; cbn; auto. rewrite map_app. congruence. Qed.

Lemma filter_flat_map X Y (p : Y -> bool) (g : X -> list Y) l :
  filter p (flat_map g l) = flat_map (fun x => filter p (g x)) l.
Proof. induction l; cbn; auto. rewrite filter_app. congruence. Qed.

Lemma filter_map X Y (p : Y -> bool) (f : X -> Y) l :
  filter p (map f l) = map f (filter (fun x => p (f x)) l).
Proof. induction l as [|x l IH]; cbn; auto. destruct (p (f x)); cbn; congruence. Qed.

Lemma combine_map_fst_snd X Y (l : list (X * Y)) : combine (map fst l) (map snd l) = l.
Proof. induction l as [|[x y] l IH]; cbn; congruence. Qed.

Lemma combine_firstn_S X Y (l : list X) (l' : list Y) k x y :
  nth_error l k = Some x -> nth_error l' k = Some y ->
  combine (firstn (S k) l) (firstn (S k) l') = combine (firstn k l) (firstn k l') ++ [(x, y)].
Proof.
  revert l' k; induction l as [|a l IH]; intros [|b l'] [|k]; cbn; try discriminate.
  - intros [= ->] [= ->]. reflexivity.
  - intros H1 H2. f_equal. now apply IH.
Qed.

Section Net.
Context {A W : Type}.
Notation net := (network A W).

(** ** The exact result of toggle *)

(** The adjacencies that point to [k] among the first [m] rows, in storage order. *)
Definition colpref (g : net) (m k : nat) : list (nat * W) :=
  flat_map (fun i => map (fun p => (i, snd p)) (filter (fun p => fst p =? k) (row g i))) (seq 0 m).

Definition column (g : net) (k : nat) : list (nat * W) := colpref g (length (agents g)) k.

Definition toggled (g : net) : net :=
  mkNet (agents g)
        (map (fun k => map fst (column g k)) (seq 0 (length (agents g))))
        (map (fun k => map snd (column g k)) (seq 0 (length (agents g))))
        (other (dir g)).

Definition rowp (g : net) (i m : nat) : list (nat * W) :=
  combine (firstn m (nth i (neigh g) [])) (firstn m (nth i (wts g) [])).

Definition cellp (g : net) (i m k : nat) : list (nat * W) :=
  colpref g i k ++ map (fun p => (i, snd p)) (filter (fun p => fst p =? k) (rowp g i m)).

Lemma cellp_S (g : net) i m k j w :
  nth_error (nth i (neigh g) []) m = Some j -> nth_error (nth i (wts g) []) m = Some w ->
  cellp g i (S m) k = cellp g i m k ++ (if j =? k then [(i, w)] else []).
Proof.
  intros Ej Ew. unfold cellp, rowp. rewrite (combine_firstn_S _ _ _ _ _ j w Ej Ew), filter_app.
  cbn [filter fst]. rewrite map_app, app_assoc. f_equal. now destruct (j =? k).
Qed.

Lemma toggle_exact (g : net) : toggle_safe g -> toggle_incoming_outgoing g = Ok (toggled g).
Proof.
  intros [Hlen Hsafe]. unfold toggle_incoming_outgoing, n_agents.
  set (n := length (agents g)) in *.
  match goal with |- bind (for_n n ?b ?s0) ?kont = _ =>
    assert (H : okp (for_n n b s0) (fun st => st =
       (map (fun k => map fst (colpref g n k)) (seq 0 n), map (fun k => map snd (colpref g n k)) (seq 0 n)))) end.
  { apply (for_n_inv _ (fun i st => st =
       (map (fun k => map fst (colpref g i k)) (seq 0 n), map (fun k => map snd (colpref g i k)) (seq 0 n)))).
    - cbn. f_equal; (apply (list_ext_nth _ _ _ []); [now rewrite repeat_length, map_length, seq_length|]);
        intros i Hi; rewrite repeat_length in Hi; rewrite nth_repeat;
        rewrite (nth_map_seq _ (fun _ => [])); auto.
    - intros i st Hi ->.
      rewrite (vget_lt _ _ _ []) by lia. cbn [bind].
      set (ni := nth i (neigh g) []).
      eapply okp_impl.
      + apply (for_n_inv _ (fun m st => st =
          (map (fun k => map fst (cellp g i m k)) (seq 0 n), map (fun k => map snd (cellp g i m k)) (seq 0 n)))).
        * f_equal; apply map_ext; intros k; unfold cellp, rowp; cbn; now rewrite app_nil_r.
        * intros m st Hm ->.
          destruct (nth_error ni m) as [j|] eqn:Ej; [|apply nth_error_None in Ej; lia].
          destruct (Hsafe i m j Hi Ej) as (Hj & Hiw & Hkw).
          unfold vget at 1. rewrite Ej. cbn [bind].
          rewrite (vget_lt _ (wts g) _ []) by lia. cbn [bind].
          destruct (nth_error (nth i (wts g) []) m) as [w|] eqn:Ew; [|apply nth_error_None in Ew; lia].
          unfold vget at 1. rewrite Ew. cbn [bind].
          rewrite (vget_lt _ _ _ []) by (rewrite map_length, seq_length; lia). cbn [bind].
          rewrite vset_ok by (rewrite map_length, seq_length; lia). cbn [bind].
          rewrite (vget_lt _ _ _ []) by (rewrite map_length, seq_length; lia). cbn [bind].
          rewrite vset_ok by (rewrite map_length, seq_length; lia). cbn [bind okp].
          rewrite !(nth_map_seq _ (fun k => map _ (cellp g i m k))) by lia.
          f_equal; (apply (list_ext_nth _ _ _ []);
            [rewrite upd_length, !map_length; auto|]);
            intros k Hk; rewrite upd_length, map_length, seq_length in Hk;
            rewrite nth_upd, map_length, seq_length;
            rewrite !(nth_map_seq _ (fun k => map _ (cellp g i _ k))) by lia;
            rewrite (proj2 (Nat.ltb_lt j n) Hj), andb_true_r;
            rewrite (cellp_S g i m k j w Ej Ew);
            destruct (j =? k) eqn:E; try (apply Nat.eqb_eq in E; subst k);
            rewrite ?map_app, ?app_nil_r; reflexivity.
      + cbn beta. intros st ->. f_equal; apply map_ext; intros k; unfold cellp;
          unfold colpref at 2; rewrite seq_S, flat_map_app; cbn [flat_map Nat.add];
          rewrite app_nil_r; unfold rowp, row; fold ni; rewrite firstn_all, <- combine_firstn_l; auto. }
  apply okp_ex in H as (st & -> & ->). cbn [bind]. unfold toggled, switch_direction_flag, column. cbn.
  fold n. destruct (dir g); reflexivity.
Qed.

(** ** Toggle is defined exactly on safe networks *)
Lemma for_from_ok_inv S (body : nat -> S -> res S) i n s s' :
  for_from i n body s = Ok s' ->
  forall j, i <= j < i + n -> exists t t', body j t = Ok t'.
Proof.
  revert i s; induction n as [|n IH]; intros i s H j Hj; [lia|].
  cbn [for_from] in H. apply bind_ok_inv in H as (s1 & H1 & H2).
  destruct (Nat.eq_dec i j) as [->|Hne]; [eauto|].
  apply (IH (Datatypes.S i) s1 H2). lia.
Qed.

Lemma for_n_ok_inv S (body : nat -> S -> res S) n s s' :
  for_n n body s = Ok s' -> forall j, j < n -> exists t t', body j t = Ok t'.
Proof. intros H j Hj. eapply for_from_ok_inv; eauto. lia. Qed.

Lemma for_n_ok_inv_inv S (Inv : S -> Prop) (body : nat -> S -> res S) n s s' :
  Inv s -> (forall j t t', j < n -> Inv t -> body j t = Ok t' -> Inv t') ->
  for_n n body s = Ok s' -> forall j, j < n -> exists t t', Inv t /\ body j t = Ok t'.
Proof.
  unfold for_n. intros Hs Hinv H j Hj.
  enough (G : forall m i s, Inv s -> i + m <= n -> for_from i m body s = Ok s' ->
     forall j, i <= j < i + m -> exists t t', Inv t /\ body j t = Ok t')
    by (eapply (G n 0); eauto; lia).
  clear s Hs H j Hj. induction m as [|m IH]; intros i s Hs Hm H j Hj; [lia|].
  cbn [for_from] in H. apply bind_ok_inv in H as (s1 & H1 & H2).
  destruct (Nat.eq_dec i j) as [->|Hne]; [eauto|].
  apply (IH (Datatypes.S i) s1); eauto; try lia. eapply Hinv; eauto. lia.
Qed.

Lemma toggle_ok_safe (g g' : net) : toggle_incoming_outgoing g = Ok g' -> toggle_safe g.
Proof.
  unfold toggle_incoming_outgoing, n_agents. set (n := length (agents g)). intros H.
  apply bind_ok_inv in H as ([nt0 wt0] & H & _).
  assert (Hrow : forall i, i < n -> exists st st',
     length (fst st) = n /\
     (ni <- vget (neigh g) i ;;
      for_n (length ni) (fun k st =>
        let '(nt, wt) := st in
        neighbour <- vget ni k ;;
        wi <- vget (wts g) i ;;
        weight <- vget wi k ;;
        rn <- vget nt neighbour ;;
        nt' <- vset nt neighbour (rn ++ [i]) ;;
        rw <- vget wt neighbour ;;
        wt' <- vset wt neighbour (rw ++ [weight]) ;;
        Ok (nt', wt')) st) = Ok st').
  { intros i Hi.
    apply (for_n_ok_inv_inv _ (fun st => length (fst st) = n) _ _ _ _) with (j := i) in H; auto.
    - cbn. apply repeat_length.
    - intros j [nt wt] [nt' wt'] Hj Ht Hb. apply bind_ok_inv in Hb as (ni & Hni & Hb).
      match type of Hb with for_n _ ?b _ = _ =>
        assert (G : forall m s s', length (fst s) = n -> for_n m b s = Ok s' -> length (fst s') = n) end.
      { induction m as [|m IH]; intros s s' Hs Hf.
        - cbn in Hf. inversion Hf; subst; auto.
        - rewrite for_n_S in Hf. apply bind_ok_inv in Hf as ([a b] & Hf & Hl).
          apply IH in Hf; auto. cbn in Hf.
          repeat (apply bind_ok_inv in Hl as (? & ? & Hl)).
          inversion Hl; subst; cbn.
          match goal with Hv : vset a _ _ = Ok _ |- _ => apply vset_inv in Hv as [_ ->] end.
          now rewrite upd_length. }
      apply (G _ _ _ Ht Hb). }
  split.
  - destruct (Nat.le_gt_cases n (length (neigh g))) as [Hle|Hgt]; auto.
    destruct (Hrow (length (neigh g)) Hgt) as (st & st' & _ & Hb).
    rewrite vget_ub in Hb by auto. discriminate.
  - intros i k j Hi Hk.
    destruct (Hrow i Hi) as (st & st' & Hst & Hb). apply bind_ok_inv in Hb as (ni & Hni & Hb).
    apply vget_ok in Hni. rewrite (nth_error_nth _ _ [] Hni) in Hk.
    assert (Hkn : k < length ni) by (apply nth_error_Some; congruence).
    apply (for_n_ok_inv_inv _ (fun st => length (fst st) = n) _ _ _ _) with (j := k) in Hb; auto.
    + destruct Hb as ([nt wt] & [nt' wt'] & Ht & Hb). cbn in Ht.
      apply bind_ok_inv in Hb as (j' & Hj' & Hb). apply vget_ok in Hj'.
      rewrite Hk in Hj'. inversion Hj'; subst j'.
      apply bind_ok_inv in Hb as (wi & Hwi & Hb). apply bind_ok_inv in Hb as (w & Hw & Hb).
      apply bind_ok_inv in Hb as (rn & Hrn & Hb).
      apply vget_ok in Hwi. apply vget_ok in Hw. apply vget_ok in Hrn.
      split; [|split].
      * assert (Hjn : j < length nt) by (apply nth_error_Some; congruence). lia.
      * apply nth_error_Some. congruence.
      * rewrite (nth_error_nth _ _ [] Hwi). apply nth_error_Some. congruence.
    + intros m [nt wt] [nt' wt'] Hm Ht Hl. cbn in Ht.
      repeat (apply bind_ok_inv in Hl as (? & ? & Hl)).
      inversion Hl; subst; cbn.
      match goal with Hv : vset nt _ _ = Ok _ |- _ => apply vset_inv in Hv as [_ ->] end.
      now rewrite upd_length.
Qed.

Lemma wf_toggle_safe (g : net) : wf g -> toggle_safe g.
Proof.
  intros (H1 & H2 & H3 & H4). split; [lia|]. intros i k j Hi Hk.
  split; [apply (H4 i); eapply nth_error_In; eauto|]. split; [lia|].
  rewrite <- H3 by auto. apply nth_error_Some. congruence.
Qed.

(** ** The graph *)
Definition stored (g : net) : list (nat * (nat * W)) :=
  flat_map (fun i => map (fun p => (i, p)) (row g i)) (seq 0 (length (neigh g))).

Definition orient (d : direction) (x : nat * (nat * W)) : nat * nat * W :=
  match d with
  | Outgoing => (fst x, fst (snd x), snd (snd x))
  | Incoming => (fst (snd x), fst x, snd (snd x))
  end.

Definition swap (x : nat * (nat * W)) : nat * (nat * W) := (fst (snd x), (fst x, snd (snd x))).

Lemma edges_stored (g : net) : edges g = map (orient (dir g)) (stored g).
Proof.
  unfold edges, stored. rewrite map_flat_map. apply flat_map_ext_in. intros i _.
  rewrite map_map. apply map_ext. intros [j w]. now destruct (dir g).
Qed.

Lemma row_toggled (g : net) k : k < length (agents g) -> row (toggled g) k = column g k.
Proof.
  intros Hk. unfold row, toggled. cbn.
  rewrite !(nth_map_seq _ (fun k => map _ (column g k))) by auto.
  apply combine_map_fst_snd.
Qed.

Lemma column_stored (g : net) k : length (neigh g) = length (agents g) ->
  column g k = map (fun x => (fst x, snd (snd x))) (filter (fun x => fst (snd x) =? k) (stored g)).
Proof.
  intros HL. unfold column, colpref, stored. rewrite HL.
  rewrite filter_flat_map, map_flat_map. apply flat_map_ext_in. intros i _.
  rewrite filter_map, map_map. reflexivity.
Qed.

Lemma stored_in (g : net) x : wf g -> In x (stored g) ->
  fst x < length (agents g) /\ fst (snd x) < length (agents g).
Proof.
  intros (H1 & H2 & H3 & H4) Hx. unfold stored in Hx. apply in_flat_map in Hx as (i & Hi & Hx).
  apply in_seq in Hi. apply in_map_iff in Hx as ([j w] & <- & Hx). cbn.
  split; [lia|]. apply in_combine_l in Hx. eauto.
Qed.

Lemma stored_toggled (g : net) : wf g -> Permutation (stored (toggled g)) (map swap (stored g)).
Proof.
  intros Hwf. assert (HL : length (neigh g) = length (agents g)) by apply Hwf.
  unfold stored at 1. cbn [neigh toggled]. rewrite map_length, seq_length.
  replace (flat_map (fun i => map (fun p => (i, p)) (row (toggled g) i)) (seq 0 (length (agents g))))
    with (map swap (flat_map (fun k => filter (fun x => fst (snd x) =? k) (stored g))
                             (seq 0 (length (agents g))))).
  - apply Permutation_map. apply flat_map_perm_key. intros x Hx. now apply stored_in.
  - rewrite map_flat_map. apply flat_map_ext_in. intros k Hk. apply in_seq in Hk.
    rewrite row_toggled by lia. rewrite column_stored by auto. rewrite map_map.
    apply map_ext_in. intros x Hx. apply filter_In in Hx as [_ Hx]. apply Nat.eqb_eq in Hx.
    unfold swap. now rewrite Hx.
Qed.

Lemma orient_swap d x : orient (other d) (swap x) = orient d x.
Proof. destruct d, x as [i [j w]]; reflexivity. Qed.

Lemma orient_other d x : orient (other d) x = flip (orient d x).
Proof. destruct d, x as [i [j w]]; reflexivity. Qed.

Lemma other_other d : other (other d) = d.
Proof. now destruct d. Qed.

Lemma toggled_same_graph (g : net) : wf g -> same_graph g (toggled g).
Proof.
  intros Hwf. split; [reflexivity|]. rewrite !edges_stored. cbn [dir toggled].
  apply Permutation_sym. rewrite (stored_toggled g Hwf), map_map.
  erewrite map_ext; [apply Permutation_refl|]. intros x. apply orient_swap.
Qed.

Lemma wf_toggled (g : net) : wf g -> wf (toggled g).
Proof.
  intros Hwf. assert (HL : length (neigh g) = length (agents g)) by apply Hwf.
  unfold wf. cbn. rewrite !map_length, !seq_length.
  split; [auto|]. split; [auto|]. split.
  - intros i Hi. rewrite !(nth_map_seq _ (fun k => map _ (column g k))) by auto.
    now rewrite !map_length.
  - intros i j Hj. destruct (Nat.lt_ge_cases i (length (agents g))) as [Hi|Hi].
    + rewrite (nth_map_seq _ (fun k => map _ (column g k))) in Hj by auto.
      apply in_map_iff in Hj as ([j' w] & <- & Hj). cbn.
      unfold column, colpref in Hj. apply in_flat_map in Hj as (i' & Hi' & Hj).
      apply in_seq in Hi'. apply in_map_iff in Hj as (p & [= <- <-] & _). lia.
    + rewrite nth_overflow in Hj by (now rewrite map_length, seq_length). destruct Hj.
Qed.

Lemma edges_switch (g : net) : edges (switch_direction_flag g) = map flip (edges g).
Proof.
  rewrite !edges_stored. rewrite map_map.
  replace (stored (switch_direction_flag g)) with (stored g) by reflexivity.
  apply map_ext. intros x. rewrite <- orient_other. destruct (dir g) eqn:E; cbn; now rewrite E.
Qed.

Lemma dir_switch (g : net) : dir (switch_direction_flag g) = other (dir g).
Proof. cbn. now destruct (dir g). Qed.

Lemma wf_switch (g : net) : wf g -> wf (switch_direction_flag g).
Proof. auto. Qed.

Lemma flip_flip (e : nat * nat * W) : flip (flip e) = e.
Proof. now destruct e as [[s t] w]. Qed.

Lemma map_flip_flip (l : list (nat * nat * W)) : map flip (map flip l) = l.
Proof. rewrite map_map. erewrite map_ext; [apply map_id|]. apply flip_flip. Qed.

Lemma transpose_exact (g : net) :
  toggle_safe g -> transpose g = Ok (switch_direction_flag (toggled g)).
Proof. intros H. unfold transpose. now rewrite toggle_exact. Qed.

Lemma transpose_graph (g : net) : wf g ->
  transposed_graph g (switch_direction_flag (toggled g)).
Proof.
  intros Hwf. split; [reflexivity|]. rewrite edges_switch.
  apply Permutation_map. now apply toggled_same_graph.
Qed.

(** ** Double toggle: stable sort of each row *)
Lemma column_filter (g : net) i k : i < length (agents g) ->
  filter (fun p => fst p =? i) (column g k) =
  map (fun p => (i, snd p)) (filter (fun p => fst p =? k) (row g i)).
Proof.
  intros Hi. unfold column, colpref. rewrite filter_flat_map.
  assert (G : forall l, NoDup l ->
    flat_map (fun x => filter (fun p => fst p =? i)
        (map (fun p => (x, snd p)) (filter (fun p => fst p =? k) (row g x)))) l =
    if in_dec Nat.eq_dec i l then map (fun p => (i, snd p)) (filter (fun p => fst p =? k) (row g i)) else []).
  { induction l as [|x l IH]; intros Hnd; cbn [flat_map].
    - reflexivity.
    - inversion Hnd as [|? ? Hx Hl]; subst. rewrite IH by auto. rewrite filter_map. cbn [fst].
      destruct (Nat.eq_dec x i) as [->|Hne].
      + destruct (in_dec Nat.eq_dec i l); [tauto|].
        destruct (in_dec Nat.eq_dec i (i :: l)) as [_|Hn]; [|cbn in Hn; tauto].
        rewrite app_nil_r. f_equal.
        rewrite (filter_ext _ (fun _ => true)) by (intros; apply Nat.eqb_refl).
        clear. induction (filter (fun p => fst p =? k) (row g i)); cbn; congruence.
      + rewrite (filter_ext _ (fun _ => false)) by (intros; now apply Nat.eqb_neq).
        replace (filter (fun _ : nat * W => false) (filter (fun p => fst p =? k) (row g x))) with (@nil (nat * W))
          by (clear; induction (filter (fun p => fst p =? k) (row g x)); cbn; auto).
        cbn [map app].
        destruct (in_dec Nat.eq_dec i l); destruct (in_dec Nat.eq_dec i (x :: l)) as [Hin|Hn]; auto.
        * cbn in Hn; tauto.
        * cbn in Hin. destruct Hin; tauto. }
  rewrite G by apply seq_NoDup.
  destruct (in_dec Nat.eq_dec i (seq 0 (length (agents g)))) as [_|Hn]; auto.
  exfalso. apply Hn. apply in_seq. lia.
Qed.

Lemma row_toggled_twice (g : net) i : i < length (agents g) ->
  row (toggled (toggled g)) i =
  flat_map (fun k => filter (fun p => fst p =? k) (row g i)) (seq 0 (length (agents g))).
Proof.
  intros Hi. rewrite row_toggled by auto. unfold column at 1, colpref. cbn [agents toggled].
  apply flat_map_ext_in. intros k Hk. apply in_seq in Hk.
  rewrite row_toggled by lia. rewrite column_filter by auto. rewrite map_map. cbn.
  rewrite (map_ext_in _ (fun p => p)).
  - apply map_id.
  - intros [j w] Hp. apply filter_In in Hp as [_ Hp]. cbn in Hp. apply Nat.eqb_eq in Hp. now subst.
Qed.

Lemma sorted_by_key_flat (L : list (nat * W)) m i :
  Sorted le (map fst (flat_map (fun k => filter (fun p => fst p =? k) L) (seq i m))) /\
  (forall j, In j (map fst (flat_map (fun k => filter (fun p => fst p =? k) L) (seq i m))) -> i <= j).
Proof.
  revert i; induction m as [|m IH]; intros i; cbn [seq flat_map].
  - split; [constructor|]. intros j [].
  - destruct (IH (S i)) as [IH1 IH2]. rewrite map_app.
    assert (Hall : forall j, In j (map fst (filter (fun p => fst p =? i) L)) -> j = i).
    { intros j Hj. apply in_map_iff in Hj as (p & <- & Hp). apply filter_In in Hp as [_ Hp].
      now apply Nat.eqb_eq in Hp. }
    split.
    + induction (map fst (filter (fun p => fst p =? i) L)) as [|a l IHl]; cbn; auto.
      constructor.
      * apply IHl. intros j Hj. apply Hall. cbn; auto.
      * assert (a = i) by (apply Hall; cbn; auto). subst a.
        destruct l as [|b l].
        -- cbn. destruct (map fst (flat_map (fun k => filter (fun p => fst p =? k) L) (seq (S i) m))) as [|c t] eqn:E;
             constructor. assert (S i <= c) by (apply IH2; cbn; auto). lia.
        -- cbn. constructor. rewrite (Hall b) by (cbn; auto). auto.
    + intros j Hj. apply in_app_or in Hj as [Hj|Hj].
      * rewrite (Hall j Hj). auto.
      * specialize (IH2 j Hj). lia.
Qed.

Lemma flat_filter_sorted_id (L : list (nat * W)) n :
  (forall p, In p L -> fst p < n) -> Sorted le (map fst L) ->
  flat_map (fun k => filter (fun p => fst p =? k) L) (seq 0 n) = L.
Proof.
  intros Hn Hs. apply Sorted_StronglySorted in Hs; [|intros a b c; lia].
  enough (G : forall m i, (forall p, In p L -> i <= fst p < i + m) ->
     flat_map (fun k => filter (fun p => fst p =? k) L) (seq i m) = L)
    by (apply G; intros p Hp; specialize (Hn p Hp); lia).
  clear n Hn. intros m; revert L Hs. induction m as [|m IH]; intros L Hs i HL; cbn [seq flat_map].
  - destruct L as [|p L]; auto. specialize (HL p (or_introl eq_refl)). lia.
  - (* split L into the prefix of keys = i and the rest *)
    assert (Hsplit : exists L1 L2, L = L1 ++ L2 /\ (forall p, In p L1 -> fst p = i) /\
                                   (forall p, In p L2 -> S i <= fst p < S i + m)).
    { clear IH. induction L as [|p L IHL].
      - exists [], []. split; auto. split; intros ? [].
      - cbn in Hs. inversion Hs as [|? ? Hs1 Hs2]; subst.
        destruct (Nat.eq_dec (fst p) i) as [E|E].
        + destruct IHL as (L1 & L2 & -> & H1 & H2); auto.
          { intros q Hq. apply HL. cbn; auto. }
          exists (p :: L1), L2. split; auto. split; auto.
          intros q [<-|Hq]; auto.
        + exists [], (p :: L). split; auto. split; [intros ? []|].
          intros q [<-|Hq].
          * specialize (HL p (or_introl eq_refl)). lia.
          * assert (Hpq : fst p <= fst q).
            { rewrite Forall_forall in Hs2. apply Hs2. now apply in_map. }
            pose proof (HL p (or_introl eq_refl)). specialize (HL q (or_intror Hq)). lia. }
    destruct Hsplit as (L1 & L2 & -> & H1 & H2).
    assert (E1 : filter (fun p => fst p =? i) (L1 ++ L2) = L1).
    { rewrite filter_app. replace (filter (fun p => fst p =? i) L2) with (@nil (nat * W)).
      - rewrite app_nil_r. clear Hs HL IH H2. induction L1 as [|p L1 IHl]; cbn; auto.
        rewrite (proj2 (Nat.eqb_eq _ _)) by (apply H1; cbn; auto). f_equal. apply IHl.
        intros; apply H1; cbn; auto.
      - clear Hs HL IH H1. induction L2 as [|p L2 IHl]; cbn; auto.
        rewrite (proj2 (Nat.eqb_neq _ _)) by (specialize (H2 p (or_introl eq_refl)); lia). apply IHl.
        intros; apply H2; cbn; auto. }
    rewrite E1. f_equal.
    rewrite (flat_map_ext_in _ _ _ (fun k => filter (fun p => fst p =? k) L2)).
    + apply IH; auto.
      rewrite map_app in Hs. clear -Hs. induction (map fst L1) as [|a l IHl]; cbn in *; auto.
      inversion Hs; auto.
    + intros k Hk. apply in_seq in Hk. rewrite filter_app.
      replace (filter (fun p => fst p =? k) L1) with (@nil (nat * W)); auto.
      clear -H1 Hk. induction L1 as [|p L1 IHl]; cbn; auto.
      rewrite (proj2 (Nat.eqb_neq _ _)) by (rewrite (H1 p) by (cbn; auto); lia). apply IHl.
      intros; apply H1; cbn; auto.
Qed.

End Net.
