(** The probabilistic network update of the activity-driven model. *)
From Verif Require Import Base BaseFacts Arith64 MRandom SRandom PRandom MDist MNetwork SNetwork PNetwork PNetwork2
  MAgents MDeGroot MActivity SActivity PActStep.
From Coq Require Import Permutation.

Lemma firstn_upd X (l : list X) i v : firstn i (upd l i v) = firstn i l.
Proof. revert i; induction l as [|x l IH]; intros [|i]; cbn; auto. f_equal. apply IH. Qed.

Section Net.
Context {a : Arith} (lm : Libm a) (g : Rng a) (q : PQ a) {A : Type} (ops : agent_ops (F a) A).
Notation D := (F a).
Notation settings := (ad_settings D).
Notation net := (network A D).

Lemma bot_guard (st : settings) i : bot_present st && (i <? n_bots st) = (i <? n_bots st).
Proof. unfold bot_present. destruct (Nat.ltb_spec 0 (n_bots st)), (Nat.ltb_spec i (n_bots st)); auto; lia. Qed.

Lemma homophily_weight_ok (st : settings) (l : list A) n i j :
  settings_fit st n -> i < length l -> j < length l ->
  homophily_weight lm ops st l i j = Ok (affinity lm ops st l i j).
Proof.
  intros (_ & _ & _ & Hh & _) Hi Hj. unfold homophily_weight, affinity.
  destruct (j =? i); auto. rewrite bot_guard.
  assert (Eh : (if i <? n_bots st then vget (bot_homophily st) i else Ok (homophily st)) = Ok (homophily_of st i)).
  { unfold homophily_of. destruct (Nat.ltb_spec i (n_bots st)); auto. apply vget_lt. lia. }
  rewrite Eh. cbn [bind].
  destruct (nth_error l i) as [x|] eqn:Ex. 2:{ apply nth_error_None in Ex. lia. }
  destruct (nth_error l j) as [y|] eqn:Ey. 2:{ apply nth_error_None in Ey. lia. }
  unfold opinion_at, vget. rewrite Ex, Ey. reflexivity.
Qed.

Lemma m_of_ok (st : settings) n i : settings_fit st n ->
  exists z, m_of st i = Ok z /\ Z.to_nat (to_size_t z) = contact_count st i /\ contact_count st i <= n.
Proof.
  intros (H1 & H2 & H3 & _ & H5). unfold m_of, contact_count. rewrite bot_guard.
  destruct (Nat.ltb_spec i (n_bots st)).
  - exists (nth i (bot_m st) 0%Z). specialize (H5 i H). rewrite (vget_lt _ _ _ 0%Z) by lia.
    rewrite to_size_t_small by lia. repeat split; auto. lia.
  - exists (m st). rewrite to_size_t_small by lia. repeat split; auto. lia.
Qed.

Lemma reservoir_ext k n w1 w2 buf s : (forall j, j < n -> w1 j = w2 j) ->
  reservoir_sampling_A_ExpJ lm g q k n w1 buf s = reservoir_sampling_A_ExpJ lm g q k n w2 buf s.
Proof.
  intros H. unfold reservoir_sampling_A_ExpJ. destruct (k =? 0); auto.
  match goal with |- bind ?x1 _ = bind ?x2 _ => replace x1 with x2 end.
  2:{ apply for_n_ext. intros j [h s'] Hj. destruct (r_real g (f0 a) (f1 a) s') as [u s2]. rewrite H by lia. reflexivity. }
  match goal with |- bind ?x _ = _ => destruct x as [[h s']|e|u|]; auto end.
  cbn [bind]. destruct (r_real g (f0 a) (f1 a) s') as [u s2].
  destruct (queue_top q h); auto. cbn [bind].
  match goal with |- bind ?x1 _ = bind ?x2 _ => replace x1 with x2 end; auto.
  apply for_from_ext. intros j [[h' X] s3] Hj. rewrite H by lia. reflexivity.
Qed.

Definition valid (n : nat) (c : list nat) : Prop := NoDup c /\ Forall (fun j => j < n) c.

Lemma sample_valid (st : settings) (l : list A) i buf s : pq_bag q -> settings_fit st (length l) -> i < length l ->
  valid (length l) buf ->
  exists c s', reservoir_sampling_A_ExpJ lm g q (contact_count st i) (length l)
      (fun j => Ok (affinity lm ops st l i j)) buf s = Ok (c, s') /\ valid (length l) c /\
      (contact_count st i <> 0 -> length c = contact_count st i) /\ (contact_count st i = 0 -> c = buf).
Proof.
  intros Hq Hs Hi Hb. destruct (m_of_ok st (length l) i Hs) as (z & _ & _ & Hle).
  destruct (Nat.eq_dec (contact_count st i) 0) as [E|E].
  - rewrite E. exists buf, s. split; [reflexivity|]. split; auto. split; [easy|auto].
  - pose proof (reservoir_ok lm g q Hq (fun j => Ok (affinity lm ops st l i j)) (length l)
       (fun j _ => I) (contact_count st i) buf s ltac:(lia)) as H.
    apply okp_ex in H as ([c s'] & Ec & H1 & H2 & H3). exists c, s'. cbn [fst] in *.
    split; auto. split; [split; auto|]. split; [auto|easy].
Qed.

(** inserting all edges of a row *)
Lemma set_contains_insert b p p' : set_contains (set_insert b p) p' = set_contains b p' || pair_eqb p' p.
Proof.
  unfold set_insert. destruct (set_contains b p) eqn:E; cbn [set_contains existsb].
  - destruct (pair_eqb p' p) eqn:E2; [|now rewrite orb_false_r].
    assert (p' = p).
    { unfold pair_eqb in E2. apply andb_true_iff in E2 as [H1 H2]. apply Nat.eqb_eq in H1, H2.
      destruct p, p'; cbn in *; congruence. }
    subst. now rewrite E.
  - unfold set_contains. cbn. apply orb_comm.
Qed.

Lemma set_contains_row i c : forall b p,
  set_contains (fold_left (fun b j => set_insert b (i, j)) c b) p =
  set_contains b p || ((fst p =? i) && existsb (Nat.eqb (snd p)) c).
Proof.
  induction c as [|j c IH]; intros b p; cbn [fold_left existsb].
  - now rewrite andb_false_r, orb_false_r.
  - rewrite IH, set_contains_insert. unfold pair_eqb. cbn [fst snd].
    destruct (set_contains b p), (fst p =? i), (snd p =? j); reflexivity.
Qed.

(** phase 1 *)
Lemma contact_phase (st : settings) (l : list A) : pq_bag q -> settings_fit st (length l) ->
  forall k i (h : net) buf B s, i + k = length l -> agents h = l ->
  length (neigh h) = length l -> length (wts h) = length l -> valid (length l) buf ->
  okp (for_from i k (contact_step lm g q ops st) (h, buf, B, s)) (fun r =>
    let '(h', buf', B', s') := r in exists cs,
      contacts_drawn lm g q ops st l i buf s cs s' /\ length cs = k /\ Forall (valid (length l)) cs /\
      agents h' = l /\ dir h' = dir h /\
      neigh h' = firstn i (neigh h) ++ cs /\
      wts h' = firstn i (wts h) ++ map (fun c => repeat (f1 a) (length c)) cs /\
      (forall p, set_contains B' p = set_contains B p || ((i <=? fst p) && existsb (Nat.eqb (snd p)) (nth (fst p - i) cs [])))).
Proof.
  intros Hq Hs. induction k as [|k IH]; intros i h buf B s Hi Ha Hn Hw Hb; cbn [for_from].
  - cbn [okp]. exists []. assert (i = length l) by lia. subst i. repeat split; auto.
    + apply cd_done.
    + rewrite app_nil_r, <- Hn. symmetry. apply firstn_all.
    + cbn. rewrite app_nil_r, <- Hw. symmetry. apply firstn_all.
    + intros p. destruct (fst p - length l); cbn; now rewrite andb_false_r, orb_false_r.
  - unfold contact_step at 1.
    destruct (r_real g (f0 a) (f1 a) s) as [u s1] eqn:Eu.
    destruct (nth_error l i) as [x|] eqn:Ex. 2:{ apply nth_error_None in Ex. lia. }
    unfold vget at 1. rewrite Ha, Ex. cbn [bind].
    destruct (flt a u (get_activity ops x)) eqn:Eact.
    + destruct (m_of_ok st (length l) i Hs) as (z & Ez & Ek & _). rewrite Ez. cbn [bind]. rewrite Ek.
      unfold n_agents. rewrite Ha.
      rewrite (reservoir_ext _ _ _ (fun j => Ok (affinity lm ops st l i j))).
      2:{ intros j Hj. apply (homophily_weight_ok st l (length l)); auto. lia. }
      destruct (sample_valid st l i buf s1 Hq Hs ltac:(lia) Hb) as (c & s2 & Ec & Hc & _ & _).
      rewrite Ec. cbn [bind]. unfold set_neighbours_const. rewrite !vset_ok by lia. cbn [bind].
      eapply okp_impl.
      { apply IH; cbn; rewrite ?upd_length; auto. lia. }
      intros [[[h' buf'] B'] s'] (cs & H1 & H2 & H3 & H4 & H5 & H6 & H7 & H8).
      exists (c :: cs). repeat split; auto.
      * eapply cd_active; eauto.
      * cbn. lia.
      * rewrite H6. cbn [neigh]. rewrite (firstn_S_nth_error _ _ _ c) by (apply nth_error_upd_eq; lia).
        rewrite <- app_assoc. cbn. f_equal.
        apply firstn_upd.
      * rewrite H7. cbn [wts]. rewrite (firstn_S_nth_error _ _ _ (repeat (f1 a) (length c))) by (apply nth_error_upd_eq; lia).
        rewrite <- app_assoc. cbn. f_equal.
        apply firstn_upd.
      * intros p. rewrite H8, set_contains_row. rewrite <- orb_assoc. f_equal.
        destruct (Nat.eqb_spec (fst p) i) as [E|E].
        -- rewrite E, Nat.sub_diag. cbn [nth andb].
           rewrite (proj2 (Nat.leb_gt (S i) i)) by lia. cbn. rewrite orb_false_r. now rewrite Nat.leb_refl.
        -- cbn [andb orb]. destruct (Nat.leb_spec (S i) (fst p)), (Nat.leb_spec i (fst p)); try lia; auto.
           replace (fst p - i) with (S (fst p - S i)) by lia. reflexivity.
    + unfold set_neighbours_const. rewrite !vset_ok by lia. cbn [bind].
      eapply okp_impl.
      { apply IH; cbn; rewrite ?upd_length; auto. lia. }
      intros [[[h' buf'] B'] s'] (cs & H1 & H2 & H3 & H4 & H5 & H6 & H7 & H8).
      exists ([] :: cs). repeat split; auto.
      * eapply cd_idle; eauto.
      * cbn. lia.
      * constructor; auto. split; constructor.
      * rewrite H6. cbn [neigh]. rewrite (firstn_S_nth_error _ _ _ []) by (apply nth_error_upd_eq; lia).
        rewrite <- app_assoc. cbn. f_equal.
        apply firstn_upd.
      * rewrite H7. cbn [wts]. rewrite (firstn_S_nth_error _ _ _ []) by (apply nth_error_upd_eq; lia).
        rewrite <- app_assoc. cbn. f_equal.
        apply firstn_upd.
      * intros p. rewrite H8. f_equal.
        destruct (Nat.eqb_spec (fst p) i) as [E|E].
        -- rewrite E, Nat.sub_diag. cbn [nth andb].
           rewrite (proj2 (Nat.leb_gt (S i) i)) by lia. cbn. now rewrite andb_false_r.
        -- destruct (Nat.leb_spec (S i) (fst p)), (Nat.leb_spec i (fst p)); try lia; auto.
           replace (fst p - i) with (S (fst p - S i)) by lia. reflexivity.
Qed.

(** ** Phase 2 *)
Definition pushed (R : list (nat * nat)) (k : nat) : list nat := map fst (filter (fun e => snd e =? k) R).
Definition out_row (cs : list (list nat)) (R : list (nat * nat)) (k : nat) : list nat := nth k cs [] ++ pushed R k.
Definition out_net (l : list A) (d : direction) (cs : list (list nat)) (R : list (nat * nat)) : net :=
  mkNet l (map (out_row cs R) (seq 0 (length cs)))
        (map (fun k => repeat (f1 a) (length (out_row cs R k))) (seq 0 (length cs))) d.

Lemma repeat_snoc X (x : X) n : repeat x n ++ [x] = repeat x (S n).
Proof. induction n; cbn; auto. f_equal. auto. Qed.

Lemma push_out l d cs R i j : j < length cs ->
  push_back_neighbour_and_weight (out_net l d cs R) j i (f1 a) = Ok (out_net l d cs (R ++ [(i, j)])).
Proof.
  intros Hj. unfold push_back_neighbour_and_weight, out_net. cbn [neigh wts agents dir].
  set (L1 := map (out_row cs R) (seq 0 (length cs))).
  set (L2 := map _ (seq 0 (length cs))).
  assert (HL1 : length L1 = length cs) by (unfold L1; now rewrite map_length, seq_length).
  assert (HL2 : length L2 = length cs) by (unfold L2; now rewrite map_length, seq_length).
  assert (E1 : vget L1 j = Ok (out_row cs R j)).
  { apply vget_ok. unfold L1. rewrite nth_error_map_seq. now rewrite (proj2 (Nat.ltb_lt _ _) Hj). }
  assert (E2 : vget L2 j = Ok (repeat (f1 a) (length (out_row cs R j)))).
  { apply vget_ok. unfold L2. rewrite nth_error_map_seq. now rewrite (proj2 (Nat.ltb_lt _ _) Hj). }
  rewrite E1. cbn [bind]. rewrite vset_ok by lia. cbn [bind]. rewrite E2. cbn [bind].
  rewrite vset_ok by lia. cbn [bind]. f_equal.
  assert (Hr : forall k, out_row cs (R ++ [(i, j)]) k = out_row cs R k ++ (if j =? k then [i] else [])).
  { intros k. unfold out_row, pushed. rewrite filter_app, map_app, app_assoc. f_equal. cbn. now destruct (j =? k). }
  f_equal.
  - apply list_ext. intros k. rewrite nth_error_upd, nth_error_map_seq, HL1, (proj2 (Nat.ltb_lt _ _) Hj), andb_true_r.
    unfold L1. rewrite nth_error_map_seq, Hr. destruct (Nat.eqb_spec j k) as [<-|Hne].
    + now rewrite (proj2 (Nat.ltb_lt _ _) Hj).
    + rewrite app_nil_r. reflexivity.
  - apply list_ext. intros k. rewrite nth_error_upd, nth_error_map_seq, HL2, (proj2 (Nat.ltb_lt _ _) Hj), andb_true_r.
    unfold L2. rewrite nth_error_map_seq, Hr. destruct (Nat.eqb_spec j k) as [<-|Hne].
    + rewrite (proj2 (Nat.ltb_lt _ _) Hj). rewrite app_length. cbn [length]. rewrite repeat_snoc. do 2 f_equal. lia.
    + rewrite app_nil_r. reflexivity.
Qed.

Lemma coins_app r p p' : forall s,
  coins g r (p ++ p') s = let (R1, s1) := coins g r p s in let (R2, s2) := coins g r p' s1 in (R1 ++ R2, s2).
Proof.
  induction p as [|e p IH]; intros s; cbn [app coins].
  - destruct (coins g r p' s); reflexivity.
  - destruct (r_real g (f0 a) (f1 a) s) as [u s1]. rewrite IH.
    destruct (coins g r p s1) as [R1 s2]. destruct (coins g r p' s2) as [R2 s3].
    destruct (flt a u r); reflexivity.
Qed.

Lemma coins_incl r p : forall s e, In e (fst (coins g r p s)) -> In e p.
Proof.
  induction p as [|e0 p IH]; intros s e; cbn [coins]; auto.
  destruct (r_real g (f0 a) (f1 a) s) as [u s1]. specialize (IH s1 e).
  destruct (coins g r p s1) as [R s2]. destruct (flt a u r); cbn [fst] in *; cbn; intuition auto.
Qed.

Lemma coins_NoDup r p : forall s, NoDup p -> NoDup (fst (coins g r p s)).
Proof.
  induction p as [|e0 p IH]; intros s H; cbn [coins]; auto.
  inversion H as [|? ? Hn Hd]; subst.
  destruct (r_real g (f0 a) (f1 a) s) as [u s1]. specialize (IH s1 Hd).
  pose proof (coins_incl r p s1) as Hin.
  destruct (coins g r p s1) as [R s2]. destruct (flt a u r); cbn [fst] in *; auto.
  constructor; auto.
Qed.

Definition is_one_way (cs : list (list nat)) (p : nat * nat) : bool := negb (contacted cs (snd p) (fst p)).

Lemma reciprocity_row (st : settings) l d cs B i :
  (forall p, set_contains B p = contacted cs (fst p) (snd p)) ->
  forall c R s, (forall j, In j c -> j < length cs /\ (contacted cs j i = false -> j <> i)) ->
  for_each c (fun idx_outgoing v =>
    let '(network, s) := v in
    if negb (set_contains B (idx_outgoing, i)) then
      let (u, s) := r_real g (f0 a) (f1 a) s in
      if flt a u (reciprocity st) then
        if idx_outgoing =? i then UB UbOther
        else
          network <- push_back_neighbour_and_weight network idx_outgoing i (f1 a) ;;
          Ok (network, s)
      else Ok (network, s)
    else Ok (network, s)) (out_net l d cs R, s)
  = let (R', s') := coins g (reciprocity st) (filter (is_one_way cs) (map (fun j => (i, j)) c)) s in
    Ok (out_net l d cs (R ++ R'), s').
Proof.
  intros HB. induction c as [|j c IH]; intros R s Hc; cbn [for_each map filter].
  - cbn [coins]. now rewrite app_nil_r.
  - destruct (Hc j (or_introl eq_refl)) as [Hj Hself].
    assert (Hc' : forall j0, In j0 c -> j0 < length cs /\ (contacted cs j0 i = false -> j0 <> i)).
    { intros; apply Hc; cbn; auto. }
    rewrite HB. cbn [fst snd]. unfold is_one_way at 1. cbn [fst snd].
    destruct (contacted cs j i) eqn:Ec; cbn [negb].
    + cbn [bind]. now rewrite IH.
    + cbn [coins]. destruct (r_real g (f0 a) (f1 a) s) as [u s1] eqn:Eu.
      destruct (flt a u (reciprocity st)).
      * rewrite (proj2 (Nat.eqb_neq j i)) by auto. rewrite push_out by auto. cbn [bind].
        rewrite IH by auto. destruct (coins g (reciprocity st) _ s1) as [R' s']. now rewrite <- app_assoc.
      * cbn [bind]. rewrite IH by auto. destruct (coins g (reciprocity st) _ s1) as [R' s']. reflexivity.
Qed.

Lemma contacted_in cs i j : contacted cs i j = true <-> In j (nth i cs []).
Proof.
  unfold contacted. rewrite existsb_exists. split.
  - intros (x & Hx & E). apply Nat.eqb_eq in E. now subst.
  - intros H. exists j. split; auto. apply Nat.eqb_refl.
Qed.

Definition pairs_upto (cs : list (list nat)) (k : nat) : list (nat * nat) :=
  flat_map (fun i => map (fun j => (i, j)) (nth i cs [])) (seq 0 k).

Lemma in_pairs_upto cs k p : In p (pairs_upto cs k) <-> fst p < k /\ In (snd p) (nth (fst p) cs []).
Proof.
  unfold pairs_upto. rewrite in_flat_map. split.
  - intros (i & Hi & Hp). apply in_seq in Hi. apply in_map_iff in Hp as (j & <- & Hj). cbn. split; auto. lia.
  - intros [H1 H2]. exists (fst p). split; [apply in_seq; lia|]. apply in_map_iff. exists (snd p). destruct p; auto.
Qed.

Lemma reciprocity_phase (st : settings) l d cs B s :
  length l = length cs -> Forall (valid (length l)) cs ->
  (forall p, set_contains B p = contacted cs (fst p) (snd p)) ->
  for_n (length cs) (reciprocity_step g st B) (out_net l d cs [], s)
  = let (R, s') := coins g (reciprocity st) (one_way cs) s in Ok (out_net l d cs R, s').
Proof.
  intros Hl Hv HB.
  set (r := reciprocity st).
  match goal with |- ?m = ?rhs => assert (G : okp m (fun x =>
      x = (let (R, s') := coins g r (filter (is_one_way cs) (pairs_upto cs (length cs))) s in (out_net l d cs R, s')))) end.
  2:{ apply okp_ex in G as (x & -> & ->). unfold one_way, contact_pairs. fold (pairs_upto cs (length cs)).
      unfold is_one_way. destruct (coins g r _ s); reflexivity. }
  apply (for_n_inv _ (fun k x => x = let (R, s') := coins g r (filter (is_one_way cs) (pairs_upto cs k)) s in (out_net l d cs R, s'))).
  - reflexivity.
  - intros i x Hi ->.
    pose proof (coins_incl r (filter (is_one_way cs) (pairs_upto cs i)) s) as Hin.
    unfold pairs_upto at 2. rewrite seq_S, flat_map_app, filter_app, coins_app.
    fold (pairs_upto cs i).
    destruct (coins g r (filter (is_one_way cs) (pairs_upto cs i)) s) as [R s1].
    cbn [fst] in Hin. cbn [Nat.add flat_map].
    unfold reciprocity_step. cbn [fst].
    assert (Erow : get_neighbours (out_net l d cs R) i = Ok (out_row cs R i)).
    { apply vget_ok. cbn [neigh out_net]. rewrite nth_error_map_seq. now rewrite (proj2 (Nat.ltb_lt _ _) Hi). }
    rewrite Erow. cbn [bind].
    assert (HR : forall i', In i' (pushed R i) -> i' < length cs /\ contacted cs i' i = true).
    { intros i' H. unfold pushed in H. apply in_map_iff in H as ([x y] & E & H). cbn in E. subst x.
      apply filter_In in H as [H Ey]. cbn in Ey. apply Nat.eqb_eq in Ey. subst y.
      apply Hin in H. apply filter_In in H as [H _]. apply in_pairs_upto in H. cbn in H.
      split; [lia|]. now apply contacted_in. }
    rewrite (reciprocity_row st l d cs B i HB).
    + assert (E : filter (is_one_way cs) (map (fun j => (i, j)) (out_row cs R i))
                  = filter (is_one_way cs) (map (fun j => (i, j)) (nth i cs []) ++ [])).
      { unfold out_row. rewrite map_app, !filter_app. f_equal. cbn [filter].
        assert (G : forall c, (forall i', In i' c -> contacted cs i' i = true) ->
            filter (is_one_way cs) (map (fun j => (i, j)) c) = []).
        { induction c as [|y c IHc]; intros Hc; cbn; auto.
          unfold is_one_way at 1. cbn [fst snd]. rewrite Hc by (cbn; auto). cbn. apply IHc. intros; apply Hc; cbn; auto. }
        apply G. intros i' H. now apply HR. }
      rewrite E. fold r.
      destruct (coins g r (filter (is_one_way cs) (map (fun j => (i, j)) (nth i cs []) ++ [])) s1) as [R' s'].
      reflexivity.
    + intros j Hj. unfold out_row in Hj. apply in_app_iff in Hj as [Hj|Hj].
      * split.
        -- destruct (nth_in_or_default i cs []) as [H|H].
           ++ rewrite Forall_forall in Hv. apply Hv in H as [_ H]. rewrite Forall_forall in H. rewrite <- Hl. auto.
           ++ rewrite H in Hj. destruct Hj.
        -- intros Hf ->. apply contacted_in in Hj. congruence.
      * apply HR in Hj as [H1 H2]. split; auto. intros Hf. congruence.
Qed.

Lemma out_net_nil l d cs : out_net l d cs [] = mkNet l cs (map (fun c => repeat (f1 a) (length c)) cs) d.
Proof.
  unfold out_net. f_equal.
  - etransitivity; [|apply (map_nth_seq _ cs [])]. apply map_ext. intros k. unfold out_row, pushed. cbn. apply app_nil_r.
  - apply list_ext. intros k. rewrite nth_error_map_seq, nth_error_map.
    destruct (Nat.ltb_spec k (length cs)) as [H|H].
    + rewrite (nth_error_nth' _ [] H). cbn. unfold out_row, pushed. cbn. now rewrite app_nil_r.
    + now rewrite (proj2 (nth_error_None cs k)).
Qed.

Lemma out_row_beyond (l : list A) cs R k : length l = length cs -> Forall (valid (length l)) cs ->
  (forall e, In e R -> In e (contact_pairs cs)) -> length cs <= k -> out_row cs R k = [].
Proof.
  intros Hl Hv HR Hk. unfold out_row. rewrite nth_overflow by auto. cbn.
  unfold pushed. replace (filter (fun e => snd e =? k) R) with (@nil (nat * nat)); auto.
  symmetry. assert (G : forall e, In e R -> snd e <> k).
  { intros e He. apply HR in He. apply in_pairs_upto in He as [H1 H2].
    rewrite Forall_forall in Hv. assert (Hc : In (nth (fst e) cs []) cs) by (now apply nth_In).
    apply Hv in Hc as [_ Hc]. rewrite Forall_forall in Hc. apply Hc in H2. lia. }
  clear -G. induction R as [|e R IH]; cbn; auto.
  rewrite (proj2 (Nat.eqb_neq _ _)) by (apply G; cbn; auto). apply IH. intros; apply G; cbn; auto.
Qed.

Lemma wf_out l d cs R : length l = length cs -> Forall (valid (length l)) cs ->
  (forall e, In e R -> In e (contact_pairs cs)) -> wf (out_net l d cs R).
Proof.
  intros Hl Hv HR. unfold wf, out_net. cbn [agents neigh wts]. rewrite !map_length, !seq_length.
  repeat split; auto.
  - intros i Hi. rewrite !nth_map_seq by lia. now rewrite repeat_length.
  - intros i j Hj. destruct (Nat.lt_ge_cases i (length cs)) as [H|H].
    + rewrite nth_map_seq in Hj by auto. unfold out_row in Hj. apply in_app_iff in Hj as [Hj|Hj].
      * rewrite Forall_forall in Hv. assert (Hc : In (nth i cs []) cs) by (now apply nth_In).
        apply Hv in Hc as [_ Hc]. rewrite Forall_forall in Hc. auto.
      * unfold pushed in Hj. apply in_map_iff in Hj as (e & <- & He). apply filter_In in He as [He _].
        apply HR in He. apply in_pairs_upto in He as [H1 _]. lia.
    + rewrite nth_overflow in Hj; [destruct Hj|]. now rewrite map_length, seq_length.
Qed.

Lemma map_combine_repeat X Y Z (f : X * Y -> Z) (y : Y) (l : list X) :
  map f (combine l (repeat y (length l))) = map (fun x => f (x, y)) l.
Proof. induction l as [|x l IH]; cbn; auto. now f_equal. Qed.

Lemma flat_map_app_perm X Y (f f' : X -> list Y) l :
  Permutation (flat_map (fun x => f x ++ f' x) l) (flat_map f l ++ flat_map f' l).
Proof.
  induction l as [|x l IH]; cbn; auto.
  eapply Permutation_trans; [apply Permutation_app_head, IH|].
  rewrite <- !app_assoc. apply Permutation_app_head.
  rewrite !app_assoc. apply Permutation_app_tail. apply Permutation_app_comm.
Qed.

Lemma edges_out l cs R : length l = length cs -> Forall (valid (length l)) cs ->
  (forall e, In e R -> In e (contact_pairs cs)) ->
  Permutation (edges (out_net l Outgoing cs R)) (map unit_edge (contact_pairs cs ++ map reversed R)).
Proof.
  intros Hl Hv HR. unfold edges. cbn [dir out_net neigh wts]. rewrite map_length, seq_length.
  erewrite flat_map_ext_in.
  2:{ intros i Hi. apply in_seq in Hi. unfold row. cbn [neigh wts out_net].
      rewrite !nth_map_seq by lia. rewrite map_combine_repeat. cbn [fst snd]. unfold out_row. rewrite map_app. reflexivity. }
  eapply Permutation_trans; [apply flat_map_app_perm|].
  rewrite map_app. apply Permutation_app.
  - unfold contact_pairs. rewrite map_flat_map.
    match goal with |- Permutation ?x ?y => replace x with y; [apply Permutation_refl|] end.
    apply flat_map_ext_in. intros i _. rewrite map_map. reflexivity.
  - rewrite map_map.
    eapply Permutation_trans.
    2: apply Permutation_map, (flat_map_perm_key _ (fun e : nat * nat => snd e) R (length cs)).
    2:{ intros e He. apply HR in He. apply in_pairs_upto in He as [H1 H2].
        rewrite Forall_forall in Hv. assert (Hc : In (nth (fst e) cs []) cs) by (now apply nth_In).
        apply Hv in Hc as [_ Hc]. rewrite Forall_forall in Hc. apply Hc in H2. lia. }
    rewrite map_flat_map.
    match goal with |- Permutation ?x ?y => replace x with y; [apply Permutation_refl|] end.
    apply flat_map_ext_in. intros i _. unfold pushed. rewrite map_map.
    apply map_ext_in. intros [x y] H. apply filter_In in H as [_ H]. cbn in H. apply Nat.eqb_eq in H. subst y. reflexivity.
Qed.

Theorem update_probabilistic_ok (st : settings) (h : net) s :
  pq_bag q -> settings_fit st (n_agents h) -> wf h -> dir h = Incoming ->
  exists h' s' cs s1 R,
    update_network_probabilistic lm g q ops st h s = Ok (h', s') /\
    contacts_drawn lm g q ops st (agents h) 0 [] s cs s1 /\ length cs = n_agents h /\
    coins g (reciprocity st) (one_way cs) s1 = (R, s') /\
    agents h' = agents h /\ dir h' = Incoming /\ wf h' /\
    Forall (valid (n_agents h)) cs /\
    Permutation (edges h') (map unit_edge (contact_pairs cs ++ map reversed R)).
Proof.
  intros Hq Hs Hwf Hd. unfold update_network_probabilistic.
  set (h0 := switch_direction_flag h).
  assert (Hd0 : dir h0 = Outgoing) by (unfold h0, switch_direction_flag; cbn; now rewrite Hd).
  destruct Hwf as (W1 & W2 & W3 & W4).
  pose proof (contact_phase st (agents h) Hq Hs (n_agents h) 0 h0 [] [] s eq_refl eq_refl W1 W2
     (conj (NoDup_nil _) (Forall_nil _))) as P1.
  change (n_agents h0) with (n_agents h). unfold for_n at 1.
  apply okp_ex in P1 as ([[[h1 buf] B] s1] & E1 & cs & D1 & D2 & D3 & D4 & D5 & D6 & D7 & D8).
  rewrite E1. cbn [bind]. unfold n_agents in D2, D3.
  assert (Hh1 : h1 = out_net (agents h) Outgoing cs []).
  { rewrite out_net_nil. rewrite Hd0 in D5. destruct h1 as [ag ne wt di]. cbn in D4, D5, D6, D7. rewrite D4, D5, D6, D7. reflexivity. }
  rewrite Hh1.
  replace (n_agents (out_net (agents h) Outgoing cs [])) with (length cs) by (unfold n_agents; cbn; lia).
  rewrite reciprocity_phase; auto.
  2:{ intros p. rewrite D8. cbn [set_contains existsb orb Nat.leb andb]. rewrite Nat.sub_0_r. reflexivity. }
  pose proof (coins_incl (reciprocity st) (one_way cs) s1) as Hin.
  destruct (coins g (reciprocity st) (one_way cs) s1) as [R s2] eqn:ER. cbn [fst] in Hin.
  assert (HR : forall e, In e R -> In e (contact_pairs cs)).
  { intros e He. apply Hin in He. unfold one_way in He. now apply filter_In in He as [He _]. }
  cbn [bind].
  assert (Hl : length (agents h) = length cs) by lia.
  pose proof (wf_out (agents h) Outgoing cs R Hl D3 HR) as Hwo.
  rewrite (toggle_exact _ (wf_toggle_safe _ Hwo)). cbn [bind].
  exists (toggled (out_net (agents h) Outgoing cs R)), s2, cs, s1, R.
  split; [reflexivity|]. split; auto. split; auto. split; auto. split; [reflexivity|].
  split; [reflexivity|]. split; [now apply wf_toggled|]. split; auto.
  eapply Permutation_trans.
  - apply Permutation_sym. apply (toggled_same_graph _ Hwo).
  - now apply edges_out.
Qed.
End Net.
