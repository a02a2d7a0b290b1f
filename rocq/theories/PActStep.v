(** Closed forms of the integration steps. *)
From Verif Require Import Base BaseFacts Arith64 MRandom MDist MNetwork SNetwork MAgents MDeGroot MActivity SActivity.

Lemma okp_weaken A (m : res A) (P Q : A -> Prop) : (forall a, P a -> Q a) -> okp m P -> okp m Q.
Proof. destruct m; cbn; auto. Qed.

Section Slopes.
Context {a : Arith} (lm : Libm a).
Notation D := (F a).

Section Gen.
Context {A : Type} (ops : agent_ops D A).

Lemma wf_row_lengths (net : network A D) i : wf net -> i < n_agents net ->
  vget (neigh net) i = Ok (nth i (neigh net) []) /\ vget (wts net) i = Ok (nth i (wts net) []) /\
  length (nth i (neigh net) []) = length (nth i (wts net) []) /\
  (forall j, In j (nth i (neigh net) []) -> j < n_agents net).
Proof.
  intros (Hn & Hw & Hl & Hj) Hi. unfold n_agents in *. repeat split.
  - apply vget_lt. lia.
  - apply vget_lt. lia.
  - now apply Hl.
  - intros j. apply Hj.
Qed.

(** the inner loop *)
Lemma slope_inner (st : ad_settings D) (net : network A D) i x xs (opinion : nat -> res D) kb :
  wf net -> i < n_agents net -> nth_error (agents net) i = Some x ->
  length kb = n_agents net ->
  (forall j, j < n_agents net -> opinion j = Ok (nth j xs (f0 a))) ->
  forall v0,
  for_n (length (nth i (neigh net) [])) (fun j k_buffer =>
      j_index <- vget (nth i (neigh net) []) j ;;
      k <- vget k_buffer i ;;
      x <- vget (agents net) i ;;
      w <- vget (nth i (wts net) []) j ;;
      oj <- opinion j_index ;;
      vset k_buffer i (fadd a k (fmul a (fmul a (fmul a (fdiv a (f1 a) (get_reluctance ops x)) (K st)) w) (ltanh a lm (fmul a (alpha st) oj)))))
    (upd kb i v0)
  = Ok (upd kb i (fold_left (fun acc p => fadd a acc (fmul a (fmul a (fmul a (fdiv a (f1 a) (get_reluctance ops x)) (K st)) (snd p))
                     (ltanh a lm (fmul a (alpha st) (nth (fst p) xs (f0 a)))))) (row net i) v0)).
Proof.
  intros Hwf Hi Hx Hk Hop v0. destruct (wf_row_lengths net i Hwf Hi) as (_ & _ & Hlen & Hin).
  set (f := fun acc p => fadd a acc _).
  match goal with |- ?m = _ => assert (G : okp m (fun r => r = upd kb i (fold_left f (row net i) v0))) end.
  2:{ apply okp_ex in G as (r & -> & ->). reflexivity. }
  eapply okp_weaken.
  2: apply (for_n_inv _ (fun j b => b = upd kb i (fold_left f (firstn j (row net i)) v0))).
  - intros b ->. f_equal. f_equal. rewrite firstn_all2; auto. unfold row. rewrite combine_length. lia.
  - reflexivity.
  - intros j b Hj ->.
    assert (Hj2 : j < length (nth i (wts net) [])) by lia.
    rewrite (vget_lt _ _ _ 0 Hj). cbn [bind].
    unfold vget at 1. rewrite nth_error_upd_eq by lia. cbn [bind].
    unfold vget at 1. rewrite Hx. cbn [bind].
    rewrite (vget_lt _ _ _ (f0 a) Hj2). cbn [bind].
    rewrite Hop by (apply Hin, nth_In; auto). cbn [bind].
    rewrite vset_ok by (rewrite upd_length; lia). cbn [okp].
    assert (E : nth_error (row net i) j = Some (nth j (nth i (neigh net) []) 0, nth j (nth i (wts net) []) (f0 a))).
    { unfold row. rewrite nth_error_combine. rewrite (nth_error_nth' _ 0 Hj), (nth_error_nth' _ (f0 a) Hj2). reflexivity. }
    rewrite (firstn_S_nth_error _ _ _ _ E), fold_left_app. cbn [fold_left].
    generalize (fold_left f (firstn j (row net i)) v0) as y. intros y.
    apply list_ext. intros k. rewrite !nth_error_upd, !upd_length.
    destruct (Nat.eqb_spec i k), (Nat.ltb_spec i (length kb)); reflexivity.
Qed.

Lemma get_euler_slopes_ok (st : ad_settings D) (net : network A D) xs (opinion : nat -> res D) :
  wf net -> (forall j, j < n_agents net -> opinion j = Ok (nth j xs (f0 a))) ->
  get_euler_slopes lm ops st net opinion = Ok (field lm ops st net xs).
Proof.
  intros Hwf Hop. unfold get_euler_slopes.
  match goal with |- ?m = _ => assert (G : okp m (fun r => r = field lm ops st net xs)) end.
  2:{ apply okp_ex in G as (r & -> & ->). reflexivity. }
  eapply okp_weaken.
  2: apply (for_n_inv _ (fun i b => length b = n_agents net /\
        forall j, j < i -> nth_error b j = nth_error (field lm ops st net xs) j)).
  - intros b [Hl Hb]. apply list_ext. intros j.
    destruct (Nat.lt_ge_cases j (n_agents net)); auto.
    assert (length (field lm ops st net xs) = n_agents net) by (unfold field; now rewrite map_length, seq_length).
    rewrite (proj2 (nth_error_None b j)), (proj2 (nth_error_None _ j)); auto; lia.
  - split; [now rewrite repeat_length|]. intros j Hj. lia.
  - intros i b Hi [Hl Hb].
    destruct (wf_row_lengths net i Hwf Hi) as (E1 & E2 & Hlen & Hin).
    unfold get_neighbours, get_weights. rewrite E1, E2. cbn [bind]. rewrite Hop by auto. cbn [bind].
    rewrite vset_ok by lia. cbn [bind].
    destruct (nth_error (agents net) i) as [x|] eqn:Ex.
    2:{ apply nth_error_None in Ex. unfold n_agents in Hi. lia. }
    rewrite (slope_inner st net i x xs opinion b Hwf Hi Ex Hl Hop). cbn [okp].
    split; [now rewrite upd_length|].
    intros j Hj. destruct (Nat.eq_dec j i) as [->|Hne].
    + rewrite nth_error_upd_eq by lia. unfold field. rewrite nth_error_map_seq.
      rewrite (proj2 (Nat.ltb_lt i (n_agents net))) by auto. rewrite Ex. reflexivity.
    + rewrite nth_error_upd_neq by auto. apply Hb. lia.
Qed.

Lemma field_length st net xs : length (field lm ops st net xs) = n_agents net.
Proof. unfold field. now rewrite map_length, seq_length. Qed.

(** resetting the bots *)
Definition reset_spec (st : ad_settings D) (l : list A) : list A :=
  map (fun p => if fst p <? n_bots st then set_opinion ops (snd p) (nth (fst p) (bot_opinion st) (f0 a)) else snd p)
      (combine (seq 0 (length l)) l).

Lemma nth_error_reset st l i : nth_error (reset_spec st l) i =
  option_map (fun x => if i <? n_bots st then set_opinion ops x (nth i (bot_opinion st) (f0 a)) else x) (nth_error l i).
Proof.
  unfold reset_spec. rewrite nth_error_map, nth_error_combine, nth_error_seq.
  destruct (Nat.ltb_spec i (length l)) as [H|H].
  - destruct (nth_error l i); reflexivity.
  - rewrite (proj2 (nth_error_None l i)) by lia. reflexivity.
Qed.

Lemma reset_bots_ok st l : n_bots st <= length l -> n_bots st <= length (bot_opinion st) ->
  reset_bots ops st l = Ok (reset_spec st l).
Proof.
  intros H1 H2. unfold reset_bots, bot_present.
  destruct (Nat.ltb_spec 0 (n_bots st)) as [Hb|Hb].
  - match goal with |- ?m = _ => assert (G : okp m (fun r => r = reset_spec st l)) end.
    2:{ apply okp_ex in G as (r & -> & ->). reflexivity. }
    eapply okp_weaken.
    2: apply (for_n_inv _ (fun k b => forall i, nth_error b i =
         option_map (fun x => if i <? k then set_opinion ops x (nth i (bot_opinion st) (f0 a)) else x) (nth_error l i))).
    + intros b Hb'. apply list_ext. intros i. now rewrite Hb', nth_error_reset.
    + intros i. destruct (nth_error l i); auto.
    + intros k b Hk IH.
      rewrite (vget_lt _ _ _ (f0 a)) by lia. cbn [bind].
      assert (Hlen : length b = length l).
      { apply Nat.le_antisymm; apply Nat.nlt_ge; intros Hlt.
        - pose proof (IH (length l)) as E. rewrite (proj2 (nth_error_None l (length l))) in E by lia. cbn in E. apply nth_error_None in E. lia.
        - pose proof (IH (length b)) as E. rewrite (proj2 (nth_error_None b (length b))) in E by lia.
          destruct (nth_error l (length b)) eqn:E2; [discriminate|]. apply nth_error_None in E2. lia. }
      destruct (nth_error l k) as [x|] eqn:Ex. 2:{ apply nth_error_None in Ex. lia. }
      unfold vget. rewrite IH, Ex. cbn [option_map bind].
      rewrite Nat.ltb_irrefl. rewrite vset_ok by lia. cbn [okp].
      intros i. rewrite nth_error_upd. rewrite IH.
      destruct (Nat.eqb_spec k i) as [<-|Hne].
      * rewrite (proj2 (Nat.ltb_lt k (length b))) by lia. rewrite Ex. cbn [option_map andb].
        rewrite (proj2 (Nat.ltb_lt k (S k))) by lia. reflexivity.
      * cbn [andb]. destruct (nth_error l i); auto. cbn [option_map]. f_equal.
        destruct (Nat.ltb_spec i k), (Nat.ltb_spec i (S k)); auto; lia.
  - f_equal. apply list_ext. intros i. rewrite nth_error_reset.
    destruct (nth_error l i); auto. cbn [option_map]. rewrite (proj2 (Nat.ltb_ge i (n_bots st))) by lia. reflexivity.
Qed.

(** ... and conversely: if it succeeds, the bots exist. *)
Lemma reset_bots_inv st l l' : reset_bots ops st l = Ok l' ->
  n_bots st <= length l /\ n_bots st <= length (bot_opinion st).
Proof.
  unfold reset_bots, bot_present. destruct (Nat.ltb_spec 0 (n_bots st)) as [Hb|Hb]; [|lia].
  intros H. unfold for_n in H.
  assert (G : forall n i l l', for_from i n (fun bot_idx l =>
      o <- vget (bot_opinion st) bot_idx ;;
      x <- vget l bot_idx ;;
      vset l bot_idx (set_opinion ops x o)) l = Ok l' -> forall k, i <= k < i + n -> k < length l /\ k < length (bot_opinion st)).
  { clear. induction n as [|n IH]; intros i l l' H k Hk; [lia|].
    cbn [for_from] in H. apply bind_ok_inv in H as (l1 & H1 & H2).
    apply bind_ok_inv in H1 as (o & Ho & H1). apply bind_ok_inv in H1 as (x & Hx & H1).
    apply vset_inv in H1 as [Hi ->]. apply vget_ok in Ho. apply vget_ok in Hx.
    assert (Ho' : nth_error (bot_opinion st) i <> None) by congruence. apply nth_error_Some in Ho'.
    destruct (Nat.eq_dec k i) as [->|Hne]; [lia|].
    specialize (IH _ _ _ H2 k). rewrite upd_length in IH. lia. }
  specialize (G _ _ _ _ H (n_bots st - 1)). lia.
Qed.
End Gen.

Lemma nth_error_axpy xs h ks i : nth_error (axpy xs h ks) i =
  match nth_error xs i, nth_error ks i with Some x, Some k => Some (fadd a x (fmul a h k)) | _, _ => None end.
Proof.
  unfold axpy. rewrite nth_error_map, nth_error_combine.
  destruct (nth_error xs i), (nth_error ks i); reflexivity.
Qed.

Notation act := (activity_ops D).
Notation net := (network (activity_agent D) D).
Definition ad_opinions (g : net) : list D := map a_opinion (agents g).

Lemma opinion_at_ok {A} (ops : agent_ops D A) (l : list A) i : i < length l ->
  opinion_at ops l i = Ok (nth i (map (get_opinion ops) l) (f0 a)).
Proof.
  intros Hi. unfold opinion_at. destruct (nth_error l i) as [x|] eqn:E. 2:{ apply nth_error_None in E. lia. }
  unfold vget. rewrite E. cbn. f_equal. symmetry. apply nth_error_nth. rewrite nth_error_map, E. reflexivity.
Qed.

Lemma stage_ok {A} (ops : agent_ops D A) st (g : network A D) h ks : wf g -> length ks = n_agents g ->
  get_euler_slopes lm ops st g (fun i => o <- opinion_at ops (agents g) i ;; k <- vget ks i ;; Ok (fadd a o (fmul a h k)))
  = Ok (field lm ops st g (axpy (map (get_opinion ops) (agents g)) h ks)).
Proof.
  intros Hwf Hk. apply get_euler_slopes_ok; auto. intros j Hj.
  rewrite opinion_at_ok by exact Hj. cbn [bind].
  rewrite (vget_lt _ _ _ (f0 a)) by lia. cbn [bind]. f_equal. symmetry. apply nth_error_nth.
  rewrite nth_error_axpy. rewrite (nth_error_nth' _ (f0 a)) by (rewrite map_length; exact Hj).
  rewrite (nth_error_nth' _ (f0 a)) by lia. reflexivity.
Qed.

Definition k1_of st (g : net) := field lm act st g (ad_opinions g).
Definition k2_of st (g : net) := field lm act st g (axpy (ad_opinions g) (half_dt st) (k1_of st g)).
Definition k3_of st (g : net) := field lm act st g (axpy (ad_opinions g) (half_dt st) (k2_of st g)).
Definition k4_of st (g : net) := field lm act st g (axpy (ad_opinions g) (dt st) (k3_of st g)).

Lemma rk4_slopes_ok st (g : net) : wf g ->
  rk4_slopes lm st g = Ok (k1_of st g, k2_of st g, k3_of st g, k4_of st g).
Proof.
  intros Hwf. unfold rk4_slopes.
  rewrite (get_euler_slopes_ok act st g (ad_opinions g)); auto. 2:{ intros j Hj. now apply (opinion_at_ok act). }
  cbn [bind]. fold (k1_of st g).
  rewrite stage_ok by (auto; apply field_length). cbn [bind].
  change (map (get_opinion act) (agents g)) with (ad_opinions g). fold (k2_of st g).
  rewrite stage_ok by (auto; apply field_length). cbn [bind].
  change (map (get_opinion act) (agents g)) with (ad_opinions g). fold (k3_of st g).
  rewrite stage_ok by (auto; apply field_length). cbn [bind].
  reflexivity.
Qed.

(** a loop that replaces each element by a function of its index and value *)
Lemma for_n_pointwise {X} (f : nat -> X -> X) (body : nat -> list X -> res (list X)) (l : list X) :
  (forall i b x, nth_error b i = Some x -> body i b = Ok (upd b i (f i x))) ->
  for_n (length l) body l = Ok (map (fun p => f (fst p) (snd p)) (combine (seq 0 (length l)) l)).
Proof.
  intros Hbody.
  set (target := fun k => map (fun p => if fst p <? k then f (fst p) (snd p) else snd p) (combine (seq 0 (length l)) l)).
  assert (Htn : forall k i, nth_error (target k) i = option_map (fun x => if i <? k then f i x else x) (nth_error l i)).
  { intros k i. unfold target. rewrite nth_error_map, nth_error_combine, nth_error_seq.
    destruct (Nat.ltb_spec i (length l)).
    - destruct (nth_error l i); reflexivity.
    - rewrite (proj2 (nth_error_None l i)) by lia. reflexivity. }
  match goal with |- ?m = Ok ?r => assert (G : okp m (fun b => b = r)) end.
  2:{ apply okp_ex in G as (r & -> & ->). reflexivity. }
  eapply okp_weaken.
  2: apply (for_n_inv _ (fun k b => b = target k)).
  - intros b ->. apply list_ext. intros i. rewrite Htn, nth_error_map, nth_error_combine, nth_error_seq.
    destruct (Nat.ltb_spec i (length l)).
    + destruct (nth_error l i); reflexivity.
    + rewrite (proj2 (nth_error_None l i)) by lia. reflexivity.
  - apply list_ext. intros i. rewrite Htn. destruct (nth_error l i); reflexivity.
  - intros k b Hk ->. destruct (nth_error l k) as [x|] eqn:Ex. 2:{ apply nth_error_None in Ex. lia. }
    rewrite (Hbody k (target k) x). 2:{ rewrite Htn, Ex. cbn [option_map]. now rewrite Nat.ltb_irrefl. }
    cbn [okp]. apply list_ext. intros i. rewrite nth_error_upd, !Htn.
    assert (Hl : length (target k) = length l) by (unfold target; rewrite map_length, combine_length, seq_length; lia).
    destruct (Nat.eqb_spec k i) as [<-|Hne].
    + rewrite Hl, (proj2 (Nat.ltb_lt k (length l))) by lia. rewrite Ex. cbn [option_map andb].
      rewrite (proj2 (Nat.ltb_lt k (S k))) by lia. reflexivity.
    + cbn [andb]. destruct (nth_error l i); auto. cbn [option_map]. f_equal.
      destruct (Nat.ltb_spec i k), (Nat.ltb_spec i (S k)); auto; lia.
Qed.

(** as above when the loop body may use the bound *)
Lemma for_n_pointwise_lt {X} (f : nat -> X -> X) (body : nat -> list X -> res (list X)) (l : list X) :
  (forall i b x, i < length l -> nth_error b i = Some x -> body i b = Ok (upd b i (f i x))) ->
  for_n (length l) body l = Ok (map (fun p => f (fst p) (snd p)) (combine (seq 0 (length l)) l)).
Proof.
  intros Hbody.
  rewrite (for_n_ext _ body (fun i b => if i <? length l then body i b
     else match nth_error b i with Some x => Ok (upd b i (f i x)) | None => Ok b end)).
  - apply for_n_pointwise. intros i b x Hx. destruct (Nat.ltb_spec i (length l)).
    + now apply Hbody.
    + now rewrite Hx.
  - intros k b Hk. now rewrite (proj2 (Nat.ltb_lt k (length l))) by lia.
Qed.

Definition rk4_new st (g : net) (i : nat) (x : activity_agent D) : activity_agent D :=
  set_opinion act x (fadd a (a_opinion x) (fdiv a (fmul a (dt st)
    (fadd a (fadd a (fadd a (nth i (k1_of st g) (f0 a)) (fmul a (fofZ a 2) (nth i (k2_of st g) (f0 a))))
       (fmul a (fofZ a 2) (nth i (k3_of st g) (f0 a)))) (nth i (k4_of st g) (f0 a)))) (fofZ a 6))).

Lemma rk4_update_ok st (g : net) :
  rk4_update st (k1_of st g, k2_of st g, k3_of st g, k4_of st g) (agents g)
  = Ok (map (fun p => rk4_new st g (fst p) (snd p)) (combine (seq 0 (n_agents g)) (agents g))).
Proof.
  unfold rk4_update, n_agents. apply (for_n_pointwise_lt (rk4_new st g)).
  intros i b x Hi Hx. unfold vget at 1. rewrite Hx. cbn [bind].
  assert (L1 : length (k1_of st g) = n_agents g) by apply field_length.
  assert (L2 : length (k2_of st g) = n_agents g) by apply field_length.
  assert (L3 : length (k3_of st g) = n_agents g) by apply field_length.
  assert (L4 : length (k4_of st g) = n_agents g) by apply field_length.
  unfold n_agents in L1, L2, L3, L4.
  rewrite !(vget_lt _ _ _ (f0 a)) by lia. cbn [bind].
  rewrite vset_ok. 2:{ apply nth_error_Some. congruence. }
  reflexivity.
Qed.

(** the opinions afterwards *)
Lemma rk4_new_opinions st (g : net) :
  map a_opinion (map (fun p => rk4_new st g (fst p) (snd p)) (combine (seq 0 (n_agents g)) (agents g)))
  = rk4_step (field lm act st g) (dt st) (ad_opinions g).
Proof.
  apply list_ext. intros i. rewrite !nth_error_map, nth_error_combine, nth_error_seq.
  unfold rk4_step. rewrite nth_error_map_seq.
  replace (length (ad_opinions g)) with (n_agents g) by (unfold ad_opinions; rewrite map_length; reflexivity).
  destruct (Nat.ltb_spec i (n_agents g)) as [Hi|Hi]; auto.
  destruct (nth_error (agents g) i) as [x|] eqn:Ex. 2:{ apply nth_error_None in Ex. unfold n_agents in Hi. lia. }
  cbn [option_map fst snd]. f_equal. unfold rk4_new. cbn [set_opinion activity_ops a_opinion].
  assert (E : nth i (ad_opinions g) (f0 a) = a_opinion x).
  { apply nth_error_nth. unfold ad_opinions. now rewrite nth_error_map, Ex. }
  rewrite E. reflexivity.
Qed.
End Slopes.
