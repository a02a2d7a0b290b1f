(** Mean-field weights of the activity-driven models (C45, C46, C58) and the inertial step in exact
    arithmetic (C50). *)
From Verif Require Import Base BaseFacts Arith64 RFacts MRandom SRandom PRandom WRandom MDist MNetwork SNetwork PNetwork PNetwork2
  MAgents MDeGroot MActivity SActivity PActStep PActNet PActIter PActMean PActIter2 PActInit PActThm PActSym PActReal PActMean2
  TActivity TActivityR.
From Coq Require Import Reals Lra Psatz Permutation.

(** ** C45, any arithmetic *)
Section C45.
Context {a : Arith} (lm : Libm a) (g : Rng a) (q : PQ a).
Notation D := (F a).

(** The weight stored at [i] for its incoming neighbour [j], from the contact probabilities [P]: the
    direct contact of [j], and with probability [r] the reciprocation of a contact of [i] that [j] did
    not make. The order of the additions is that of the program. *)
Definition mean_weight (r : D) (P : nat -> nat -> D) (i j : nat) : D :=
  let recip := fmul a (fmul a (fsub a (f1 a) (P j i)) r) (P i j) in
  if j <=? i then fadd a (fadd a (f0 a) (P j i)) recip else fadd a (fadd a (f0 a) recip) (P j i).

(** The mean-field network: every agent lists all agents in order, with these weights. *)
Definition mean_network {A} (ops : agent_ops D A) (st : ad_settings D) (l : list A) (h : network A D) : Prop :=
  dir h = Incoming /\ length (agents h) = length l /\
  forall i, i < length l ->
    row h i = map (fun j => (j, mean_weight (reciprocity st) (contact_probability lm ops st l) i j)) (seq 0 (length l)).

Lemma combine_map_r {X Y} (f : X -> Y) l : combine l (map f l) = map (fun x => (x, f x)) l.
Proof. induction l; cbn; congruence. Qed.

Lemma nth_repeat_lt {X} (x d : X) n i : i < n -> nth i (repeat x n) d = x.
Proof. revert i. induction n; intros [|i] H; cbn; try lia; auto. apply IHn. lia. Qed.

Lemma update_mean_network {A} (ops : agent_ops D A) st (h : network A D) cpl s h' cpl' s' :
  settings_fit st (n_agents h) -> mean_shaped h -> length cpl = n_agents h -> mean_weights st = true -> dir h = Incoming ->
  update_network lm g q ops st h cpl s = Ok (h', cpl', s') ->
  mean_network ops st (agents h) h' /\ cpl' = matrix (n_agents h) (contact_probability lm ops st (agents h)) /\ s' = s.
Proof.
  intros Hs Hm Hc Hw Hd E. unfold update_network in E. rewrite Hw in E. cbn [negb] in E.
  rewrite update_mean_ok in E by auto. cbn [bind] in E.
  assert (Eh : h' = mnet (agents h) (neigh h) (dir h)
        (all_contributions (n_agents h) (reciprocity st) (contact_probability lm ops st (agents h)))) by congruence.
  assert (Ec : cpl' = matrix (n_agents h) (contact_probability lm ops st (agents h))) by congruence.
  assert (Es : s' = s) by congruence. clear E. subst h' cpl' s'. split; [|auto].
  split; [exact Hd|]. split; [reflexivity|]. intros i Hi. unfold row. cbn [mnet neigh wts].
  destruct Hm as [Hn _]. unfold n_agents in *. rewrite Hn.
  rewrite nth_repeat_lt by exact Hi.
  unfold matrix. rewrite nth_map_seq by exact Hi. rewrite combine_map_r.
  apply map_ext_in. intros j Hj. apply in_seq in Hj. f_equal. rewrite all_entry by lia. reflexivity.
Qed.

Theorem C45_activity_weights (md md' : ad_model (activity_agent D)) s s' : pq_bag q -> ad_ready md ->
  mean_weights (ad_set md) = true -> activity_iteration lm g q md s = Ok (md', s') ->
  mean_network (activity_ops D) (ad_set md) (agents (ad_net md)) (ad_net md').
Proof.
  intros Hq Hr Hw E.
  destruct (activity_iteration_ok lm g q md s Hq Hr)
    as (md2 & s2 & h & cpl & E1 & E2 & E3 & E4 & E5 & E6 & E7 & E8 & E9 & E10 & E11 & E12 & E13).
  rewrite E in E1. assert (md2 = md') by congruence. subst md2. 
  pose proof Hr as (R1 & R2 & R3 & R4 & R5 & R6). destruct (R6 Hw) as [R7 R8].
  apply update_mean_network in E3 as ((M1 & M2 & M3) & _ & _); auto.
  split; [congruence|]. split.
  - rewrite <- (map_length a_activity (agents (ad_net md'))), E12. apply map_length.
  - intros i Hi. unfold row. rewrite E6, E7. apply M3. exact Hi.
Qed.

Theorem C45_inertial_weights (im im' : inertial_model (a:=a)) s s' : pq_bag q -> ad_ready (im_ad im) ->
  mean_weights (ad_set (im_ad im)) = true -> inertial_iteration lm g q im s = Ok (im', s') ->
  mean_network (inertial_ops D) (ad_set (im_ad im)) (agents (ad_net (im_ad im))) (ad_net (im_ad im')).
Proof.
  intros Hq Hr Hw E. destruct (inertial_iteration_ok lm g q im s Hq Hr)
    as (im2 & s2 & h & cpl & E1 & E2 & E3 & E4 & E5 & E6 & E7 & E8 & E9 & E10 & E11 & E12 & _).
  rewrite E in E1. assert (im2 = im') by congruence. subst im2.
  pose proof Hr as (R1 & R2 & R3 & R4 & R5 & R6). destruct (R6 Hw) as [R7 R8].
  apply update_mean_network in E3 as ((M1 & M2 & M3) & _ & _); auto.
  split; [congruence|]. split; [exact E12|].
  intros i Hi. unfold row. rewrite E7, E8. apply M3. exact Hi.
Qed.
End C45.

(** ** C58: activities up to 1 do not matter in mean-field mode *)
Section C58.
Context {a : Arith} (lm : Libm a) (g : Rng a) (q : PQ a).
Notation D := (F a).

(** Same agents, except that the activities may differ as long as neither is above 1. *)
Definition same_but_low_activity (x y : activity_agent D) : Prop :=
  a_opinion x = a_opinion y /\ a_reluctance x = a_reluctance y /\
  (a_activity x = a_activity y \/ flt a (f1 a) (a_activity x) = false /\ flt a (f1 a) (a_activity y) = false).

Lemma Forall2_length {X Y} (P : X -> Y -> Prop) l l' : Forall2 P l l' -> length l = length l'.
Proof. induction 1; cbn; congruence. Qed.

Lemma contact_probability_low st (l l' : list (activity_agent D)) i j : Forall2 same_but_low_activity l l' ->
  contact_probability lm (activity_ops D) st l i j = contact_probability lm (activity_ops D) st l' i j.
Proof.
  intros H. pose proof (Forall2_length _ _ _ H) as Hl.
  assert (G : forall k, match nth_error l k, nth_error l' k with
    | Some x, Some y => same_but_low_activity x y | None, None => True | _, _ => False end).
  { clear Hl. induction H; intros [|k]; cbn; auto. apply IHForall2. }
  assert (Ha : forall u v, affinity lm (activity_ops D) st l u v = affinity lm (activity_ops D) st l' u v).
  { intros u v. unfold affinity. destruct (v =? u); auto. pose proof (G u) as Gu. pose proof (G v) as Gv.
    destruct (nth_error l u), (nth_error l' u), (nth_error l v), (nth_error l' v); try contradiction; auto.
    destruct Gu as (-> & _ & _) || destruct Gu as (Gu & _ & _). 
    all: cbn [get_opinion activity_ops] in *. all: destruct Gv as (Gv & _ & _).
    all: now rewrite ?Gu, ?Gv. }
  assert (Hsh : forall u v, share lm (activity_ops D) st l u v = share lm (activity_ops D) st l' u v).
  { intros u v. unfold share, total_affinity. rewrite Ha, <- Hl. f_equal.
    generalize (f0 a). induction (seq 0 (length l)) as [|k ks IH]; intros z; cbn [fold_left]; auto. now rewrite Ha, IH. }
  unfold contact_probability. rewrite Hsh. pose proof (G i) as Gi.
  destruct (nth_error l i) as [x|], (nth_error l' i) as [y|]; try contradiction; auto.
  f_equal. cbn [get_activity activity_ops]. unfold fmax. destruct Gi as (_ & _ & [-> | [-> ->]]); reflexivity.
Qed.

(** Two mean-field models that differ only in activities not above 1 (and in nothing else that
    matters: same settings and the rest of the agents) produce the same network and the same new
    opinions, whatever the random numbers. *)
Theorem C58_low_activities_ignored (md1 md2 md1' md2' : ad_model (activity_agent D)) s1 s2 s1' s2' :
  pq_bag q -> ad_ready md1 -> ad_ready md2 -> ad_set md2 = ad_set md1 -> mean_weights (ad_set md1) = true ->
  Forall2 same_but_low_activity (agents (ad_net md1)) (agents (ad_net md2)) ->
  activity_iteration lm g q md1 s1 = Ok (md1', s1') -> activity_iteration lm g q md2 s2 = Ok (md2', s2') ->
  neigh (ad_net md1') = neigh (ad_net md2') /\ wts (ad_net md1') = wts (ad_net md2') /\
  map a_opinion (agents (ad_net md1')) = map a_opinion (agents (ad_net md2')).
Proof.
  intros Hq Hr1 Hr2 Hs Hw HF E E'.
  destruct (activity_iteration_ok lm g q md1 s1 Hq Hr1)
    as (m1 & t1 & h1 & cpl1 & A1 & A2 & A3 & A4 & A5 & A6 & A7 & A8 & A9 & A10 & A11 & A12 & A13).
  rewrite E in A1. assert (m1 = md1') by congruence. subst m1. clear A1.
  destruct (activity_iteration_ok lm g q md2 s2 Hq Hr2)
    as (m2 & t2 & h2 & cpl2 & B1 & B2 & B3 & B4 & B5 & B6 & B7 & B8 & B9 & B10 & B11 & B12 & B13).
  rewrite E' in B1. assert (m2 = md2') by congruence. subst m2. clear B1.
  pose proof Hr1 as (_ & R2 & R3 & _ & _ & R6). destruct (R6 Hw) as [R7 R8].
  pose proof Hr2 as (_ & Q2 & Q3 & _ & _ & Q6). rewrite Hs in Q6. destruct (Q6 Hw) as [Q7 Q8].
  pose proof (Forall2_length _ _ _ HF) as Hl.
  unfold update_network in A3, B3. rewrite Hs in B3. rewrite Hw in A3, B3. cbn [negb] in A3, B3.
  rewrite update_mean_ok in A3 by auto. rewrite update_mean_ok in B3 by (try rewrite <- Hs; auto). cbn [bind] in A3, B3.
  assert (Eh1 : h1 = mnet (agents (ad_net md1)) (neigh (ad_net md1)) (dir (ad_net md1))
     (all_contributions (n_agents (ad_net md1)) (reciprocity (ad_set md1)) (contact_probability lm (activity_ops D) (ad_set md1) (agents (ad_net md1)))))
    by congruence.
  assert (Eh2 : h2 = mnet (agents (ad_net md2)) (neigh (ad_net md2)) (dir (ad_net md2))
     (all_contributions (n_agents (ad_net md2)) (reciprocity (ad_set md1)) (contact_probability lm (activity_ops D) (ad_set md1) (agents (ad_net md2)))))
    by congruence.
  assert (En : neigh h1 = neigh h2).
  { rewrite Eh1, Eh2. cbn [mnet neigh]. rewrite (proj1 R7), (proj1 Q7). unfold n_agents. now rewrite Hl. }
  assert (Ew : wts h1 = wts h2).
  { rewrite Eh1, Eh2. cbn [mnet wts]. unfold n_agents. rewrite <- Hl. apply matrix_ext. intros i j Hi Hj.
    rewrite !all_entry by assumption. unfold recip_part.
    rewrite !(contact_probability_low (ad_set md1) (agents (ad_net md1)) (agents (ad_net md2))) by exact HF. reflexivity. }
  split; [congruence|]. split; [congruence|].
  rewrite A11, B11, Hs.
  assert (Eo : map a_opinion (agents (ad_net md2)) = map a_opinion (agents (ad_net md1))).
  { clear -HF. induction HF as [|x y l l' (H1 & _) _ IH]; cbn; congruence. }
  rewrite Eo. f_equal.
  assert (Ef : forall ys, field lm (activity_ops D) (ad_set md1) h1 ys = field lm (activity_ops D) (ad_set md1) h2 ys).
  { intros ys. unfold field, n_agents. rewrite A9, B9, <- Hl. apply map_ext. intros i.
    assert (G : match nth_error (agents (ad_net md1)) i, nth_error (agents (ad_net md2)) i with
      | Some x, Some y => a_reluctance x = a_reluctance y | None, None => True | _, _ => False end).
    { clear -HF. revert i. induction HF as [|x y l l' H _ IH]; intros [|i]; cbn; auto; [apply H|apply IH]. }
    destruct (nth_error (agents (ad_net md1)) i), (nth_error (agents (ad_net md2)) i); try contradiction; auto.
    unfold row. rewrite En, Ew. cbn [get_reluctance activity_ops]. now rewrite G. }
  unfold rk4_step. cbv zeta. now rewrite !Ef.
Qed.
End C58.

(** ** Exact arithmetic *)
Local Open Scope R_scope.

Section Exact.
Context (lm : Libm RA) (g : Rng RA) (q : PQ RA).
Hypothesis Hpow : lpow RA lm = Rpow.

(** W(i,j) = P(j,i) + (1 - P(j,i)) * reciprocity * P(i,j), whatever the order of the additions. *)
Theorem C45_weight_formula (r : R) (P : nat -> nat -> R) i j :
  mean_weight (a:=RA) r P i j = P j i + (1 - P j i) * r * P i j.
Proof.
  unfold mean_weight. cbn [fadd fmul fsub f0 f1 RA]. destruct (j <=? i)%nat.
  all: match goal with |- ?u = ?w => change (@eq R u w) end; ring.
Qed.

Section Ops.
Context {A : Type} (ops : agent_ops (F RA) A).

Theorem C45_shares_sum_to_one (st : ad_settings (F RA)) (l : list A) i : (i < length l)%nat -> (2 <= length l)%nat ->
  Rsum (map (share (a:=RA) lm ops st l i) (seq 0 (length l))) = 1 /\
  (forall j, (j < length l)%nat -> 0 <= share (a:=RA) lm ops st l i j <= 1) /\ share (a:=RA) lm ops st l i i = 0.
Proof.
  intros Hi Hl. split; [|split].
  - apply shares_sum; auto.
  - intros j Hj. apply share_bounds; auto.
  - unfold share, affinity. rewrite Nat.eqb_refl. cbn [fdiv f0 RA]. apply Rmult_0_l.
Qed.

Lemma rounds_zero mm : rounds (a:=RA) lm 0 mm = 0.
Proof.
  pose proof (rounds_bounds lm Hpow 0 mm ltac:(lra)) as H. rewrite Rmult_0_r in H. apply Rle_antisym; apply H.
Qed.

(** No agent contacts itself ... *)
Lemma self_probability (st : ad_settings (F RA)) (l : list A) i : (i < length l)%nat -> (2 <= length l)%nat ->
  contact_probability (a:=RA) lm ops st l i i = 0.
Proof.
  intros Hi Hl. unfold contact_probability. destruct (nth_error l i); auto.
  rewrite (proj2 (proj2 (C45_shares_sum_to_one st l i Hi Hl))). rewrite rounds_zero. apply Rmult_0_r.
Qed.

(** ... so in a mean-field network of at least two agents the weight of an agent for itself is 0. *)
Theorem C45_self_weight_zero (st : ad_settings (F RA)) (l : list A) (h : network A (F RA)) i w :
  mean_network (a:=RA) lm ops st l h -> (i < length l)%nat -> (2 <= length l)%nat -> In (i, w) (row h i) -> w = 0.
Proof.
  intros (_ & _ & H) Hi Hl Hw. rewrite H in Hw by auto. apply in_map_iff in Hw as (j & E & Hj).
  assert (j = i) by congruence. subst j.
  assert (Ew : w = mean_weight (a:=RA) (reciprocity st) (contact_probability (a:=RA) lm ops st l) i i) by congruence.
  rewrite Ew. eapply eq_trans; [apply C45_weight_formula|]. rewrite self_probability by auto.
  match goal with |- ?u = ?w => change (@eq R u w) end. ring.
Qed.

(** ** C46 *)
Theorem C46_bounds (st : ad_settings (F RA)) (l : list A) i j x : (j < length l)%nat -> (2 <= length l)%nat ->
  nth_error l i = Some x ->
  0 <= contact_probability (a:=RA) lm ops st l i j
    <= Rmax 1 (get_activity ops x) * (INR (contact_count st i) * share (a:=RA) lm ops st l i j).
Proof.
  intros Hj Hl Ex. assert (Hi : (i < length l)%nat) by (apply nth_error_Some; congruence).
  unfold contact_probability. rewrite Ex. pose proof (share_bounds lm ops Hpow st l i j Hi Hj Hl) as Hs.
  pose proof (rounds_bounds lm Hpow _ (contact_count st i) Hs) as Hb.
  assert (Hm : fmax RA (f1 RA) (get_activity ops x) = Rmax 1 (get_activity ops x)).
  { unfold fmax, Rmax. cbn [flt f1 RA].
    destruct (Rltb_spec 1 (get_activity ops x)), (Rle_dec 1 (get_activity ops x)); auto; try lra. }
  rewrite Hm. cbn [fmul RA].
  assert (G : forall mx r b : R, 1 <= mx -> 0 <= r <= b -> 0 <= mx * r <= mx * b) by (intros; split; nra).
  apply G; auto. apply Rmax_l.
Qed.

(** At most two contacts and an activity not above 1: a probability. *)
Theorem C46_two_contacts (st : ad_settings (F RA)) (l : list A) i j x : (j < length l)%nat -> (2 <= length l)%nat ->
  nth_error l i = Some x -> (contact_count st i <= 2)%nat -> get_activity ops x <= 1 ->
  0 <= contact_probability (a:=RA) lm ops st l i j <= 1.
Proof.
  intros Hj Hl Ex Hc Ha. assert (Hi : (i < length l)%nat) by (apply nth_error_Some; congruence).
  split; [apply (C46_bounds st l i j x Hj Hl Ex)|].
  unfold contact_probability. rewrite Ex. pose proof (share_bounds lm ops Hpow st l i j Hi Hj Hl) as Hs.
  revert Hs. generalize (share (a:=RA) lm ops st l i j). intros w Hs. change R in w.
  assert (Hm : fmax RA (f1 RA) (get_activity ops x) = 1).
  { unfold fmax. cbn [flt f1 RA]. destruct (Rltb_spec 1 (get_activity ops x)); auto. exfalso.
    revert Ha r. generalize (get_activity ops x). intros u. change R in u. lra. }
  rewrite Hm. cbn [fmul RA]. rewrite Rmult_1_l.
  pose proof (rounds_R lm Hpow w (contact_count st i) (proj1 Hs)) as Er. rewrite Er. clear Er.
  destruct (contact_count st i) as [|[|[|k]]]; [| | |lia]; cbn [seq map].
  - rewrite Rsum_nil. lra.
  - rewrite Rsum_cons, Rsum_nil. cbn [Nat.add pow]. replace ((- w * (- w * 1) + w) / (w + 1) + 0) with w by (field; lra). lra.
  - rewrite !Rsum_cons, Rsum_nil. cbn [Nat.add pow].
    replace ((- w * (- w * 1) + w) / (w + 1) + ((- w * (- w * (- w * 1)) + w) / (w + 1) + 0)) with (2 * w - w * w) by (field; lra). nra.
Qed.
End Ops.

(** Three agents each making three contacts without homophily: the probability is 9/8. *)
Lemma nine_eighths (st : ad_settings (F RA)) (l : list (activity_agent (F RA))) i j x : length l = 3%nat ->
  (i < 3)%nat -> (j < 3)%nat -> i <> j -> n_bots st = 0%nat -> m st = 3%Z -> homophily st = 0 -> nth_error l i = Some x ->
  contact_probability (a:=RA) lm (activity_ops (F RA)) st l i j = Rmax 1 (a_activity x) * (9 / 8).
Proof.
  intros Hl Hi Hj Hne Hb Hm Hh Ex.
  assert (Haf : forall v, (v < 3)%nat -> affinity (a:=RA) lm (activity_ops (F RA)) st l i v = if (v =? i)%nat then 0 else 1).
  { intros v Hv. unfold affinity. destruct (Nat.eqb_spec v i); auto. rewrite Ex.
    destruct (nth_error l v) as [y|] eqn:Ey. 2:{ apply nth_error_None in Ey. lia. }
    unfold homophily_of. rewrite Hb. cbn [Nat.ltb Nat.leb]. rewrite Hpow.
    assert (Hp : forall b h : R, 0 < b -> h = 0 -> Rpow b (- h) = 1).
    { intros b h Hb0 ->. unfold Rpow. destruct (Rlt_dec 0 b); [|lra]. rewrite Ropp_0; unfold Rpower; rewrite Rmult_0_l. apply exp_0. }
    apply Hp; [|exact Hh]. unfold fmax. cbn [flt RA].
    assert (H0 : 0 < lit10 (a:=RA) 1 10).
    { unfold lit10. cbn -[IZR Z.pow_pos]. apply Rdiv_lt_0_compat; [lra|]. now apply IZR_lt. }
    match goal with |- 0 < (if Rltb ?u ?w then _ else _) => destruct (Rltb_spec u w) end; [|exact H0].
    eapply Rlt_trans; [exact H0|exact r]. }
  assert (Hsh : share (a:=RA) lm (activity_ops (F RA)) st l i j = / 2).
  { unfold share. rewrite total_affinity_R, Hl. rewrite (Haf j Hj), (proj2 (Nat.eqb_neq j i)) by auto.
    assert (G3 : forall f : nat -> R, Rsum (map f (seq 0 3)) = f 0%nat + (f 1%nat + (f 2%nat + 0)))
      by (intros f; cbn [seq map]; rewrite !Rsum_cons, Rsum_nil; reflexivity).
    rewrite G3. rewrite !Haf by lia. cbn [fdiv RA].
    destruct i as [|[|[|i]]]; [| | |lia]; cbn [Nat.eqb]; match goal with |- ?u = ?w => change (@eq R u w) end; field. }
  unfold contact_probability. rewrite Ex, Hsh.
  assert (Hmx : fmax RA (f1 RA) (get_activity (activity_ops (F RA)) x) = Rmax 1 (a_activity x)).
  { unfold fmax, Rmax. cbn [flt f1 RA get_activity activity_ops].
    destruct (Rltb_spec 1 (a_activity x)), (Rle_dec 1 (a_activity x)); auto; try lra. }
  rewrite Hmx. cbn [fmul RA]. apply f_equal.
  assert (Hc : contact_count st i = 3%nat) by (unfold contact_count; rewrite Hb, Hm; reflexivity).
  rewrite Hc. pose proof (rounds_R lm Hpow (/ 2) 3 ltac:(lra)) as Er. eapply eq_trans; [exact Er|]. cbn [seq map Nat.add].
  rewrite !Rsum_cons, Rsum_nil. cbn [pow]. field.
Qed.

(** In such a model, without reciprocity, every weight for another agent is at least 9/8 after any
    iteration. *)
Theorem C46_weights_above_one (md md' : ad_model (a:=RA) (activity_agent (F RA))) s s' i j w :
  pq_bag q -> ad_ready md -> mean_weights (ad_set md) = true -> n_agents (ad_net md) = 3%nat ->
  n_bots (ad_set md) = 0%nat -> m (ad_set md) = 3%Z -> homophily (ad_set md) = 0 -> reciprocity (ad_set md) = 0 ->
  activity_iteration (a:=RA) lm g q md s = Ok (md', s') ->
  (i < 3)%nat -> i <> j -> In (j, w) (row (ad_net md') i) -> 9 / 8 <= w.
Proof.
  intros Hq Hr Hw Hn Hb Hm Hh Hrc E Hi Hne Hin.
  destruct (C45_activity_weights (a:=RA) lm g q md md' s s' Hq Hr Hw E) as (_ & _ & H).
  unfold n_agents in Hn. rewrite H in Hin by (rewrite Hn; exact Hi).
  apply in_map_iff in Hin as (j' & Ej & Hj). apply in_seq in Hj. rewrite Hn in Hj.
  assert (j' = j) by congruence. subst j'.
  assert (Ew : w = mean_weight (a:=RA) (reciprocity (ad_set md)) (contact_probability (a:=RA) lm (activity_ops (F RA)) (ad_set md) (agents (ad_net md))) i j) by congruence.
  pose proof (C45_weight_formula (reciprocity (ad_set md)) (contact_probability (a:=RA) lm (activity_ops (F RA)) (ad_set md) (agents (ad_net md))) i j) as Ef.
  destruct (nth_error (agents (ad_net md)) j) as [x|] eqn:Ex. 2:{ apply nth_error_None in Ex. lia. }
  pose proof (nine_eighths (ad_set md) (agents (ad_net md)) j i x Hn ltac:(lia) Hi ltac:(auto) Hb Hm Hh Ex) as E9.
  rewrite Hrc, E9 in Ef. rewrite Ew, Hrc.
  eapply Rle_trans; [|right; symmetry; exact Ef].
  pose proof (Rmax_l 1 (a_activity x)) as Hmx. revert Hmx. generalize (Rmax 1 (a_activity x)).
  generalize (contact_probability (a:=RA) lm (activity_ops (F RA)) (ad_set md) (agents (ad_net md)) i j).
  intros u mx Hmx. change R in u. nra.
Qed.
End Exact.

(** ... and such models exist: a constructed one, three agents, one iteration. *)
Definition crowded_settings : ad_settings R :=
  mkADS None (1/10)%R 3 (1/100)%R (21/10)%R 3%R 0%R 0%R 3%R false true 0 [] [] [] [] false 1%R 1%R (1/100)%R 0%R.
Definition real_libm : Libm RA := mkLibm RA Rpow ln tanh sqrt (fun x => x) ln exp.

Theorem C46_probabilities_refuted : exists md s0 md' s' w,
  ad_ctor (a:=RA) real_libm half_rng (activity_ops R) (mkActivity 0 0 1)%R crowded_settings demo_net tt = Ok (md, s0) /\
  activity_run (a:=RA) real_libm half_rng (list_pq RA) 1 md s0 = Ok (md', s') /\
  In (1%nat, w) (row (ad_net md') 0) /\ 1 < w.
Proof.
  destruct (ctor_ok (a:=RA) real_libm half_rng (activity_ops R) (mkActivity 0 0 1)%R crowded_settings demo_net tt)
    as (md & s0 & E1 & Hr & Es & _ & En & _); cbn [n_agents agents demo_net length n_bots crowded_settings bot_opinion bot_activity]; try lia.
  { exact demo_wf. } { reflexivity. } { repeat split; cbn in *; try lia. }
  destruct (activity_iteration_ok (a:=RA) real_libm half_rng (list_pq RA) md s0 (list_pq_bag RA) Hr) as (md' & s' & h & cpl & E & _).
  assert (Hn : n_agents (ad_net md) = 3%nat).
  { unfold n_agents. rewrite En, with_bot_values_length, drawn_agents_length. reflexivity. }
  destruct (C45_activity_weights (a:=RA) real_libm half_rng (list_pq RA) md md' s0 s' (list_pq_bag RA) Hr (f_equal mean_weights Es) E) as (_ & _ & H).
  pose proof (H 0%nat) as H0. unfold n_agents in Hn.
  assert (Hs3 : seq 0 (length (agents (ad_net md))) = seq 0 3) by (exact (f_equal (seq 0) Hn)).
  assert (Hl0 : (0 < length (agents (ad_net md)))%nat) by (eapply Nat.lt_le_trans; [|apply Nat.eq_le_incl; symmetry; exact Hn]; lia).
  specialize (H0 Hl0). eexists md, s0, md', s', _. split; [exact E1|]. split. { cbn [activity_run]. rewrite E. reflexivity. }
  assert (Hin : In (1%nat, mean_weight (a:=RA) (reciprocity (ad_set md)) (contact_probability (a:=RA) real_libm (activity_ops R) (ad_set md) (agents (ad_net md))) 0 1)
     (row (ad_net md') 0)). { eapply eq_ind_r with (P := In _); [|exact H0]. apply in_map_iff. exists 1%nat. split; [reflexivity|].
    eapply eq_ind_r with (P := In 1%nat); [|exact Hs3]. cbn. auto. }
  split; [exact Hin|].
  eapply Rlt_le_trans; [|exact (C46_weights_above_one real_libm half_rng (list_pq RA) eq_refl md md' s0 s' 0 1 _ (list_pq_bag RA) Hr
    (f_equal mean_weights Es) Hn (f_equal n_bots Es) (f_equal m Es) (f_equal homophily Es) (f_equal reciprocity Es) E ltac:(lia) ltac:(lia) Hin)].
  lra.
Qed.

(** ** C50 in exact arithmetic *)
Section C50.
Context (lm : Libm RA) (g : Rng RA) (q : PQ RA).

(** The new velocity solves the trapezoidal rule for v' = drift - friction * v, with the friction
    taken at the old and the new velocity. *)
Theorem C50_velocity_implicit (dtt fr v drift drift' : R) : 1 + fr * dtt / 2 <> 0 ->
  let v' := verlet_velocity (a:=RA) dtt fr v drift drift' in
  v' = v + dtt / 2 * ((drift - fr * v) + (drift' - fr * v')).
Proof.
  intros H. cbv zeta. rewrite verlet_velocity_R.
  assert (E : flit RA 1 2 = / 2) by (cbn; match goal with |- ?u = ?w => change (@eq R u w) end; field). rewrite E.
  match goal with |- ?u = ?w => change (@eq R u w) end. field. intros H1. apply H. lra.
Qed.

Theorem C50_position (dtt fr x v drift : R) :
  verlet_position (a:=RA) dtt fr x v drift = x + v * dtt + (drift - fr * v) * (dtt * dtt) / 2.
Proof.
  rewrite verlet_position_R.
  assert (E : flit RA 1 2 = / 2) by (cbn; match goal with |- ?u = ?w => change (@eq R u w) end; field). rewrite E.
  match goal with |- ?u = ?w => change (@eq R u w) end. field.
Qed.

(** An agent (not a bot) on which no force acts - opinion 0 and no incoming neighbours on the network of
    this iteration - and which is at rest does not move. *)
Theorem C50_isolated_at_rest (im im' : inertial_model (a:=RA)) s s' i x : pq_bag q -> ad_ready (im_ad im) ->
  inertial_iteration (a:=RA) lm g q im s = Ok (im', s') ->
  nth_error (agents (ad_net (im_ad im))) i = Some x -> (n_bots (ad_set (im_ad im)) <= i)%nat ->
  row (ad_net (im_ad im')) i = [] -> i_opinion x = 0 -> i_velocity x = 0 ->
  nth_error (agents (ad_net (im_ad im'))) i = Some x.
Proof.
  intros Hq Hr E Ex Hb Hrow Ho Hv.
  destruct (inertial_iteration_ok (a:=RA) lm g q im s Hq Hr)
    as (im2 & s2 & h & cpl & E1 & E2 & E3 & E4 & E5 & E6 & E7 & E8 & E9 & E10 & E11 & E12 & xs' & X1 & X2 & X3).
  rewrite E in E1. assert (im2 = im') by congruence. subst im2. clear E1.
  assert (Hi : (i < length (agents (ad_net (im_ad im))))%nat) by (apply nth_error_Some; congruence).
  assert (Hf : forall zs, nth i zs 0 = 0 -> nth i (field (a:=RA) lm (inertial_ops (F RA)) (ad_set (im_ad im)) h zs) 0 = 0).
  { intros zs Hz. unfold field, n_agents. eapply eq_trans; [apply nth_map_seq; rewrite E10; exact Hi|].
    cbv beta. rewrite E10, Ex. assert (Hr0 : row h i = []) by (unfold row in *; now rewrite <- E7, <- E8).
    rewrite Hr0. unfold slope. cbn [fold_left f0 fopp RA]. 
    assert (G : forall u : R, u = 0 -> - u = 0) by (intros; lra). apply G. exact Hz. }
  assert (H0 : nth i (map i_opinion (agents (ad_net (im_ad im)))) 0 = 0).
  { eapply eq_trans; [apply nth_error_nth; rewrite nth_error_map, Ex; reflexivity|exact Ho]. }
  pose proof (Hf _ H0) as Hd.
  assert (Hx' : nth i xs' 0 = 0).
  { eapply eq_trans; [apply nth_error_nth; exact (X2 i x Ex)|].
    assert (G : forall dtt fr d o v : R, o = 0 -> v = 0 -> d = 0 -> verlet_position (a:=RA) dtt fr o v d = 0).
    { intros dtt fr d o v -> -> ->. rewrite verlet_position_R. match goal with |- ?u = ?w => change (@eq R u w) end. ring. }
    apply G; assumption. }
  pose proof (Hf _ Hx') as Hd'.
  rewrite (X3 i x Ex). f_equal. rewrite (proj2 (Nat.ltb_ge _ _) Hb).
  destruct x as [xo xa xr xv]. cbn [i_opinion i_velocity i_activity i_reluctance] in *.
  assert (G : forall dtt fr d d' v : R, v = 0 -> d = 0 -> d' = 0 -> verlet_velocity (a:=RA) dtt fr v d d' = 0).
  { intros dtt fr d d' v -> -> ->. rewrite verlet_velocity_R. match goal with |- ?u = ?w => change (@eq R u w) end. unfold Rdiv. ring. }
  f_equal.
  - eapply eq_trans; [exact Hx'|]. symmetry. exact Ho.
  - eapply eq_trans; [apply G; [exact Hv|exact Hd|exact Hd']|]. symmetry. exact Hv.
Qed.

(** If every opinion, velocity and bot opinion is 0, they stay 0. *)
Theorem C50_rest_stays k im s im' s' : (forall z : R, ltanh RA lm (- z) = - ltanh RA lm z) -> pq_bag q ->
  ad_ready (im_ad im) -> inertial_run (a:=RA) lm g q k im s = Ok (im', s') ->
  (forall x, In x (agents (ad_net (im_ad im))) -> i_opinion x = 0 /\ i_velocity x = 0) ->
  (forall o, In o (bot_opinion (ad_set (im_ad im))) -> o = 0) ->
  forall x, In x (agents (ad_net (im_ad im'))) -> i_opinion x = 0 /\ i_velocity x = 0.
Proof.
  intros Hodd Hq Hr E Ha Hb. pose proof (C41_mirror_inertial lm g q Hodd Hq k im s im' s' Hr E) as E'.
  assert (Hz : forall x : inertial_agent (F RA), i_opinion x = 0 -> i_velocity x = 0 -> mirror_inertial_agent x = x).
  { intros [o ac re v] H1 H2. unfold mirror_inertial_agent. cbn [i_opinion i_activity i_reluctance i_velocity] in *.
    change (o = 0) in H1. change (v = 0) in H2. subst o v.
    exact (f_equal (fun z : F RA => @mkInertial (F RA) z ac re z) Ropp_0). }
  assert (Em : mirror_inertial im = im).
  { destruct im as [[b st n c] f]. unfold mirror_inertial. cbn [im_ad friction_coefficient ad_base ad_set ad_net contact_prob_list] in *.
    f_equal. f_equal.
    - clear -Hb. destruct st. unfold mirror_settings. cbn in *. f_equal.
      induction bot_opinion as [|o l IH]; cbn in *; auto. rewrite IH by (intros; apply Hb; auto). f_equal.
      rewrite (Hb o (or_introl eq_refl)). apply Ropp_0.
    - destruct n as [ag ne wt di]. unfold with_agents. cbn [agents neigh wts dir] in *. f_equal. clear -Ha Hz.
      induction ag as [|x l IH]; [reflexivity|]. cbn [map]. rewrite IH by (intros y Hy; apply Ha; right; exact Hy).
      destruct (Ha x (or_introl eq_refl)). rewrite (Hz x) by assumption. reflexivity. }
  rewrite Em, E in E'.
  assert (Ea : agents (ad_net (im_ad im')) = map mirror_inertial_agent (agents (ad_net (im_ad im')))).
  { assert (E2 : im' = mirror_inertial im') by congruence. exact (f_equal (fun m => agents (ad_net (im_ad m))) E2). }
  clear -Ea. intros x Hx. apply In_nth_error in Hx as [i Hi]. pose proof (f_equal (fun l => nth_error l i) Ea) as H.
  cbv beta in H. rewrite nth_error_map, Hi in H. cbn [option_map] in H.
  assert (H1 : x = mirror_inertial_agent x) by congruence.
  assert (H3 : forall u : R, u = - u -> u = 0) by (intros; lra).
  split; apply H3; [exact (f_equal i_opinion H1)|exact (f_equal i_velocity H1)].
Qed.
End C50.

(** ** Non-vacuity: the mathematical functions, a constructed mean-field model and its runs *)
Example tanh_bounded z : Rabs (tanh z) <= 1.
Proof.
  unfold tanh, sinh, cosh. pose proof (exp_pos z) as H1. pose proof (exp_pos (- z)) as H2.
  apply Rabs_le. split.
  - apply Rmult_le_reg_r with ((exp z + exp (- z)) / 2); [lra|]. unfold Rdiv at 2. rewrite Rmult_assoc, Rinv_l by lra. lra.
  - apply Rmult_le_reg_r with ((exp z + exp (- z)) / 2); [lra|]. unfold Rdiv at 1. rewrite Rmult_assoc, Rinv_l by lra. lra.
Qed.
Example tanh_odd z : tanh (- z) = - tanh z.
Proof. unfold tanh, sinh, cosh. rewrite Ropp_involutive. unfold Rdiv. rewrite (Rplus_comm (exp (- z))). rewrite Ropp_mult_distr_l. f_equal. ring. Qed.

(** A mean-field model (with two bots) that runs, meets the hypotheses of C40 and C41, and keeps a ready state. *)
Example mean_model_runs k : exists md s0 md' s',
  ad_ctor (a:=RA) real_libm half_rng (activity_ops R) (mkActivity 0 0 1)%R (demo_settings 1 true) demo_net tt = Ok (md, s0) /\
  ad_ready md /\ mean_weights (ad_set md) = true /\ 0 < dt (ad_set md) <= 1 /\ pq_bag (list_pq RA) /\
  (forall z : R, Rabs (ltanh RA real_libm z) <= 1) /\ (forall z : R, ltanh RA real_libm (- z) = - ltanh RA real_libm z) /\
  activity_run (a:=RA) real_libm half_rng (list_pq RA) k md s0 = Ok (md', s').
Proof.
  destruct (C39_total RA real_libm half_rng (list_pq RA) (mkActivity 0 0 1)%R (demo_settings 1 true) demo_net tt k
    (list_pq_bag RA) demo_wf eq_refl (demo_fit _ _)) as (md & s0 & md' & s' & E1 & Hr & Es & E2 & _); cbn; try lia.
  exists md, s0, md', s'. split; [exact E1|]. split; [exact Hr|]. split; [exact (f_equal mean_weights Es)|].
  split. { pose proof (f_equal dt Es) as Hd. eapply eq_ind_r with (P := fun z => 0 < z <= 1); [|exact Hd]. cbn. lra. }
  split; [exact (list_pq_bag RA)|]. split; [exact tanh_bounded|]. split; [exact tanh_odd|exact E2].
Qed.
(** Two different agents related as in C58. *)
Example low_activity_example : same_but_low_activity (a:=RA) (mkActivity 2 (1/10) 1) (mkActivity 2 (9/10) 1).
Proof. split; [reflexivity|]. split; [reflexivity|]. right. cbn. destruct (Rltb_spec 1 (1/10)), (Rltb_spec 1 (9/10)); auto; lra. Qed.

Print Assumptions C45_activity_weights.
Print Assumptions C45_inertial_weights.
Print Assumptions C45_self_weight_zero.
Print Assumptions C46_bounds.
Print Assumptions C46_probabilities_refuted.
Print Assumptions C58_low_activities_ignored.
Print Assumptions C50_isolated_at_rest.
Print Assumptions C50_rest_stays.
