(** Totality and effect of whole iterations. *)
From Verif Require Import Base BaseFacts Arith64 MRandom SRandom MDist MNetwork SNetwork PNetwork PNetwork2 MNetGen PNetGen
  MAgents MDeGroot MActivity SActivity PActStep PActNet PActMean PActIter.
From Coq Require Import Permutation.

Section Iter.
Context {a : Arith} (lm : Libm a) (g : Rng a) (q : PQ a).
Notation D := (F a).
Notation settings := (ad_settings D).

Section Gen.
Context {A : Type} (ops : agent_ops D A).
Notation net := (network A D).

(** the network update *)
Lemma update_network_ready (md : ad_model A) s : pq_bag q -> ad_ready md ->
  exists h cpl s', update_network lm g q ops (ad_set md) (ad_net md) (contact_prob_list md) s = Ok (h, cpl, s') /\
    agents h = agents (ad_net md) /\ wf h /\ dir h = Incoming /\
    (mean_weights (ad_set md) = true -> mean_shaped h /\ length cpl = n_agents h).
Proof.
  intros Hq (H1 & H2 & H3 & H4 & H5 & H6). unfold update_network.
  destruct (mean_weights (ad_set md)) eqn:E; cbn [negb].
  - destruct (H6 eq_refl) as [M1 M2].
    rewrite update_mean_ok by auto. cbn [bind]. eexists _, _, _. split; [reflexivity|].
    split; [reflexivity|].
    destruct M1 as [M1 M3]. rewrite M1. unfold n_agents.
    split; [apply wf_mnet|]. split; [exact H2|]. intros _. split; [split|].
    + reflexivity.
    + cbn [mnet wts]. apply matrix_length.
    + apply matrix_length.
  - destruct (update_probabilistic_ok lm g q ops (ad_set md) (ad_net md) s Hq H3 H1 H2)
      as (h & s' & cs & s1 & R & E1 & _ & _ & _ & E2 & E3 & E4 & _).
    rewrite E1. cbn [bind]. exists h, (contact_prob_list md), s'. do 4 (split; [now auto|]); discriminate.
Qed.

Lemma reset_spec_length st l : length (reset_spec ops st l) = length l.
Proof. unfold reset_spec. rewrite map_length, combine_length, seq_length. lia. Qed.

Lemma reset_opinions st l : ops_ok ops -> map (get_opinion ops) (reset_spec ops st l) = with_bots st (map (get_opinion ops) l).
Proof.
  intros (O1 & _). apply list_ext. intros i. unfold with_bots.
  rewrite nth_error_map, nth_error_reset, nth_error_map_seq, map_length.
  destruct (Nat.ltb_spec i (length l)) as [Hi|Hi].
  - destruct (nth_error l i) as [x|] eqn:E. 2:{ apply nth_error_None in E. lia. }
    cbn [option_map]. f_equal. destruct (i <? n_bots st); [apply O1|].
    symmetry. apply nth_error_nth. now rewrite nth_error_map, E.
  - now rewrite (proj2 (nth_error_None l i)).
Qed.

Lemma reset_other {X} (f : A -> X) st l : (forall x v, f (set_opinion ops x v) = f x) ->
  map f (reset_spec ops st l) = map f l.
Proof.
  intros H. apply list_ext. intros i. rewrite !nth_error_map, nth_error_reset.
  destruct (nth_error l i); auto. cbn [option_map]. f_equal. destruct (i <? n_bots st); [apply H|reflexivity].
Qed.

Lemma wf_with_agents (h : net) l : length l = n_agents h -> wf h -> wf (with_agents h l).
Proof.
  unfold wf, with_agents, n_agents. cbn [agents neigh wts]. intros E (W1 & W2 & W3 & W4).
  rewrite E. repeat split; auto.
Qed.

Lemma ready_next (md : ad_model A) b (h : net) cpl l : ad_ready md -> agents h = agents (ad_net md) -> wf h -> dir h = Incoming ->
  (mean_weights (ad_set md) = true -> mean_shaped h /\ length cpl = n_agents h) -> length l = n_agents h ->
  ad_ready (mkAD b (ad_set md) (with_agents h l) cpl).
Proof.
  intros (H1 & H2 & H3 & H4 & H5 & H6) E W Dr M L. unfold ad_ready. cbn [ad_net ad_set contact_prob_list].
  assert (N : n_agents (with_agents h l) = n_agents (ad_net md)).
  { unfold n_agents, with_agents in *. cbn. rewrite L. now rewrite E. }
  rewrite N. split; [now apply wf_with_agents|]. split; auto. split; auto. split; auto. split; auto.
  intros Hm. destruct (M Hm) as [[M1 M2] M3]. assert (N' : n_agents h = n_agents (ad_net md)) by (unfold n_agents; now rewrite E).
  split; [|lia]. unfold mean_shaped. rewrite N. cbn [neigh wts with_agents]. rewrite M1, N'. split; auto. lia.
Qed.
End Gen.

(** the activity-driven iteration *)
Notation act := (activity_ops D).
Lemma activity_iteration_ok (md : ad_model (activity_agent D)) s : pq_bag q -> ad_ready md ->
  exists md' s' h cpl, activity_iteration lm g q md s = Ok (md', s') /\ ad_ready md' /\
    update_network lm g q act (ad_set md) (ad_net md) (contact_prob_list md) s = Ok (h, cpl, s') /\
    ad_set md' = ad_set md /\ ad_base md' = base_iteration (ad_base md) /\
    neigh (ad_net md') = neigh h /\ wts (ad_net md') = wts h /\ dir (ad_net md') = dir h /\
    agents h = agents (ad_net md) /\ wf h /\
    map a_opinion (agents (ad_net md')) =
      with_bots (ad_set md) (rk4_step (field lm act (ad_set md) h) (dt (ad_set md)) (map a_opinion (agents (ad_net md)))) /\
    map a_activity (agents (ad_net md')) = map a_activity (agents (ad_net md)) /\
    map a_reluctance (agents (ad_net md')) = map a_reluctance (agents (ad_net md)).
Proof.
  intros Hq Hr. destruct (update_network_ready act md s Hq Hr) as (h & cpl & s' & E & E1 & E2 & E3 & E4).
  unfold activity_iteration. rewrite E. cbn [bind].
  rewrite rk4_slopes_ok by auto. cbn [bind]. rewrite rk4_update_ok. cbn [bind].
  set (l := map _ (combine (seq 0 (n_agents h)) (agents h))).
  assert (Ll : length l = n_agents h) by (unfold l; rewrite map_length, combine_length, seq_length; unfold n_agents; lia).
  assert (Nn : n_agents h = n_agents (ad_net md)) by (unfold n_agents; now rewrite E1).
  pose proof Hr as (R1 & R2 & R3 & R4 & R5 & R6).
  rewrite reset_bots_ok by lia. cbn [bind].
  eexists _, _, h, cpl. split; [reflexivity|].
  split. { apply ready_next; auto. rewrite reset_spec_length. auto. }
  split; [reflexivity|]. cbn [ad_set ad_base ad_net with_agents neigh wts dir agents].
  repeat (split; [now auto|]).
  split.
  - change a_opinion with (get_opinion act) at 1. rewrite reset_opinions by apply activity_ops_ok. f_equal.
    unfold l. change (get_opinion act) with (@a_opinion D). rewrite rk4_new_opinions. unfold ad_opinions. now rewrite E1.
  - split.
    + rewrite reset_other by reflexivity. rewrite <- E1. unfold l. apply list_ext. intros i.
      rewrite !nth_error_map, nth_error_combine, nth_error_seq. unfold n_agents.
      destruct (Nat.ltb_spec i (length (agents h))) as [Hi|Hi].
      * destruct (nth_error (agents h) i); reflexivity.
      * now rewrite (proj2 (nth_error_None (agents h) i)).
    + rewrite reset_other by reflexivity. rewrite <- E1. unfold l. apply list_ext. intros i.
      rewrite !nth_error_map, nth_error_combine, nth_error_seq. unfold n_agents.
      destruct (Nat.ltb_spec i (length (agents h))) as [Hi|Hi].
      * destruct (nth_error (agents h) i); reflexivity.
      * now rewrite (proj2 (nth_error_None (agents h) i)).
Qed.

Lemma activity_run_ready k : forall md s, pq_bag q -> ad_ready md ->
  exists md' s', activity_run lm g q k md s = Ok (md', s') /\ ad_ready md' /\ ad_set md' = ad_set md.
Proof.
  induction k as [|k IH]; intros md s Hq Hr; cbn [activity_run].
  - eauto.
  - destruct (activity_iteration_ok md s Hq Hr) as (md1 & s1 & h & cpl & E & R & _ & S1 & _).
    rewrite E. cbn [bind]. destruct (IH md1 s1 Hq R) as (md2 & s2 & E2 & R2 & S2). exists md2, s2.
    split; [auto|]. split; [auto|]. congruence.
Qed.

(** the inertial iteration *)
Notation inn := (inertial_ops D).
Definition in_opinions (h : network (inertial_agent D) D) : list D := map i_opinion (agents h).

(** The position and velocity formulas. *)
Lemma calc_position_ok st fr (h : network (inertial_agent D) D) : wf h ->
  let drift := field lm inn st h (in_opinions h) in
  calc_position lm st fr h =
  Ok (drift, map (fun p => set_opinion inn (snd p)
        (verlet_position (dt st) fr (i_opinion (snd p)) (i_velocity (snd p)) (nth (fst p) drift (f0 a))))
      (combine (seq 0 (n_agents h)) (agents h))).
Proof.
  intros Hwf drift. unfold calc_position.
  rewrite (get_euler_slopes_ok lm inn st h (in_opinions h)); auto. 2:{ intros j Hj. now apply (opinion_at_ok inn). }
  cbn [bind]. fold drift.
  unfold n_agents at 1.
  rewrite (for_n_pointwise_lt (fun i x => set_opinion inn x
     (verlet_position (dt st) fr (i_opinion x) (i_velocity x) (nth i drift (f0 a))))).
  2:{ intros i b x Hi Hx. unfold vget at 1. rewrite Hx. cbn [bind].
      rewrite (vget_lt _ _ _ (f0 a)). 2:{ unfold drift. rewrite field_length. exact Hi. }
      cbn [bind]. cbv zeta. rewrite vset_ok. 2:{ apply nth_error_Some. congruence. } reflexivity. }
  reflexivity.
Qed.

Lemma calc_velocity_ok st fr drift (h : network (inertial_agent D) D) : wf h -> length drift = n_agents h ->
  let drift' := field lm inn st h (in_opinions h) in
  calc_velocity lm st fr drift h =
  Ok (map (fun p => set_velocity (snd p)
        (verlet_velocity (dt st) fr (i_velocity (snd p)) (nth (fst p) drift (f0 a)) (nth (fst p) drift' (f0 a))))
      (combine (seq 0 (n_agents h)) (agents h))).
Proof.
  intros Hwf Hd drift'. unfold calc_velocity.
  rewrite (get_euler_slopes_ok lm inn st h (in_opinions h)); auto. 2:{ intros j Hj. now apply (opinion_at_ok inn). }
  cbn [bind]. fold drift'.
  unfold n_agents at 1.
  rewrite (for_n_pointwise_lt (fun i x => set_velocity x
     (verlet_velocity (dt st) fr (i_velocity x) (nth i drift (f0 a)) (nth i drift' (f0 a))))).
  2:{ intros i b x Hi Hx. unfold vget at 1. rewrite Hx. cbn [bind].
      rewrite (vget_lt _ _ _ (f0 a)) by (rewrite Hd; exact Hi). cbn [bind].
      rewrite (vget_lt _ _ _ (f0 a)). 2:{ unfold drift'. rewrite field_length. exact Hi. }
      cbn [bind]. cbv zeta. rewrite vset_ok. 2:{ apply nth_error_Some. congruence. } reflexivity. }
  reflexivity.
Qed.

Lemma nth_error_indexed X Y (f : nat -> X -> Y) (l : list X) n i : n = length l ->
  nth_error (map (fun p => f (fst p) (snd p)) (combine (seq 0 n) l)) i = option_map (f i) (nth_error l i).
Proof.
  intros ->. rewrite nth_error_map, nth_error_combine, nth_error_seq.
  destruct (Nat.ltb_spec i (length l)) as [Hi|Hi].
  - destruct (nth_error l i); reflexivity.
  - now rewrite (proj2 (nth_error_None l i)).
Qed.

Lemma inertial_iteration_ok (im : inertial_model) s : pq_bag q -> ad_ready (im_ad im) ->
  let md := im_ad im in let st := ad_set md in let fr := friction_coefficient im in
  exists im' s' h cpl, inertial_iteration lm g q im s = Ok (im', s') /\ ad_ready (im_ad im') /\
    update_network lm g q inn st (ad_net md) (contact_prob_list md) s = Ok (h, cpl, s') /\
    ad_set (im_ad im') = st /\ friction_coefficient im' = fr /\ ad_base (im_ad im') = base_iteration (ad_base md) /\
    neigh (ad_net (im_ad im')) = neigh h /\ wts (ad_net (im_ad im')) = wts h /\ dir (ad_net (im_ad im')) = dir h /\
    agents h = agents (ad_net md) /\ wf h /\
    length (agents (ad_net (im_ad im'))) = length (agents (ad_net md)) /\
    let xs := map i_opinion (agents (ad_net md)) in
    let drift := field lm inn st h xs in
    exists xs', length xs' = length xs /\
      (forall i x, nth_error (agents (ad_net md)) i = Some x ->
         nth_error xs' i = Some (verlet_position (dt st) fr (i_opinion x) (i_velocity x) (nth i drift (f0 a)))) /\
      forall i x, nth_error (agents (ad_net md)) i = Some x ->
        nth_error (agents (ad_net (im_ad im'))) i = Some (mkInertial
          (if i <? n_bots st then nth i (bot_opinion st) (f0 a) else nth i xs' (f0 a))
          (i_activity x) (i_reluctance x)
          (verlet_velocity (dt st) fr (i_velocity x) (nth i drift (f0 a)) (nth i (field lm inn st h xs') (f0 a)))).
Proof.
  intros Hq Hr md st fr. destruct (update_network_ready inn md s Hq Hr) as (h & cpl & s' & E & E1 & E2 & E3 & E4).
  unfold inertial_iteration. fold md st fr. change (ad_set md) with st in E. rewrite E. cbn [bind].
  rewrite calc_position_ok by auto. cbn [bind].
  set (drift := field lm inn st h (in_opinions h)).
  set (l1 := map _ (combine (seq 0 (n_agents h)) (agents h))).
  assert (L1 : length l1 = n_agents h) by (unfold l1; rewrite map_length, combine_length, seq_length; unfold n_agents; lia).
  pose proof (wf_with_agents h l1 L1 E2) as W1.
  assert (Nn : n_agents h = n_agents (ad_net md)) by (unfold n_agents; now rewrite E1).
  assert (N1 : n_agents (with_agents h l1) = n_agents h) by exact L1.
  rewrite calc_velocity_ok; auto. 2:{ unfold drift. rewrite field_length. now rewrite N1. }
  cbn [bind].
  set (l2 := map _ (combine (seq 0 (n_agents (with_agents h l1))) (agents (with_agents h l1)))).
  assert (L2 : length l2 = n_agents h).
  { unfold l2. rewrite map_length, combine_length, seq_length. cbn [agents with_agents]. rewrite N1. lia. }
  pose proof Hr as (R1 & R2 & R3 & R4 & R5 & R6). fold md in R1, R2, R3, R4, R5, R6. fold st in R3, R4, R5, R6.
  rewrite reset_bots_ok by lia. cbn [bind].
  eexists _, _, h, cpl. split; [reflexivity|]. cbn [im_ad friction_coefficient].
  split. { apply ready_next; auto. rewrite reset_spec_length. auto. }
  split; [reflexivity|]. cbn [ad_set ad_base ad_net with_agents neigh wts dir agents].
  repeat (split; [now auto|]).
  split. { rewrite reset_spec_length, L2. exact Nn. }
  assert (Exs : in_opinions h = map i_opinion (agents (ad_net md))) by (unfold in_opinions; now rewrite E1).
  rewrite <- Exs. fold drift.
  exists (map i_opinion l1). split.
  { unfold in_opinions. rewrite !map_length. exact L1. }
  assert (P1 : forall i x, nth_error (agents (ad_net md)) i = Some x ->
     nth_error l1 i = Some (set_opinion inn x (verlet_position (dt st) fr (i_opinion x) (i_velocity x) (nth i drift (f0 a))))).
  { intros i x Hx. unfold l1.
    rewrite (nth_error_indexed _ _ (fun i x => set_opinion inn x (verlet_position (dt st) fr (i_opinion x) (i_velocity x) (nth i drift (f0 a)))));
      [|reflexivity]. rewrite E1, Hx. reflexivity. }
  split.
  - intros i x Hx. rewrite nth_error_map, (P1 i x Hx). reflexivity.
  - intros i x Hx. rewrite nth_error_reset. unfold l2.
    rewrite (nth_error_indexed _ _ (fun i x => set_velocity x (verlet_velocity (dt st) fr (i_velocity x) (nth i drift (f0 a))
        (nth i (field lm inn st (with_agents h l1) (in_opinions (with_agents h l1))) (f0 a))))); [|reflexivity].
    cbn [agents with_agents]. rewrite (P1 i x Hx). cbn [option_map].
    assert (Ef : field lm inn st (with_agents h l1) (in_opinions (with_agents h l1)) = field lm inn st h (map i_opinion l1)).
    { unfold field, in_opinions. cbn [agents with_agents]. rewrite N1. apply map_ext_in. intros j Hj. apply in_seq in Hj.
      rewrite E1. destruct (nth_error (agents (ad_net md)) j) as [y|] eqn:Ey.
      - rewrite (P1 j y Ey). reflexivity.
      - apply nth_error_None in Ey. unfold n_agents in *. lia. }
    rewrite Ef. f_equal.
    assert (En : nth i (map i_opinion l1) (f0 a) = verlet_position (dt st) fr (i_opinion x) (i_velocity x) (nth i drift (f0 a))).
    { apply nth_error_nth. rewrite nth_error_map, (P1 i x Hx). reflexivity. }
    rewrite En. destruct (i <? n_bots st); reflexivity.
Qed.
End Iter.
