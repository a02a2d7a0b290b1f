(** Activity-driven and inertial models in exact arithmetic: bounds, symmetry, mean-field weights
    (C40, C41, C45, C46, C50, C58). *)
From Verif Require Import Base BaseFacts Arith64 RFacts MRandom SRandom PRandom WRandom MDist MNetwork SNetwork PNetwork PNetwork2
  MAgents MDeGroot MActivity SActivity PActStep PActNet PActIter PActMean PActIter2 PActInit PActThm PActSym PActReal PActMean2
  TActivity.
From Coq Require Import Reals Lra Psatz Permutation.

(** ** C40 *)
Section C40.
Context (lm : Libm RA) (g : Rng RA) (q : PQ RA).
Local Open Scope R_scope.

(** Total absolute weight stored at agent [i]. *)
Definition in_weight {A} (net : network A (F RA)) (i : nat) : R := Rsum (map (fun p => Rabs (snd p)) (row net i)).

(** One step: an opinion's absolute value is at most the larger of its old absolute value and
    |K / reluctance| times the total incoming weight on this iteration's network. *)
Theorem C40_step (md md' : ad_model (a:=RA) (activity_agent (F RA))) s s' i (x : activity_agent (F RA)) :
  (forall z : R, Rabs (ltanh RA lm z) <= 1) -> pq_bag q -> ad_ready md -> 0 < dt (ad_set md) <= 1 ->
  activity_iteration (a:=RA) lm g q md s = Ok (md', s') ->
  (n_bots (ad_set md) <= i)%nat -> nth_error (agents (ad_net md)) i = Some x ->
  exists x', nth_error (agents (ad_net md')) i = Some x' /\ a_reluctance x' = a_reluctance x /\
    Rabs (a_opinion x') <= Rmax (Rabs (a_opinion x)) (Rabs (K (ad_set md) / a_reluctance x) * in_weight (ad_net md') i).
Proof.
  intros Ht Hq Hr Hdt E Hb Ex.
  destruct (activity_iteration_ok (a:=RA) lm g q md s Hq Hr)
    as (md2 & s2 & h & cpl & E1 & E2 & E3 & E4 & E5 & E6 & E7 & E8 & E9 & E10 & E11 & E12 & E13).
  rewrite E in E1. inversion E1; subst md2 s2. clear E1.
  assert (Hi : (i < length (agents (ad_net md)))%nat) by (apply nth_error_Some; congruence).
  assert (Hlen : length (agents (ad_net md')) = length (agents (ad_net md))).
  { rewrite <- (map_length a_activity (agents (ad_net md'))), E12. apply map_length. }
  destruct (nth_error (agents (ad_net md')) i) as [x'|] eqn:Ex'. 2:{ apply nth_error_None in Ex'. lia. }
  exists x'. split; auto. split.
  { pose proof (f_equal (fun l => nth_error l i) E13) as H. cbv beta in H. rewrite !nth_error_map in H.
    rewrite Ex, Ex' in H. cbn [option_map] in H. congruence. }
  pose proof (f_equal (fun l => nth i l 0) E11) as H. cbv beta in H.
  assert (L1 : nth i (map a_opinion (agents (ad_net md'))) 0 = a_opinion x').
  { apply nth_error_nth. rewrite nth_error_map. now rewrite Ex'. }
  assert (L2 : nth i (map a_opinion (agents (ad_net md))) 0 = a_opinion x).
  { apply nth_error_nth. rewrite nth_error_map. now rewrite Ex. }
  assert (L3 : length (map a_opinion (agents (ad_net md))) = n_agents h).
  { rewrite map_length. unfold n_agents. now rewrite E9. }
  pose proof (rk4_agent_bound lm (activity_ops (F RA)) Ht (ad_set md) h (map a_opinion (agents (ad_net md))) (dt (ad_set md)) i x
     ltac:(rewrite E9; exact Ex) L3 Hdt) as HB.
  eapply Rle_trans; [|eapply Rle_trans; [exact HB|]].
  - apply Req_le. f_equal. rewrite <- L1. eapply eq_trans; [exact H|].
    unfold with_bots. rewrite nth_map_seq.
    + rewrite (proj2 (Nat.ltb_ge _ _) Hb). reflexivity.
    + unfold rk4_step. cbv zeta. rewrite map_length, seq_length. rewrite L3. unfold n_agents. rewrite E9. exact Hi.
  - apply Req_le. apply f_equal2; [exact (f_equal Rabs L2)|]. unfold pull, in_weight. apply f_equal. unfold row. now rewrite <- E6, <- E7.
Qed.

(** Any number of steps: if the incoming weight of agent [i] never exceeds [W], its opinion stays
    below the larger of its initial absolute value and |K / reluctance| * W. *)
Theorem C40_run k : forall (md md' : ad_model (a:=RA) (activity_agent (F RA))) s s' i (x : activity_agent (F RA)) W,
  (forall z : R, Rabs (ltanh RA lm z) <= 1) -> pq_bag q -> ad_ready md -> 0 < dt (ad_set md) <= 1 ->
  activity_run (a:=RA) lm g q k md s = Ok (md', s') ->
  (n_bots (ad_set md) <= i)%nat -> nth_error (agents (ad_net md)) i = Some x ->
  (forall j mdj sj, (1 <= j <= k)%nat -> activity_run (a:=RA) lm g q j md s = Ok (mdj, sj) -> in_weight (ad_net mdj) i <= W) ->
  exists x', nth_error (agents (ad_net md')) i = Some x' /\ a_reluctance x' = a_reluctance x /\
    Rabs (a_opinion x') <= Rmax (Rabs (a_opinion x)) (Rabs (K (ad_set md) / a_reluctance x) * W).
Proof.
  induction k as [|k IH]; intros md md' s s' i x W Ht Hq Hr Hdt E Hb Ex HW.
  - cbn in E. inversion E; subst. exists x. split; auto. split; auto. apply Rmax_l.
  - cbn [activity_run] in E. apply bind_ok_inv in E as ([md1 s1] & E1 & E2).
    destruct (C40_step md md1 s s1 i x Ht Hq Hr Hdt E1 Hb Ex) as (x1 & Ex1 & Er1 & B1).
    destruct (activity_iteration_ok (a:=RA) lm g q md s Hq Hr)
      as (md2 & s2 & h & cpl & E1' & R2 & _ & S2 & _).
    rewrite E1 in E1'. inversion E1'; subst md2 s2. clear E1'.
    assert (W1 : in_weight (ad_net md1) i <= W).
    { apply (HW 1%nat md1 s1 ltac:(lia)). cbn [activity_run]. rewrite E1. reflexivity. }
    destruct (IH md1 md' s1 s' i x1 W Ht Hq R2) as (x' & Ex' & Er' & B'); auto.
    + now rewrite S2.
    + now rewrite S2.
    + intros j mdj sj Hj Ej. apply (HW (S j) mdj sj ltac:(lia)). cbn [activity_run]. rewrite E1. exact Ej.
    + exists x'. split; auto. split; [congruence|]. rewrite S2, Er1 in B'. eapply Rle_trans; [exact B'|].
      apply Rmax_lub; [|apply Rmax_r]. eapply Rle_trans; [exact B1|]. apply Rmax_lub; [apply Rmax_l|].
      eapply Rle_trans; [|apply Rmax_r]. apply Rmult_le_compat_l; [apply Rabs_pos|exact W1].
Qed.
End C40.

(** In-degrees of simple graphs. *)
Section Degree.
Context {A W : Type}.
Lemma NoDup_piece X Y (f : X -> list Y) l x : NoDup (flat_map f l) -> In x l -> NoDup (f x).
Proof.
  intros H Hx. apply in_split in Hx as (l1 & l2 & ->). rewrite flat_map_app in H. cbn in H.
  assert (G : forall (u v : list Y), NoDup (u ++ v) -> NoDup v).
  { induction u; cbn; auto. intros v Hv. inversion Hv; auto. }
  apply G in H. clear -H. induction (f x) as [|y t IH]; [constructor|]. cbn in H. inversion H; subst. constructor; auto.
  intros Hy. apply H2. apply in_app_iff. auto.
Qed.
Lemma simple_row (h : network A W) i : wf h -> dir h = Incoming -> NoDup (map fst (edges h)) -> (i < n_agents h)%nat ->
  NoDup (map fst (row h i)) /\ (forall p, In p (row h i) -> In (fst p, i, snd p) (edges h)) /\
  (forall p, In p (row h i) -> (fst p < n_agents h)%nat).
Proof.
  intros (W1 & W2 & W3 & W4) Hd Hn Hi. unfold edges in *. rewrite Hd in *.
  rewrite flat_map_concat_map, concat_map, map_map, <- flat_map_concat_map in Hn.
  split; [|split].
  - apply (NoDup_piece _ _ _ _ i) in Hn; [|apply in_seq; unfold n_agents in Hi; lia].
    cbv beta in Hn. rewrite map_map in Hn. cbn [fst] in Hn. clear -Hn. induction (row h i) as [|p r IH]; cbn in *; constructor; inversion Hn; subst; auto.
    intros Hin. apply H1. apply in_map_iff in Hin as (p' & E & Hp'). apply in_map_iff. exists p'. split; congruence.
  - intros p Hp. apply in_flat_map. exists i. split; [apply in_seq; unfold n_agents in Hi; lia|].
    apply in_map_iff. exists p. auto.
  - intros [j w] Hp. apply in_combine_l in Hp. apply (W4 i j Hp).
Qed.
Lemma degree_le (h : network A W) i : wf h -> dir h = Incoming -> NoDup (map fst (edges h)) -> (i < n_agents h)%nat ->
  (length (row h i) <= n_agents h)%nat.
Proof.
  intros Hw Hd Hn Hi. destruct (simple_row h i Hw Hd Hn Hi) as (H1 & _ & H3).
  rewrite <- (map_length fst), <- (seq_length (n_agents h) 0). apply NoDup_incl_length; auto.
  intros j Hj. apply in_map_iff in Hj as (p & <- & Hp). apply in_seq. specialize (H3 p Hp). lia.
Qed.
Lemma degree_lt (h : network A W) i : wf h -> dir h = Incoming -> NoDup (map fst (edges h)) -> (i < n_agents h)%nat ->
  (forall w, ~ In (i, i, w) (edges h)) -> (length (row h i) <= n_agents h - 1)%nat.
Proof.
  intros Hw Hd Hn Hi Hs. destruct (simple_row h i Hw Hd Hn Hi) as (H1 & H2 & H3).
  rewrite <- (map_length fst).
  assert (Hr : length (remove Nat.eq_dec i (seq 0 (n_agents h))) = n_agents h - 1).
  { assert (G : forall l, NoDup l -> In i l -> S (length (remove Nat.eq_dec i l)) = length l).
    { induction l as [|x l IH]; intros Hd' Hin; [destruct Hin|]. inversion Hd'; subst. cbn.
      destruct (Nat.eq_dec i x) as [->|Hne].
      - f_equal. now rewrite notin_remove.
      - cbn. f_equal. apply IH; auto. destruct Hin; [congruence|auto]. }
    specialize (G (seq 0 (n_agents h)) (seq_NoDup _ _) ltac:(apply in_seq; lia)). rewrite seq_length in G. lia. }
  rewrite <- Hr. apply NoDup_incl_length; auto.
  intros j Hj. apply in_map_iff in Hj as (p & <- & Hp). apply in_in_remove.
  - intros E. apply H2 in Hp. apply (Hs (snd p)). now rewrite <- E at 1.
  - apply in_seq. specialize (H3 p Hp). lia.
Qed.
End Degree.

Section C40b.
Local Open Scope R_scope.
(** Probabilistic networks: every agent's total incoming weight is at most the number of agents ... *)
Lemma probabilistic_in_weight (lm : Libm RA) (g : Rng RA) (q : PQ RA) (md md' : ad_model (a:=RA) (activity_agent (F RA))) s s' i :
  pq_bag q -> ad_ready md -> mean_weights (ad_set md) = false ->
  activity_iteration (a:=RA) lm g q md s = Ok (md', s') -> (i < n_agents (ad_net md))%nat ->
  in_weight (ad_net md') i <= INR (n_agents (ad_net md)).
Proof.
  intros Hq Hr Hm E Hi.
  destruct (activity_iteration_ok (a:=RA) lm g q md s Hq Hr)
    as (md2 & s2 & h & cpl & E1 & E2 & E3 & E4 & E5 & E6 & E7 & E8 & E9 & E10 & _).
  rewrite E in E1. inversion E1; subst md2 s2. clear E1.
  unfold update_network in E3. rewrite Hm in E3. cbn [negb] in E3. apply bind_ok_inv in E3 as ([h0 s0] & E3 & E0).
  inversion E0; subst h0 cpl s0. destruct Hr as (W1 & W2 & W3 & _).
  destruct (C42_simple_graph RA lm g q _ (activity_ops (F RA)) (ad_set md) (ad_net md) h s s' Hq W3 W1 W2 E3) as [Hn Hw].
  assert (Hd : dir h = Incoming). { destruct E2 as (_ & Hd & _). rewrite <- E8. exact Hd. }
  assert (Hni : n_agents h = n_agents (ad_net md)) by (unfold n_agents; now rewrite E9).
  unfold in_weight. replace (row (ad_net md') i) with (row h i) by (unfold row; now rewrite E6, E7).
  destruct (simple_row h i E10 Hd Hn ltac:(lia)) as (_ & H2 & _).
  pose proof (degree_le h i E10 Hd Hn ltac:(lia)) as Hdeg. rewrite Hni in Hdeg.
  apply Rle_trans with (INR (length (row h i))); [|now apply le_INR].
  clear -H2 Hw. assert (G : forall r, (forall p, In p r -> snd p = 1) -> Rsum (map (fun p : nat * R => Rabs (snd p)) r) <= INR (length r)).
  { induction r as [|p r IH]; intros Hp; cbn [map length]; [rewrite Rsum_nil; cbn; lra|].
    rewrite Rsum_cons, S_INR, (Hp p (or_introl eq_refl)), Rabs_R1. specialize (IH (fun p' H => Hp p' (or_intror H))). lra. }
  apply G. intros p Hp. apply H2 in Hp. apply Hw in Hp. exact Hp.
Qed.

(** ... so opinions stay below max(|x_i(0)|, |K / reluctance_i| * n_agents) for ever. *)
Theorem C40_probabilistic_run (lm : Libm RA) (g : Rng RA) (q : PQ RA) k (md md' : ad_model (a:=RA) (activity_agent (F RA))) s s' i (x : activity_agent (F RA)) :
  (forall z : R, Rabs (ltanh RA lm z) <= 1) -> pq_bag q -> ad_ready md -> 0 < dt (ad_set md) <= 1 ->
  mean_weights (ad_set md) = false ->
  activity_run (a:=RA) lm g q k md s = Ok (md', s') ->
  (n_bots (ad_set md) <= i)%nat -> nth_error (agents (ad_net md)) i = Some x ->
  exists x', nth_error (agents (ad_net md')) i = Some x' /\
    Rabs (a_opinion x') <= Rmax (Rabs (a_opinion x)) (Rabs (K (ad_set md) / a_reluctance x) * INR (n_agents (ad_net md))).
Proof.
  intros Ht Hq Hr Hdt Hm E Hb Ex.
  assert (Hi : (i < n_agents (ad_net md))%nat) by (apply nth_error_Some; congruence).
  destruct (C40_run lm g q k md md' s s' i x (INR (n_agents (ad_net md))) Ht Hq Hr Hdt E Hb Ex) as (x' & H1 & _ & H2); [|eauto].
  clear -Hq Hr Hm Hi.
  assert (G : forall j md s, ad_ready md -> mean_weights (ad_set md) = false -> (i < n_agents (ad_net md))%nat ->
     forall mdj sj, (1 <= j)%nat -> activity_run (a:=RA) lm g q j md s = Ok (mdj, sj) -> in_weight (ad_net mdj) i <= INR (n_agents (ad_net md))).
  { clear md s Hr Hm Hi. induction j as [|j IH]; intros md s Hr Hm Hi mdj sj Hj E; [exfalso; lia|]. cbn [activity_run] in E.
    apply bind_ok_inv in E as ([md1 s1] & E1 & E2).
    destruct (Nat.eq_dec j 0) as [->|Hne].
    - cbn in E2. inversion E2; subst. eapply probabilistic_in_weight; eauto.
    - destruct (activity_iteration_ok (a:=RA) lm g q md s Hq Hr)
        as (md2 & s2 & h & cpl & E1' & R2 & _ & S2 & _ & _ & _ & _ & _ & _ & _ & L2 & _).
      rewrite E1 in E1'. inversion E1'; subst md2 s2.
      assert (Hn : n_agents (ad_net md1) = n_agents (ad_net md)).
      { unfold n_agents. rewrite <- (map_length a_activity), L2. apply map_length. }
      rewrite <- Hn. apply (IH md1 s1 R2) with sj; auto; try lia. now rewrite S2. }
  intros j mdj sj Hj E. exact (G j md s Hr Hm Hi mdj sj (proj1 Hj) E).
Qed.

(** Nobody is its own neighbour (see C42): the in-degree is at most n_agents - 1. *)
Theorem C40_in_degree (lm : Libm EA) (g : Rng EA) (q : PQ EA) (A : Type) (ops : agent_ops (F EA) A)
  (st : ad_settings (F EA)) (h h' : network A (F EA)) s s' i :
  lpow EA lm = epow -> llog EA lm = elog ->
  (forall t, exists u, fst (r_real g (Fin 0) (Fin 1) t) = Fin u /\ (0 < u < 1)%R) ->
  pq_bag q -> pq_ordered (a:=EA) (fun x : ext => exists r, x = Fin r) q ->
  settings_fit (a:=EA) st (n_agents h) -> wf h -> dir h = Incoming ->
  (forall x, In x (agents h) -> exists o, get_opinion ops x = Fin o) ->
  (forall i, (i < n_agents h)%nat -> exists e, homophily_of (a:=EA) st i = Fin e) ->
  (forall i, (i < n_agents h)%nat -> (1 <= contact_count (a:=EA) st i < n_agents h)%nat) ->
  update_network_probabilistic (a:=EA) lm g q ops st h s = Ok (h', s') -> (i < n_agents h)%nat ->
  (length (row h' i) <= n_agents h - 1)%nat.
Proof.
  intros H1 H2 H3 Hq Ho Hf Hw Hd H4 H5 H6 E Hi.
  pose proof (C42_no_self_contact lm g q A ops st h h' s s' H1 H2 H3 Hq Ho Hf Hw Hd H4 H5 H6 E i) as Hs.
  destruct (C42_simple_graph EA lm g q A ops st h h' s s' Hq Hf Hw Hd E) as [Hn _].
  destruct (C42_contact_graph EA lm g q A ops st h s Hq Hf Hw Hd) as (h2 & s2 & cs & s1 & R & E1 & _ & _ & _ & Ea & Ed & Ew & _).
  rewrite E in E1. inversion E1; subst h2 s2.
  assert (N : n_agents h' = n_agents h) by (unfold n_agents; now rewrite Ea). rewrite <- N in *. now apply degree_lt.
Qed.
End C40b.

(** ** C41: no sign is favoured *)
Section C41.
Local Open Scope R_scope.
Definition mirror_agent (x : activity_agent (F RA)) : activity_agent (F RA) := mkActivity (- a_opinion x) (a_activity x) (a_reluctance x).
(** The same model with all opinions (agents' and configured bots') negated. *)
Definition mirror (md : ad_model (a:=RA) (activity_agent (F RA))) : ad_model (a:=RA) (activity_agent (F RA)) :=
  mkAD (a:=RA) (ad_base md) (mirror_settings (ad_set md)) (with_agents (ad_net md) (map mirror_agent (agents (ad_net md)))) (contact_prob_list md).
Definition mirror_inertial_agent (x : inertial_agent (F RA)) : inertial_agent (F RA) :=
  mkInertial (- i_opinion x) (i_activity x) (i_reluctance x) (- i_velocity x).
Definition mirror_inertial (im : inertial_model (a:=RA)) : inertial_model (a:=RA) :=
  mkIM (a:=RA) (mkAD (a:=RA) (ad_base (im_ad im)) (mirror_settings (ad_set (im_ad im)))
    (with_agents (ad_net (im_ad im)) (map mirror_inertial_agent (agents (ad_net (im_ad im))))) (contact_prob_list (im_ad im)))
    (friction_coefficient im).

Lemma mirror_ready A (f : A -> A) (md : ad_model (a:=RA) A) : ad_ready md ->
  ad_ready (mkAD (a:=RA) (ad_base md) (mirror_settings (ad_set md)) (with_agents (ad_net md) (map f (agents (ad_net md)))) (contact_prob_list md)).
Proof.
  intros (W1 & W2 & W3 & W4 & W5 & W6).
  assert (N : n_agents (with_agents (ad_net md) (map f (agents (ad_net md)))) = n_agents (ad_net md)).
  { unfold n_agents. cbn. apply map_length. }
  unfold ad_ready. cbn [ad_net ad_set contact_prob_list]. rewrite N.
  split; [apply wf_with_agents; auto; apply map_length|]. split; [exact W2|]. split; [exact W3|]. split; [exact W4|].
  split; [cbn [n_bots bot_opinion mirror_settings]; rewrite map_length; exact W5|].
  intros Hm. destruct (W6 Hm) as [[M1 M2] M3]. split; [|exact M3]. unfold mean_shaped. rewrite N. split; [exact M1|exact M2].
Qed.

Section Odd.
Context (lm : Libm RA) (g : Rng RA) (q : PQ RA).
Hypothesis Hodd : forall z : R, ltanh RA lm (- z) = - ltanh RA lm z.
Hypothesis Hq : pq_bag q.

Lemma mirror_step md s md' s' : ad_ready md -> activity_iteration (a:=RA) lm g q md s = Ok (md', s') ->
  activity_iteration (a:=RA) lm g q (mirror md) s = Ok (mirror md', s').
Proof.
  intros Hr E.
  destruct (activity_iteration_ok (a:=RA) lm g q md s Hq Hr)
    as (md2 & s2 & h & cpl & E1 & E2 & E3 & E4 & E5 & E6 & E7 & E8 & E9 & E10 & E11 & E12 & E13).
  rewrite E in E1. inversion E1; subst md2 s2. clear E1.
  assert (Ecp : contact_prob_list md' = cpl).
  { unfold activity_iteration in E. rewrite E3 in E. cbn [bind] in E. apply bind_ok_inv in E as (ks & _ & E).
    apply bind_ok_inv in E as (l1 & _ & E). apply bind_ok_inv in E as (l2 & _ & E). inversion E. reflexivity. }
  pose proof (mirror_ready _ mirror_agent md Hr) as Hr'. fold (mirror md) in Hr'.
  destruct (activity_iteration_ok (a:=RA) lm g q (mirror md) s Hq Hr')
    as (md2 & s2 & h2 & cpl2 & F1 & F2 & F3 & F4 & F5 & F6 & F7 & F8 & F9 & F10 & F11 & F12 & F13).
  pose proof (update_mirror lm (activity_ops (F RA)) mirror_agent (fun x => eq_refl) (fun x => eq_refl)
     g q md s h cpl s' Hq Hr E3) as U.
  cbn [mirror ad_set ad_net contact_prob_list] in F3. rewrite U in F3. inversion F3; subst h2 cpl2 s2. clear F3.
  assert (Ecp2 : contact_prob_list md2 = cpl).
  { clear -F1 U. unfold activity_iteration in F1. cbn [mirror ad_set ad_net contact_prob_list ad_base] in F1.
    rewrite U in F1. cbn [bind] in F1. apply bind_ok_inv in F1 as (ks & _ & E).
    apply bind_ok_inv in E as (l1 & _ & E). apply bind_ok_inv in E as (l2 & _ & E). inversion E. reflexivity. }
  rewrite F1. f_equal. f_equal.
  destruct md2 as [b2 st2 n2 c2], md' as [b' st' n' c']. destruct n2 as [ag2 ne2 wt2 di2], n' as [ag' ne' wt' di'].
  cbn [mirror ad_base ad_set ad_net contact_prob_list agents neigh wts dir with_agents] in *.
  unfold mirror. cbn [ad_base ad_set ad_net contact_prob_list agents neigh wts dir with_agents].
  subst b2 st2 c2 b' st' c' ne2 wt2 di2 ne' wt' di'. unfold with_agents. cbn [agents neigh wts dir]. f_equal. f_equal.
  (* the agents *)
  assert (Hop : map a_opinion ag2 = map Ropp (map a_opinion ag')).
  { rewrite F11, E11. change (dt (mirror_settings (ad_set md))) with (dt (ad_set md)).
    replace (map a_opinion (map mirror_agent (agents (ad_net md)))) with (map Ropp (map a_opinion (agents (ad_net md))))
      by (rewrite !map_map; reflexivity).
    rewrite (rk4_mirror (field (a:=RA) lm (activity_ops (F RA)) (ad_set md) h)).
    - apply with_bots_mirror. apply Hr.
    - intros ys. pose proof (field_mirror lm (activity_ops (F RA)) mirror_agent (fun x => eq_refl) Hodd (ad_set md) h ys) as HF.
      rewrite E9 in HF. exact HF. }
  assert (Hac : map a_activity ag2 = map a_activity ag').
  { rewrite F12, E12, map_map. apply map_ext. reflexivity. }
  assert (Hre : map a_reluctance ag2 = map a_reluctance ag').
  { rewrite F13, E13, map_map. apply map_ext. reflexivity. }
  clear -Hop Hac Hre. revert ag' Hop Hac Hre. induction ag2 as [|x ag2 IH]; intros [|y ag'] H1 H2 H3; cbn in *; try discriminate; auto.
  inversion H1; inversion H2; inversion H3. f_equal; auto. destruct x, y. unfold mirror_agent. cbn in *. congruence.
Qed.

(** Running the mirrored model with the same random numbers gives the mirrored result. *)
Theorem C41_mirror k : forall md s md' s', ad_ready md -> activity_run (a:=RA) lm g q k md s = Ok (md', s') ->
  activity_run (a:=RA) lm g q k (mirror md) s = Ok (mirror md', s').
Proof.
  induction k as [|k IH]; intros md s md' s' Hr E; cbn [activity_run] in *.
  - inversion E; reflexivity.
  - apply bind_ok_inv in E as ([md1 s1] & E1 & E2). rewrite (mirror_step md s md1 s1 Hr E1). cbn [bind]. apply IH; auto.
    destruct (activity_iteration_ok (a:=RA) lm g q md s Hq Hr) as (md2 & s2 & h & cpl & E1' & R2 & _).
    rewrite E1 in E1'. inversion E1'; subst. exact R2.
Qed.

Lemma mirror_agent_zero (x : activity_agent (F RA)) : a_opinion x = 0 -> mirror_agent x = x.
Proof.
  destruct x as [o ac re]. intros H. change (o = 0) in H. subst o. unfold mirror_agent.
  cbn [a_opinion a_activity a_reluctance]. exact (f_equal (fun o : F RA => @mkActivity (F RA) o ac re) Ropp_0).
Qed.

(** All opinions (and bot opinions) zero: they stay zero. *)
Theorem C41_zero_stays k md s md' s' : ad_ready md -> activity_run (a:=RA) lm g q k md s = Ok (md', s') ->
  (forall x, In x (agents (ad_net md)) -> a_opinion x = 0) -> (forall o, In o (bot_opinion (ad_set md)) -> o = 0) ->
  forall x, In x (agents (ad_net md')) -> a_opinion x = 0.
Proof.
  intros Hr E Ha Hb. pose proof (C41_mirror k md s md' s' Hr E) as E'.
  assert (Em : mirror md = md).
  { destruct md as [b st n c]. unfold mirror. cbn [ad_base ad_set ad_net contact_prob_list] in *. f_equal.
    - clear -Hb. destruct st. unfold mirror_settings. cbn in *. f_equal.
      induction bot_opinion as [|o l IH]; cbn in *; auto. rewrite IH by (intros; apply Hb; auto). f_equal.
      rewrite (Hb o (or_introl eq_refl)). apply Ropp_0.
    - destruct n as [ag ne wt di]. unfold with_agents. cbn [agents neigh wts dir] in *. f_equal. clear -Ha.
      induction ag as [|x l IH]; [reflexivity|]. cbn [map]. rewrite IH by (intros y Hy; apply Ha; right; exact Hy).
      rewrite (mirror_agent_zero x (Ha x (or_introl eq_refl))). reflexivity. }
  rewrite Em, E in E'.
  assert (Ea : agents (ad_net md') = map mirror_agent (agents (ad_net md'))).
  { assert (E2 : md' = mirror md') by congruence. exact (f_equal (fun m => agents (ad_net m)) E2). }
  clear -Ea. intros x Hx. apply In_nth_error in Hx as [i Hi]. pose proof (f_equal (fun l => nth_error l i) Ea) as H.
  cbv beta in H. rewrite nth_error_map, Hi in H. cbn [option_map] in H.
  assert (H1 : a_opinion x = a_opinion (mirror_agent x)) by congruence.
  assert (H2 : a_opinion x = - a_opinion x) by exact H1.
  assert (H3 : forall u : R, u = - u -> u = 0) by (intros; lra). exact (H3 _ H2).
Qed.

Lemma verlet_position_R (dtt fr x v d : R) :
  verlet_position (a:=RA) dtt fr x v d = x + v * dtt + flit RA 1 2 * (d - fr * v) * dtt * dtt.
Proof. reflexivity. Qed.
Lemma verlet_velocity_R (dtt fr v d d' : R) :
  verlet_velocity (a:=RA) dtt fr v d d' = (v + flit RA 1 2 * dtt * (d - fr * v + d')) / (1 + flit RA 1 2 * fr * dtt).
Proof. reflexivity. Qed.
Lemma verlet_position_opp (dtt fr x v d : R) :
  verlet_position (a:=RA) dtt fr (- x) (- v) (- d) = - verlet_position (a:=RA) dtt fr x v d.
Proof. rewrite !verlet_position_R. generalize (flit RA 1 2). intros h. change R in h. match goal with |- ?u = ?w => change (@eq R u w) end. ring. Qed.
Lemma verlet_velocity_opp (dtt fr v d d' : R) :
  verlet_velocity (a:=RA) dtt fr (- v) (- d) (- d') = - verlet_velocity (a:=RA) dtt fr v d d'.
Proof. rewrite !verlet_velocity_R. generalize (flit RA 1 2). intros h. change R in h. match goal with |- ?u = ?w => change (@eq R u w) end. unfold Rdiv. ring. Qed.

Lemma mirror_inertial_step im s im' s' : ad_ready (im_ad im) -> inertial_iteration (a:=RA) lm g q im s = Ok (im', s') ->
  inertial_iteration (a:=RA) lm g q (mirror_inertial im) s = Ok (mirror_inertial im', s').
Proof.
  intros Hr E.
  destruct (inertial_iteration_ok (a:=RA) lm g q im s Hq Hr)
    as (im2 & s2 & h & cpl & E1 & E2 & E3 & E4 & E5 & E6 & E7 & E8 & E9 & E10 & E11 & E12 & xs' & X1 & X2 & X3).
  rewrite E in E1. inversion E1; subst im2 s2. clear E1.
  assert (Ecp : contact_prob_list (im_ad im') = cpl).
  { unfold inertial_iteration in E. rewrite E3 in E. cbn [bind] in E. apply bind_ok_inv in E as ([dr l0] & _ & E).
    apply bind_ok_inv in E as (l1 & _ & E). apply bind_ok_inv in E as (l2 & _ & E). inversion E. reflexivity. }
  pose proof (mirror_ready _ mirror_inertial_agent (im_ad im) Hr) as Hr'.
  destruct (inertial_iteration_ok (a:=RA) lm g q (mirror_inertial im) s Hq Hr')
    as (im2 & s2 & h2 & cpl2 & F1 & F2 & F3 & F4 & F5 & F6 & F7 & F8 & F9 & F10 & F11 & F12 & ys' & Y1 & Y2 & Y3).
  pose proof (update_mirror lm (inertial_ops (F RA)) mirror_inertial_agent (fun x => eq_refl) (fun x => eq_refl)
     g q (im_ad im) s h cpl s' Hq Hr E3) as U.
  cbn [mirror_inertial im_ad ad_set ad_net contact_prob_list] in F3. rewrite U in F3. inversion F3; subst h2 cpl2 s2. clear F3.
  assert (Ecp2 : contact_prob_list (im_ad im2) = cpl).
  { clear -F1 U. unfold inertial_iteration in F1. cbn [mirror_inertial im_ad ad_set ad_net contact_prob_list ad_base] in F1.
    rewrite U in F1. cbn [bind] in F1. apply bind_ok_inv in F1 as ([dr l0] & _ & E).
    apply bind_ok_inv in E as (l1 & _ & E). apply bind_ok_inv in E as (l2 & _ & E). inversion E. reflexivity. }
  rewrite F1. f_equal. f_equal.
  set (l := agents (ad_net (im_ad im))) in *. set (st := ad_set (im_ad im)) in *. set (fr := friction_coefficient im) in *.
  cbn [mirror_inertial im_ad ad_set ad_net contact_prob_list friction_coefficient agents with_agents ad_base] in *.
  fold l st fr in F4, F5, F6, F12, Y1, Y2, Y3.
  (* mirrored drift *)
  assert (Hxs : map i_opinion (map mirror_inertial_agent l) = map Ropp (map i_opinion l)).
  { rewrite !map_map. reflexivity. }
  assert (HF : forall zs, field (a:=RA) lm (inertial_ops (F RA)) (mirror_settings st) (with_agents h (map mirror_inertial_agent l)) (map Ropp zs)
             = map Ropp (field (a:=RA) lm (inertial_ops (F RA)) st h zs)).
  { intros zs. pose proof (field_mirror lm (inertial_ops (F RA)) mirror_inertial_agent (fun x => eq_refl) Hodd st h zs) as HF.
    rewrite E10 in HF. exact HF. }
  rewrite Hxs, HF in Y2, Y3. rewrite Hxs in Y1.
  set (drift := field (a:=RA) lm (inertial_ops (F RA)) st h (map i_opinion l)) in *.
  assert (P1 : forall dtt fr x v d : F RA, verlet_position (a:=RA) dtt fr (- x) (- v) (- d) = - verlet_position (a:=RA) dtt fr x v d).
  { intros. apply verlet_position_opp. }
  assert (P2 : forall dtt fr v d d' : F RA, verlet_velocity (a:=RA) dtt fr (- v) (- d) (- d') = - verlet_velocity (a:=RA) dtt fr v d d').
  { intros. apply verlet_velocity_opp. }
  assert (Hys : ys' = map Ropp xs').
  { apply list_ext. intros i. rewrite nth_error_map. destruct (nth_error l i) as [x|] eqn:Ex.
    - assert (Ey : nth_error (map mirror_inertial_agent l) i = Some (mirror_inertial_agent x)) by (rewrite nth_error_map, Ex; reflexivity).
      eapply eq_trans; [exact (Y2 i _ Ey)|]. symmetry. eapply eq_trans; [exact (f_equal (option_map Ropp) (X2 i x Ex))|].
      cbn [option_map]. symmetry. apply (f_equal Some).
      eapply eq_trans; [|apply P1]. apply f_equal. apply nth_map_Ropp.
    - apply nth_error_None in Ex. assert (H1 : (length xs' <= i)%nat) by (rewrite X1, map_length; exact Ex).
      apply nth_error_None in H1. symmetry. eapply eq_trans; [exact (f_equal (option_map Ropp) H1)|]. symmetry.
      apply nth_error_None. rewrite Y1, !map_length. exact Ex. }
  subst ys'. rewrite HF in Y3.
  assert (Hag : agents (ad_net (im_ad im2)) = map mirror_inertial_agent (agents (ad_net (im_ad im')))).
  { apply list_ext. intros i. rewrite nth_error_map. destruct (nth_error l i) as [x|] eqn:Ex.
    - rewrite (X3 i x Ex). rewrite (Y3 i (mirror_inertial_agent x)) by (rewrite nth_error_map, Ex; reflexivity).
      cbn [option_map]. f_equal. unfold mirror_inertial_agent at 4.
      cbn [f0 RA i_opinion i_velocity i_activity i_reluctance mirror_inertial_agent dt mirror_settings n_bots bot_opinion].
      rewrite !nth_map_Ropp. f_equal.
      + destruct (i <? n_bots st)%nat; reflexivity.
      + apply P2.
    - apply nth_error_None in Ex.
      assert (H1 : nth_error (agents (ad_net (im_ad im'))) i = None) by (apply nth_error_None; rewrite E12; exact Ex).
      rewrite H1. cbn [option_map]. apply nth_error_None. eapply Nat.le_trans; [apply Nat.eq_le_incl; exact F12|]. rewrite map_length. exact Ex. }
  destruct im2 as [[b2 st2 n2 c2] f2], im' as [[b' st' n' c'] f']. destruct n2 as [ag2 ne2 wt2 di2], n' as [ag' ne' wt' di'].
  unfold mirror_inertial.
  cbn [im_ad friction_coefficient ad_base ad_set ad_net contact_prob_list agents neigh wts dir with_agents] in *.
  subst. reflexivity.
Qed.

Theorem C41_mirror_inertial k : forall im s im' s', ad_ready (im_ad im) -> inertial_run (a:=RA) lm g q k im s = Ok (im', s') ->
  inertial_run (a:=RA) lm g q k (mirror_inertial im) s = Ok (mirror_inertial im', s').
Proof.
  induction k as [|k IH]; intros md s md' s' Hr E; cbn [inertial_run] in *.
  - inversion E; reflexivity.
  - apply bind_ok_inv in E as ([md1 s1] & E1 & E2). rewrite (mirror_inertial_step md s md1 s1 Hr E1). cbn [bind]. apply IH; auto.
    destruct (inertial_iteration_ok (a:=RA) lm g q md s Hq Hr) as (md2 & s2 & h & cpl & E1' & R2 & _).
    rewrite E1 in E1'. inversion E1'; subst. exact R2.
Qed.
End Odd.
End C41.

Print Assumptions C40_step.
Print Assumptions C40_run.
Print Assumptions C41_mirror.
Print Assumptions C41_zero_stays.
Print Assumptions C41_mirror_inertial.
