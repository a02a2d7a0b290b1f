(** Activity-driven and inertial models: theorems that hold in any arithmetic (C38, C39, C42-C44, C50). *)
From Verif Require Import Base BaseFacts Arith64 MRandom SRandom PRandom WRandom MDist MNetwork SNetwork PNetwork PNetwork2
  MAgents MDeGroot MActivity SActivity PActStep PActNet PActIter PActMean PActIter2 PActInit PActThm POrder RFacts PActReal
  TRandom.
From Coq Require Import Permutation Reals Lra.

(** ** C38: bots *)
Section C38.
Context (a : Arith) (lm : Libm a) (g : Rng a) (q : PQ a).
Notation D := (F a).

(** Agent [b] of [l] exists and its opinion is the configured opinion of bot [b]. *)
Definition bot_as_configured {A} (opinion : A -> D) (st : ad_settings D) (l : list A) (b : nat) : Prop :=
  exists x, nth_error l b = Some x /\ nth_error (bot_opinion st) b = Some (opinion x).

Lemma activity_iteration_bots md s md' s' :
  activity_iteration lm g q md s = Ok (md', s') ->
  ad_set md' = ad_set md /\ forall b, b < n_bots (ad_set md) -> bot_as_configured a_opinion (ad_set md) (agents (ad_net md')) b.
Proof.
  unfold activity_iteration. intros E.
  apply bind_ok_inv in E as ([[h cpl] s1] & _ & E). apply bind_ok_inv in E as (ks & _ & E).
  apply bind_ok_inv in E as (l1 & _ & E). apply bind_ok_inv in E as (l2 & E2 & E).
  inversion E; subst. cbn. split; auto. intros b Hb.
  destruct (reset_bots_opinion (activity_ops D) _ _ _ b (activity_ops_ok D) E2 Hb) as (x & o & H1 & H2 & H3).
  exists x. split; auto. rewrite <- H3 in H2. exact H2.
Qed.
Lemma inertial_iteration_bots im s im' s' :
  inertial_iteration lm g q im s = Ok (im', s') ->
  ad_set (im_ad im') = ad_set (im_ad im) /\ forall b, b < n_bots (ad_set (im_ad im)) ->
    bot_as_configured i_opinion (ad_set (im_ad im)) (agents (ad_net (im_ad im'))) b.
Proof.
  unfold inertial_iteration. intros E.
  apply bind_ok_inv in E as ([[h cpl] s1] & _ & E). apply bind_ok_inv in E as ([dr l0] & _ & E).
  apply bind_ok_inv in E as (l1 & _ & E). apply bind_ok_inv in E as (l2 & E2 & E).
  inversion E; subst. cbn. split; auto. intros b Hb.
  destruct (reset_bots_opinion (inertial_ops D) _ _ _ b (inertial_ops_ok D) E2 Hb) as (x & o & H1 & H2 & H3).
  exists x. split; auto. rewrite <- H3 in H2. exact H2.
Qed.

(** After construction and after every number of iterations the bots have their configured opinions
    (whenever the run returns at all; when it does return is [C39_total]). *)
Theorem C38_activity_bots_constant d st (h : network (activity_agent D) D) s md s0 k md' s' :
  ad_ctor lm g (activity_ops D) d st h s = Ok (md, s0) ->
  activity_run lm g q k md s0 = Ok (md', s') ->
  forall b, b < n_bots st -> bot_as_configured a_opinion st (agents (ad_net md')) b.
Proof.
  intros Ec Er.
  destruct (ctor_bots lm g (activity_ops D) d st h s md s0 (activity_ops_ok D) Ec) as [Est Hb].
  assert (H0 : forall b, b < n_bots st -> bot_as_configured a_opinion st (agents (ad_net md)) b).
  { intros b Hlt. destruct (Hb b Hlt) as (x & o & w & H1 & H2 & H3 & _). exists x. split; auto. rewrite <- H3 in H2. exact H2. }
  clear Ec Hb. revert md s0 Est H0 Er. induction k as [|k IH]; intros md s0 Est H0 Er; cbn in Er.
  - inversion Er; subst. auto.
  - apply bind_ok_inv in Er as ([md1 s1] & E1 & E2). apply activity_iteration_bots in E1 as [E0 E1].
    rewrite Est in E0, E1. eapply IH; eauto.
Qed.
Theorem C38_inertial_bots_constant d st friction (h : network (inertial_agent D) D) s im s0 k im' s' :
  inertial_ctor lm g d st friction h s = Ok (im, s0) ->
  inertial_run lm g q k im s0 = Ok (im', s') ->
  forall b, b < n_bots st -> bot_as_configured i_opinion st (agents (ad_net (im_ad im'))) b.
Proof.
  intros Ec Er. unfold inertial_ctor in Ec. apply bind_ok_inv in Ec as ([md s1] & Ec & E). inversion E; subst. clear E.
  destruct (ctor_bots lm g (inertial_ops D) d st h s md s0 (inertial_ops_ok D) Ec) as [Est Hb].
  set (im0 := mkIM md friction) in *.
  assert (H0 : forall b, b < n_bots st -> bot_as_configured i_opinion st (agents (ad_net (im_ad im0))) b).
  { intros b Hlt. destruct (Hb b Hlt) as (x & o & w & H1 & H2 & H3 & _). exists x. split; auto. rewrite <- H3 in H2. exact H2. }
  change md with (im_ad im0) in Est. clearbody im0. clear Ec Hb md. revert im0 s0 Est H0 Er.
  induction k as [|k IH]; intros im0 s0 Est H0 Er; cbn in Er.
  - inversion Er; subst. auto.
  - apply bind_ok_inv in Er as ([md1 s1] & E1 & E2). apply inertial_iteration_bots in E1 as [E0 E1].
    rewrite Est in E0, E1. eapply IH; eauto.
Qed.
(** The bots' activities after construction. *)
Theorem C38_bot_activities A (ops : agent_ops D A) (d : A) st h s md s0 : ops_ok ops ->
  ad_ctor lm g ops d st h s = Ok (md, s0) ->
  forall b, b < n_bots st -> exists x, nth_error (agents (ad_net md)) b = Some x /\
    nth_error (bot_activity st) b = Some (get_activity ops x).
Proof.
  intros Ho Ec b Hb. destruct (ctor_bots lm g ops d st h s md s0 Ho Ec) as [_ H].
  destruct (H b Hb) as (x & o & w & H1 & _ & _ & H2 & H3). exists x. split; auto. now rewrite H3.
Qed.
(** More bots than agents: construction never succeeds (it indexes out of bounds). *)
Theorem C38_too_many_bots A (ops : agent_ops D A) (d : A) st (h : network A D) s :
  n_agents h < n_bots st -> forall r, ad_ctor lm g ops d st h s <> Ok r.
Proof. apply ctor_too_many_bots. Qed.
End C38.

(** ** C39: totality and the Runge-Kutta step *)
Section C39.
Context (a : Arith) (lm : Libm a) (g : Rng a) (q : PQ a).
Notation D := (F a).

(** Settings that fit the population: construction and any number of iterations succeed. *)
Theorem C39_total d st (h : network (activity_agent D) D) s k :
  pq_bag q -> wf h -> dir h = Incoming -> settings_fit st (n_agents h) ->
  n_bots st <= n_agents h -> n_bots st <= length (bot_opinion st) -> n_bots st <= length (bot_activity st) ->
  exists md s0 md' s', ad_ctor lm g (activity_ops D) d st h s = Ok (md, s0) /\ ad_ready md /\ ad_set md = st /\
    activity_run lm g q k md s0 = Ok (md', s') /\ ad_ready md' /\ ad_set md' = st.
Proof.
  intros Hq Hw Hd Hf H1 H2 H3.
  destruct (ctor_ok lm g (activity_ops D) d st h s Hw Hd Hf H1 H2 H3) as (md & s0 & Ec & Hr & Es & _).
  destruct (activity_run_ready lm g q k md s0 Hq Hr) as (md' & s' & Er & Hr' & Es').
  exists md, s0, md', s'. rewrite Es in Es'. repeat (split; [assumption|]). assumption.
Qed.

(** One call of iteration(): first the network of this iteration is drawn; then every opinion is
    advanced by one Runge-Kutta step on it, and the bots are put back. Activities and reluctances stay. *)
Theorem C39_rk4_step (md : ad_model (activity_agent D)) s : pq_bag q -> ad_ready md ->
  let st := ad_set md in
  exists md' s' h cpl,
    activity_iteration lm g q md s = Ok (md', s') /\ ad_ready md' /\
    update_network lm g q (activity_ops D) st (ad_net md) (contact_prob_list md) s = Ok (h, cpl, s') /\
    agents h = agents (ad_net md) /\
    neigh (ad_net md') = neigh h /\ wts (ad_net md') = wts h /\ dir (ad_net md') = Incoming /\
    map a_opinion (agents (ad_net md')) =
      with_bots st (rk4_step (field lm (activity_ops D) st h) (dt st) (map a_opinion (agents (ad_net md)))) /\
    map a_activity (agents (ad_net md')) = map a_activity (agents (ad_net md)) /\
    map a_reluctance (agents (ad_net md')) = map a_reluctance (agents (ad_net md)) /\
    ad_base md' = base_iteration (ad_base md).
Proof.
  intros Hq Hr st. destruct (activity_iteration_ok lm g q md s Hq Hr)
    as (md' & s' & h & cpl & E1 & E2 & E3 & E4 & E5 & E6 & E7 & E8 & E9 & E10 & E11 & E12 & E13).
  exists md', s', h, cpl. pose proof E2 as (_ & Hd & _).
  repeat (split; [assumption|]). assumption.
Qed.
End C39.

(** The right-hand side in exact arithmetic: -x_i + (K / reluctance) * sum_j w_ij tanh(alpha x_j). *)
Theorem C39_slope_formula (lm : Libm RA) (Kc al : R) (xs : list R) i (rel : R) (r : list (nat * R)) :
  slope (a:=RA) lm Kc al xs i rel r =
  (- nth i xs 0 + Kc / rel * Rsum (map (fun p => snd p * ltanh RA lm (al * nth (fst p) xs 0)) r))%R.
Proof.
  apply slope_R.
Qed.

(** ** C42: the contact graph *)
Section C42.
Context (a : Arith) (lm : Libm a) (g : Rng a) (q : PQ a) (A : Type) (ops : agent_ops (F a) A).
Notation D := (F a).
Notation net := (network A D).

(** The edges after the update are exactly the contacts drawn in this round and the reversals of
    those one-way contacts whose reciprocity coin succeeded; contacts, coins and the final generator
    state are determined by the generator. Agents are unchanged, edges are stored as incoming. *)
Theorem C42_contact_graph (st : ad_settings D) (h : net) s :
  pq_bag q -> settings_fit st (n_agents h) -> wf h -> dir h = Incoming ->
  exists h' s' cs s1 R,
    update_network_probabilistic lm g q ops st h s = Ok (h', s') /\
    contacts_drawn lm g q ops st (agents h) 0 [] s cs s1 /\ length cs = n_agents h /\
    coins g (reciprocity st) (one_way cs) s1 = (R, s') /\
    agents h' = agents h /\ dir h' = Incoming /\ wf h' /\
    Permutation (edges h') (map unit_edge (contact_pairs cs ++ map reversed R)).
Proof.
  intros Hq Hf Hw Hd. destruct (update_probabilistic_ok lm g q ops st h s Hq Hf Hw Hd)
    as (h' & s' & cs & s1 & R & E1 & E2 & E3 & E4 & E5 & E6 & E7 & _ & E8).
  exists h', s', cs, s1, R. auto 10.
Qed.

(** No parallel edges, all weights 1. *)
Theorem C42_simple_graph (st : ad_settings D) (h h' : net) s s' :
  pq_bag q -> settings_fit st (n_agents h) -> wf h -> dir h = Incoming ->
  update_network_probabilistic lm g q ops st h s = Ok (h', s') ->
  NoDup (map fst (edges h')) /\ (forall e, In e (edges h') -> snd e = f1 a).
Proof.
  intros Hq Hf Hw Hd E. destruct (update_probabilistic_ok lm g q ops st h s Hq Hf Hw Hd)
    as (h2 & s2 & cs & s1 & R & E1 & E2 & E3 & E4 & E5 & E6 & E7 & Hv & E8).
  rewrite E in E1. inversion E1; subst h2 s2. split.
  - eapply Permutation_NoDup; [apply Permutation_map, Permutation_sym, E8|].
    rewrite map_map. rewrite map_ext with (g := fun p => p) by (intros [? ?]; reflexivity). rewrite map_id.
    pose proof (graph_NoDup g cs _ (reciprocity st) s1 Hv) as H. rewrite E4 in H. exact H.
  - intros e He. eapply Permutation_in in He; [|exact E8]. apply in_map_iff in He as (p & <- & _). reflexivity.
Qed.

(** The contacts of each agent: none if it is inactive, otherwise a weighted sample of its contact
    count; if that is positive, exactly so many distinct agents. *)
Theorem C42_contacts_per_agent (st : ad_settings D) l s cs s' : pq_bag q -> settings_fit st (length l) ->
  contacts_drawn lm g q ops st l 0 [] s cs s' ->
  length cs = length l /\
  forall i x, nth_error l i = Some x -> exists t u t1,
    r_real g (f0 a) (f1 a) t = (u, t1) /\
    (flt a u (get_activity ops x) = false -> nth i cs [] = []) /\
    (flt a u (get_activity ops x) = true -> contact_count st i <> 0 ->
       length (nth i cs []) = contact_count st i /\ NoDup (nth i cs []) /\ Forall (fun j => j < length l) (nth i cs [])).
Proof.
  intros Hq Hf H. destruct (contacts_at lm g q ops st l 0 [] s cs s' H ltac:(lia)) as [H1 H2]. split; [lia|].
  intros i x E. destruct (H2 i x ltac:(lia) E) as (b & t & u & t1 & P1 & P2 & P3). rewrite Nat.sub_0_r in *.
  exists t, u, t1. split; auto. split; auto. intros Hu Hc. destruct (P3 Hu) as (t2 & Et).
  assert (Hi : i < length l) by (apply nth_error_Some; congruence).
  destruct (m_of_ok st (length l) i Hf) as (z & _ & _ & Hle).
  destruct (C13_k_distinct a lm g q (fun j => Ok (affinity lm ops st l i j)) (contact_count st i) (length l) b t1 Hq)
    as (c & t3 & Ec & L1 & L2 & L3).
  - intros j _. eauto.
  - lia.
  - rewrite Et in Ec. inversion Ec; subst c. split; auto. split; auto. now apply Forall_forall.
Qed.

(** An active agent asking for more contacts than there are agents: the update never succeeds. *)
Theorem C42_too_many_contacts (st : ad_settings D) (h : net) s i x : pq_bag q ->
  nth_error (agents h) i = Some x ->
  (forall t, flt a (fst (r_real g (f0 a) (f1 a) t)) (get_activity ops x) = true) ->
  n_bots st <= length (bot_homophily st) -> n_bots st <= length (bot_m st) ->
  (0 <= (if (i <? n_bots st)%nat then nth i (bot_m st) 0%Z else m st) < 2147483648)%Z -> n_agents h < contact_count st i ->
  forall r, update_network_probabilistic lm g q ops st h s <> Ok r.
Proof.
  intros Hq Ex Ha Hh Hm Hz Hc.
  apply (too_many_contacts lm g q ops st h s i x (if i <? n_bots st then nth i (bot_m st) 0%Z else m st)); auto.
  - unfold m_of. rewrite bot_guard. destruct (Nat.ltb_spec i (n_bots st)); auto. apply vget_lt. lia.
  - rewrite to_size_t_small by lia. exact Hc.
Qed.
End C42.

(** Nobody contacts itself (exact arithmetic with infinities; the weight of oneself is 0): for finite
    opinions and homophilies, contact counts from 1 to n-1, uniform draws strictly between 0 and 1 and
    a priority queue that returns a smallest element. *)
Section NoSelf.
Context (lm : Libm EA) (g : Rng EA) (q : PQ EA) (A : Type) (ops : agent_ops (F EA) A).
Local Open Scope R_scope.
Theorem C42_no_self_contact (st : ad_settings (F EA)) (h h' : network A (F EA)) s s' :
  lpow EA lm = epow -> llog EA lm = elog ->
  (forall t, exists u, fst (r_real g (Fin 0) (Fin 1) t) = Fin u /\ (0 < u < 1)%R) ->
  pq_bag q -> pq_ordered (a:=EA) (fun x : ext => exists r, x = Fin r) q ->
  settings_fit (a:=EA) st (n_agents h) -> wf h -> dir h = Incoming ->
  (forall x, In x (agents h) -> exists o, get_opinion ops x = Fin o) ->
  (forall i, (i < n_agents h)%nat -> exists e, homophily_of (a:=EA) st i = Fin e) ->
  (forall i, (i < n_agents h)%nat -> (1 <= contact_count (a:=EA) st i < n_agents h)%nat) ->
  update_network_probabilistic (a:=EA) lm g q ops st h s = Ok (h', s') ->
  forall i w, ~ In (i, i, w) (edges h').
Proof.
  intros Hpow Hlog Hdr Hq Hord Hf Hw Hd Hop Hho Hc E i w Hin.
  destruct (update_probabilistic_ok (a:=EA) lm g q ops st h s Hq Hf Hw Hd)
    as (h2 & s2 & cs & s1 & R & E1 & E2 & E3 & E4 & E5 & E6 & E7 & Hv & E8).
  rewrite E in E1. inversion E1; subst h2 s2.
  assert (G : forall j, ~ In j (nth j cs [])).
  { intros j Hj. destruct (Nat.lt_ge_cases j (n_agents h)) as [Hl|Hl].
    2:{ rewrite nth_overflow in Hj by (rewrite E3; exact Hl). destruct Hj. }
    destruct (contacts_at (a:=EA) lm g q ops st (agents h) 0 [] s cs s1 E2 ltac:(lia)) as [_ H2].
    destruct (nth_error (agents h) j) as [x|] eqn:Ex. 2:{ apply nth_error_None in Ex. unfold n_agents in Hl. lia. }
    destruct (H2 j x ltac:(lia) Ex) as (b & t & u & t1 & P1 & P2 & P3). rewrite Nat.sub_0_r in *.
    destruct (flt EA u (get_activity (D:=F EA) ops x)).
    2:{ rewrite P2 in Hj by reflexivity. destruct Hj. }
    destruct (P3 eq_refl) as (t2 & Et).
    assert (Hwt : forall k, (k < n_agents h)%nat -> exists r, affinity (a:=EA) lm ops st (agents h) j k = Fin r /\
       (k = j -> r = 0) /\ (k <> j -> 0 < r)).
    { intros k Hk. unfold affinity. destruct (Nat.eqb_spec k j) as [->|Hne].
      - exists 0. repeat split; auto; easy.
      - rewrite Ex. destruct (nth_error (agents h) k) as [y|] eqn:Ey. 2:{ apply nth_error_None in Ey. unfold n_agents in Hk. lia. }
        destruct (Hop x) as [o Eo]; [now apply nth_error_In in Ex|]. destruct (Hop y) as [o' Eo']; [now apply nth_error_In in Ey|].
        destruct (Hho j Hl) as [e Ee]. rewrite Eo, Eo', Ee, Hpow. unfold fmax, lit10. cbn -[IZR Pos.of_nat Z.pow_pos Pos.pow].
        set (b0 := 1 / IZR (Zpos match Z.pow_pos 10 10 with Zpos q0 => q0 | _ => 1%positive end)).
        assert (Hb0 : 0 < b0) by (unfold b0; apply Rdiv_lt_0_compat; [lra| now apply IZR_lt]). clearbody b0.
        assert (Hb : exists r, (if Rltb b0 (Rabs (o + - o')) then Fin (Rabs (o + - o')) else Fin b0) = Fin r /\ 0 < r).
        { destruct (Rltb_spec b0 (Rabs (o + - o'))); eexists; split; eauto; lra. }
        destruct Hb as (r & -> & Hr).
        destruct (Req_EM_T (- e) 0). { exists 1. repeat split; auto; [easy|lra]. }
        destruct (Req_EM_T r 0); [lra|].
        exists (Rpow r (- e)). split; auto. split; [easy|]. intros _. unfold Rpow. destruct (Rlt_dec 0 r); [|lra].
        unfold Rpower. apply exp_pos. }
    set (wf := fun k => match affinity (a:=EA) lm ops st (agents h) j k with Fin r => r | _ => 0 end).
    rewrite (reservoir_ext (a:=EA) lm g q _ _ _ (fun k => Ok (Fin (wf k)))) in Et.
    2:{ intros k Hk. destruct (Hwt k Hk) as (r & Er & _). unfold wf. now rewrite Er. }
    destruct (C14_zero_weight_never_sampled lm g q wf (contact_count (a:=EA) st j) (n_agents h) j b t1 Hpow Hlog Hdr Hq Hord)
      as (out & t3 & Eo & Hno).
    - unfold wf. destruct (Hwt j Hl) as (r & Er & H0 & _). rewrite Er. auto.
    - intros k Hk Hne. unfold wf. destruct (Hwt k Hk) as (r & Er & _ & H0). rewrite Er. auto.
    - apply Hc. auto.
    - unfold n_agents in Eo. rewrite Et in Eo. inversion Eo; subst out. contradiction. }
  eapply Permutation_in in Hin; [|exact E8]. apply in_map_iff in Hin as ([i1 i2] & Ei & Hin). unfold unit_edge in Ei. cbn in Ei.
  inversion Ei; subst i1 i2. apply in_app_iff in Hin as [Hin|Hin].
  - apply in_contact_pairs in Hin as [_ Hin]. now apply G in Hin.
  - apply in_map_iff in Hin as ([i1 i2] & Ei' & Hin). unfold reversed in Ei'. cbn in Ei'. inversion Ei'; subst i1 i2.
    pose proof (coins_incl (a:=EA) g (reciprocity st) (one_way cs) s1 (i, i)) as Hi. rewrite E4 in Hi. specialize (Hi Hin).
    apply filter_In in Hi as [Hi _]. apply in_contact_pairs in Hi as [_ Hi]. now apply G in Hi.
Qed.
End NoSelf.

(** ** C43: reciprocity *)
Section C43.
Context (a : Arith) (lm : Libm a) (g : Rng a) (q : PQ a) (A : Type) (ops : agent_ops (F a) A).
Notation D := (F a).
Notation net := (network A D).
Hypothesis Hord : order_ok a.
Hypothesis H01 : flt a (f0 a) (f1 a) = true.
Hypothesis Hreal : real_ok g.
Hypothesis Hq : pq_bag q.

(** reciprocity <= 0: the edges are exactly the contacts. *)
Lemma reciprocity_zero_gen st (h : net) s : settings_fit st (n_agents h) -> wf h -> dir h = Incoming ->
  fle a (reciprocity st) (f0 a) = true ->
  exists h' s' cs s1, update_network_probabilistic lm g q ops st h s = Ok (h', s') /\
    contacts_drawn lm g q ops st (agents h) 0 [] s cs s1 /\
    Permutation (edges h') (map unit_edge (contact_pairs cs)).
Proof.
  intros Hf Hw Hd Hr. destruct (update_probabilistic_ok lm g q ops st h s Hq Hf Hw Hd)
    as (h' & s' & cs & s1 & R & E1 & E2 & E3 & E4 & E5 & E6 & E7 & Hv & E8).
  exists h', s', cs, s1. split; auto. split; auto.
  assert (R = []).
  { change R with (fst (R, s')). rewrite <- E4. apply coins_none. intros t. destruct (Hreal (f0 a) (f1 a) t H01) as [H1 H2].
    destruct (flt a (fst (r_real g (f0 a) (f1 a) t)) (reciprocity st)) eqn:E; auto.
    pose proof (proj2 Hord _ _ _ E Hr) as H3. pose proof (proj1 Hord _ _ H1). congruence. }
  subst R. cbn in E8. now rewrite app_nil_r in E8.
Qed.

(** reciprocity >= 1: the graph is symmetric, and there is an edge exactly between agents one of
    which contacted the other. *)
Lemma reciprocity_one_gen st (h : net) s : settings_fit st (n_agents h) -> wf h -> dir h = Incoming ->
  fle a (f1 a) (reciprocity st) = true ->
  exists h' s' cs s1, update_network_probabilistic lm g q ops st h s = Ok (h', s') /\
    contacts_drawn lm g q ops st (agents h) 0 [] s cs s1 /\
    (forall i j, In (i, j, f1 a) (edges h') <-> contacted cs i j = true \/ contacted cs j i = true) /\
    (forall i j w, In (i, j, w) (edges h') -> In (j, i, w) (edges h')).
Proof.
  intros Hf Hw Hd Hr. destruct (update_probabilistic_ok lm g q ops st h s Hq Hf Hw Hd)
    as (h' & s' & cs & s1 & R & E1 & E2 & E3 & E4 & E5 & E6 & E7 & Hv & E8).
  exists h', s', cs, s1. split; auto. split; auto.
  assert (ER : R = one_way cs).
  { change R with (fst (R, s')). rewrite <- E4. apply coins_all. intros t. destruct (Hreal (f0 a) (f1 a) t H01) as [H1 H2].
    exact (proj2 Hord _ _ _ H2 Hr). }
  subst R.
  assert (G : forall i j, In (i, j, f1 a) (edges h') <-> contacted cs i j = true \/ contacted cs j i = true).
  { assert (P : forall i j, contacted cs i j = true -> In (i, j) (contact_pairs cs)).
    { intros i j H. apply contacted_in in H. apply in_contact_pairs. split; auto.
      destruct (Nat.lt_ge_cases i (length cs)); auto. rewrite nth_overflow in H by lia. destruct H. }
    intros i j. split; intros H.
    - eapply Permutation_in in H; [|exact E8]. apply in_map_iff in H as ([x y] & Ee & H). unfold unit_edge in Ee. cbn in Ee.
      inversion Ee; subst x y. apply in_app_iff in H as [H|H].
      + left. apply contacted_in. now apply in_contact_pairs in H.
      + right. apply in_map_iff in H as ([x y] & Ee' & H). unfold reversed in Ee'. cbn in Ee'. inversion Ee'; subst x y.
        apply filter_In in H as [H _]. apply contacted_in. now apply in_contact_pairs in H.
    - eapply Permutation_in; [apply Permutation_sym, E8|]. apply in_map_iff. exists (i, j). split; auto. apply in_app_iff.
      destruct (contacted cs i j) eqn:Eij. { left. auto. }
      right. apply in_map_iff. exists (j, i). split; auto. apply filter_In. cbn. rewrite Eij. split; auto.
      apply P. destruct H; auto. discriminate. }
  split; auto. intros i j w H.
  assert (w = f1 a). { eapply Permutation_in in H; [|exact E8]. apply in_map_iff in H as (p & Ee & _). unfold unit_edge in Ee. congruence. }
  subst w. apply G. apply G in H. tauto.
Qed.
End C43.

Lemma zero_lt_one_RA : flt RA (f0 RA) (f1 RA) = true.
Proof. cbn. destruct (Rltb_spec 0 1); auto. lra. Qed.
Lemma zero_lt_one_FA : flt FA (f0 FA) (f1 FA) = true.
Proof. vm_compute. reflexivity. Qed.

Section C43b.
Context (A : Type).
Theorem C43_never_reciprocated_real (lm : Libm RA) (g : Rng RA) (q : PQ RA) (ops : agent_ops R A) (st : ad_settings R) (h : network A R) s :
  real_ok g -> pq_bag q -> settings_fit (a:=RA) st (n_agents h) -> wf h -> dir h = Incoming -> (reciprocity st <= 0)%R ->
  exists h' s' cs s1, update_network_probabilistic (a:=RA) lm g q ops st h s = Ok (h', s') /\
    contacts_drawn (a:=RA) lm g q ops st (agents h) 0 [] s cs s1 /\
    Permutation (edges h') (map (unit_edge (a:=RA)) (contact_pairs cs)).
Proof.
  intros Hr Hq Hf Hw Hd H. apply (reciprocity_zero_gen RA lm g q A ops order_RA zero_lt_one_RA Hr Hq); auto.
  cbn. destruct (Rleb_spec (reciprocity st) 0); auto.
Qed.
Theorem C43_always_reciprocated_real (lm : Libm RA) (g : Rng RA) (q : PQ RA) (ops : agent_ops R A) (st : ad_settings R) (h : network A R) s :
  real_ok g -> pq_bag q -> settings_fit (a:=RA) st (n_agents h) -> wf h -> dir h = Incoming -> (1 <= reciprocity st)%R ->
  exists h' s' cs s1, update_network_probabilistic (a:=RA) lm g q ops st h s = Ok (h', s') /\
    contacts_drawn (a:=RA) lm g q ops st (agents h) 0 [] s cs s1 /\
    (forall i j, In (i, j, 1%R) (edges h') <-> contacted cs i j = true \/ contacted cs j i = true) /\
    (forall i j w, In (i, j, w) (edges h') -> In (j, i, w) (edges h')).
Proof.
  intros Hr Hq Hf Hw Hd H. apply (reciprocity_one_gen RA lm g q A ops order_RA zero_lt_one_RA Hr Hq); auto.
  cbn. destruct (Rleb_spec 1 (reciprocity st)); auto.
Qed.
(** ... and for IEEE doubles. *)
Theorem C43_never_reciprocated_double (lm : Libm FA) (g : Rng FA) (q : PQ FA) (ops : agent_ops (F FA) A) (st : ad_settings (F FA)) (h : network A (F FA)) s :
  real_ok g -> pq_bag q -> settings_fit (a:=FA) st (n_agents h) -> wf h -> dir h = Incoming -> fle FA (reciprocity st) (f0 FA) = true ->
  exists h' s' cs s1, update_network_probabilistic (a:=FA) lm g q ops st h s = Ok (h', s') /\
    contacts_drawn (a:=FA) lm g q ops st (agents h) 0 [] s cs s1 /\
    Permutation (edges h') (map (unit_edge (a:=FA)) (contact_pairs cs)).
Proof. intros Hr Hq. apply (reciprocity_zero_gen FA lm g q A ops order_FA zero_lt_one_FA Hr Hq). Qed.
Theorem C43_always_reciprocated_double (lm : Libm FA) (g : Rng FA) (q : PQ FA) (ops : agent_ops (F FA) A) (st : ad_settings (F FA)) (h : network A (F FA)) s :
  real_ok g -> pq_bag q -> settings_fit (a:=FA) st (n_agents h) -> wf h -> dir h = Incoming -> fle FA (f1 FA) (reciprocity st) = true ->
  exists h' s' cs s1, update_network_probabilistic (a:=FA) lm g q ops st h s = Ok (h', s') /\
    contacts_drawn (a:=FA) lm g q ops st (agents h) 0 [] s cs s1 /\
    (forall i j, In (i, j, f1 FA) (edges h') <-> contacted cs i j = true \/ contacted cs j i = true) /\
    (forall i j w, In (i, j, w) (edges h') -> In (j, i, w) (edges h')).
Proof. intros Hr Hq. apply (reciprocity_one_gen FA lm g q A ops order_FA zero_lt_one_FA Hr Hq). Qed.
End C43b.

(** ** C44: contact count 0 *)
(** An active agent with contact count 0 repeats the contacts of the last agent before it that made any. *)
Theorem C44_zero_contacts_repeats (a : Arith) (lm : Libm a) (g : Rng a) (q : PQ a) A (ops : agent_ops (F a) A)
  (st : ad_settings (F a)) l s cs s' i j y :
  pq_bag q -> settings_fit st (length l) -> contacts_drawn lm g q ops st l 0 [] s cs s' ->
  nth_error l j = Some y -> contact_count st j = 0 ->
  (forall t, flt a (fst (r_real g (f0 a) (f1 a) t)) (get_activity ops y) = true) ->
  i < j -> nth i cs [] <> [] -> (forall k, i < k < j -> nth k cs [] = []) ->
  nth j cs [] = nth i cs [].
Proof.
  intros Hq Hf Hc Ey H0 Ha Hij Hne Hk.
  pose proof (reuse lm g q ops st l i j y Hq Hf Ey H0 Ha 0 [] s cs s' Hc) as H.
  rewrite !Nat.sub_0_r in H. apply H; auto; try lia.
  - split; constructor.
  - intros k. rewrite Nat.sub_0_r. auto.
Qed.

(** A concrete population: three agents, two of them bots; both bots are always active, bot 0 makes
    one contact and bot 1 none. *)
Definition demo_settings (recip : R) (mw : bool) : ad_settings R :=
  mkADS None (1/10)%R 1 (1/100)%R (21/10)%R 3%R (1/2)%R recip 3%R false mw
        2 [1; 0]%Z [1; 1]%R [5; -5]%R [0; 0]%R false 1%R 1%R (1/100)%R 0%R.
Definition demo_net : network (activity_agent R) R :=
  mkNet [mkActivity 0 1 1; mkActivity 1 1 1; mkActivity 2 1 1]%R [[]; []; []] [[]; []; []] Incoming.
Definition zero_libm (a : Arith) : Libm a :=
  mkLibm a (fun _ _ => f1 a) (fun x => x) (fun x => x) (fun x => x) (fun x => x) (fun x => x) (fun x => x).
Definition half_rng : Rng RA := const_rng (a:=RA) (1/2)%R 0%R.

Lemma half_01 t : flt RA (fst (r_real half_rng (f0 RA) (f1 RA) t)) 1%R = true.
Proof. cbn. destruct (Rltb_spec (1 / 2) 1); auto. lra. Qed.
Lemma demo_fit r mw : settings_fit (a:=RA) (demo_settings r mw) (n_agents demo_net).
Proof. repeat split; cbn; try lia; destruct i as [|[|?]]; cbn in *; try lia. Qed.
Lemma demo_wf : wf demo_net.
Proof.
  repeat split; auto.
  - intros i Hi. destruct i as [|[|[|?]]]; [reflexivity..|cbn in Hi; lia].
  - intros i j Hj. destruct i as [|[|[|[|?]]]]; destruct Hj.
Qed.

(** The claim "an activated agent whose m (or bot_m) is 0 has no outgoing contacts" is false. *)
Theorem C44_zero_contacts_contacts_nobody_refuted :
  ~ (forall (lm : Libm RA) (g : Rng RA) (q : PQ RA) (st : ad_settings R) (h h' : network (activity_agent R) R) s s' i,
       pq_bag q -> settings_fit (a:=RA) st (n_agents h) -> wf h -> dir h = Incoming -> (reciprocity st <= 0)%R ->
       (forall t, flt RA (fst (r_real g 0%R 1%R t)) (reciprocity st) = false) ->
       update_network_probabilistic (a:=RA) lm g q (activity_ops R) st h s = Ok (h', s') ->
       i < n_agents h -> contact_count (a:=RA) st i = 0 -> forall j w, ~ In (i, j, w) (edges h')).
Proof.
  intros Claim. set (st := demo_settings 0 false).
  destruct (update_probabilistic_ok (a:=RA) (zero_libm RA) half_rng (list_pq RA) (activity_ops R) st demo_net tt
     (list_pq_bag RA) (demo_fit _ _) demo_wf eq_refl) as (h' & s' & cs & s1 & Rc & E1 & E2 & E3 & E4 & E5 & E6 & E7 & Hv & E8).
  assert (Hnone : forall t, flt RA (fst (r_real half_rng 0%R 1%R t)) (reciprocity st) = false).
  { intros t. cbn. destruct (Rltb_spec (1/2) 0); auto. lra. }
  destruct (C42_contacts_per_agent RA (zero_libm RA) half_rng (list_pq RA) _ (activity_ops R) st (agents demo_net) tt cs s1
      (list_pq_bag RA) (demo_fit _ _) E2) as [Hlen Hag].
  destruct (Hag 0 _ eq_refl) as (t & u & t1 & P1 & _ & P3).
  assert (L0 : length (nth 0 cs []) = 1).
  { apply P3; [|discriminate]. pose proof (half_01 t) as H. cbn [f0 f1 RA] in *. rewrite P1 in H. exact H. }
  assert (E10 : nth 1 cs [] = nth 0 cs []).
  { apply (C44_zero_contacts_repeats RA (zero_libm RA) half_rng (list_pq RA) _ (activity_ops R) st (agents demo_net) tt cs s1 0 1 (mkActivity 1 1 1)%R); auto.
    - apply list_pq_bag.
    - apply demo_fit.
    - exact half_01.
    - intros E. rewrite E in L0. discriminate.
    - intros k Hk. lia. }
  destruct (nth 0 cs []) as [|j c] eqn:E0; [discriminate|].
  apply (Claim (zero_libm RA) half_rng (list_pq RA) st demo_net h' tt s' 1 (list_pq_bag RA) (demo_fit _ _) demo_wf eq_refl (Rle_refl 0)
    Hnone E1 ltac:(cbn; lia) eq_refl j 1%R).
  eapply Permutation_in; [apply Permutation_sym, E8|]. apply in_map_iff. exists (1, j). split; auto.
  apply in_app_iff. left. apply in_contact_pairs. split; [cbn in Hlen; lia|]. rewrite E10. cbn. auto.
Qed.

(** ** C50: the inertial step *)
Theorem C50_inertial_total (a : Arith) (lm : Libm a) (g : Rng a) (q : PQ a) d st friction (h : network (inertial_agent (F a)) (F a)) s :
  wf h -> dir h = Incoming -> settings_fit st (n_agents h) ->
  n_bots st <= n_agents h -> n_bots st <= length (bot_opinion st) -> n_bots st <= length (bot_activity st) ->
  pq_bag q -> forall k, exists im s0 im' s', inertial_ctor lm g d st friction h s = Ok (im, s0) /\
    friction_coefficient im = friction /\ ad_ready (im_ad im) /\ ad_set (im_ad im) = st /\
    inertial_run lm g q k im s0 = Ok (im', s') /\ ad_ready (im_ad im') /\ ad_set (im_ad im') = st.
Proof.
  intros Hw Hd Hf H1 H2 H3 Hq k.
  destruct (ctor_ok lm g (inertial_ops (F a)) d st h s Hw Hd Hf H1 H2 H3) as (md & s0 & Ec & Hr & Es & _).
  assert (G : forall k im s0, ad_ready (im_ad im) -> exists im' s', inertial_run lm g q k im s0 = Ok (im', s') /\
     ad_ready (im_ad im') /\ ad_set (im_ad im') = ad_set (im_ad im)).
  { clear -Hq. induction k as [|k IH]; intros im s0 Hr.
    - exists im, s0. cbn. auto.
    - destruct (inertial_iteration_ok lm g q im s0 Hq Hr) as (im1 & s1 & hh & cpl & E1 & E2 & E3 & E4 & _).
      destruct (IH im1 s1 E2) as (im' & s' & E5 & E6 & E7). exists im', s'. cbn [inertial_run]. rewrite E1. cbn [bind].
      split; auto. split; auto. congruence. }
  destruct (G k (mkIM md friction) s0 Hr) as (im' & s' & E1 & E2 & E3).
  exists (mkIM md friction), s0, im', s'. unfold inertial_ctor. rewrite Ec. cbn [bind]. cbn [im_ad] in E3. rewrite Es in E3.
  split; [reflexivity|]. split; [reflexivity|]. repeat (split; [assumption|]). assumption.
Qed.

(** One iteration: the network of this iteration is drawn; positions move by the Verlet formula with
    the forces at the old positions; velocities by the implicit-friction formula with old and new forces
    (both evaluated on the same network); bots' positions are put back. *)
Theorem C50_inertial_step (a : Arith) (lm : Libm a) (g : Rng a) (q : PQ a) (im : inertial_model) s :
  pq_bag q -> ad_ready (im_ad im) ->
  let md := im_ad im in let st := ad_set md in let fr := friction_coefficient im in
  exists im' s' h cpl, inertial_iteration lm g q im s = Ok (im', s') /\ ad_ready (im_ad im') /\
    update_network lm g q (inertial_ops (F a)) st (ad_net md) (contact_prob_list md) s = Ok (h, cpl, s') /\
    agents h = agents (ad_net md) /\ neigh (ad_net (im_ad im')) = neigh h /\ wts (ad_net (im_ad im')) = wts h /\
    friction_coefficient im' = fr /\
    length (agents (ad_net (im_ad im'))) = length (agents (ad_net md)) /\
    let drift := field lm (inertial_ops (F a)) st h (map i_opinion (agents (ad_net md))) in
    exists xs', length xs' = n_agents (ad_net md) /\
      (forall i x, nth_error (agents (ad_net md)) i = Some x ->
         nth_error xs' i = Some (verlet_position (dt st) fr (i_opinion x) (i_velocity x) (nth i drift (f0 a)))) /\
      forall i x, nth_error (agents (ad_net md)) i = Some x ->
        nth_error (agents (ad_net (im_ad im'))) i = Some (mkInertial
          (if i <? n_bots st then nth i (bot_opinion st) (f0 a) else nth i xs' (f0 a))
          (i_activity x) (i_reluctance x)
          (verlet_velocity (dt st) fr (i_velocity x) (nth i drift (f0 a))
             (nth i (field lm (inertial_ops (F a)) st h xs') (f0 a)))).
Proof.
  intros Hq Hr md st fr. destruct (inertial_iteration_ok lm g q im s Hq Hr)
    as (im' & s' & h & cpl & E1 & E2 & E3 & E4 & E5 & E6 & E7 & E8 & E9 & E10 & E11 & E12 & xs' & X1 & X2 & X3).
  exists im', s', h, cpl. repeat (split; [assumption|]). intros drift. exists xs'. split; [|split; assumption].
  rewrite X1. apply map_length.
Qed.

(** ** Non-vacuity *)
Example demo_run_exists : exists md s0 md' s',
  ad_ctor (a:=RA) (zero_libm RA) half_rng (activity_ops R) (mkActivity 0 0 1)%R (demo_settings 1 false) demo_net tt = Ok (md, s0) /\
  activity_run (a:=RA) (zero_libm RA) half_rng (list_pq RA) 7 md s0 = Ok (md', s') /\ ad_ready md'.
Proof.
  destruct (C39_total RA (zero_libm RA) half_rng (list_pq RA) (mkActivity 0 0 1)%R (demo_settings 1 false) demo_net tt 7
    (list_pq_bag RA) demo_wf eq_refl (demo_fit _ _)) as (md & s0 & md' & s' & E1 & _ & _ & E2 & E3 & _); cbn; try lia.
  exists md, s0, md', s'. auto.
Qed.
Example demo_mean_run_exists : exists md s0 md' s',
  ad_ctor (a:=RA) (zero_libm RA) half_rng (activity_ops R) (mkActivity 0 0 1)%R (demo_settings 1 true) demo_net tt = Ok (md, s0) /\
  activity_run (a:=RA) (zero_libm RA) half_rng (list_pq RA) 7 md s0 = Ok (md', s') /\ ad_ready md'.
Proof.
  destruct (C39_total RA (zero_libm RA) half_rng (list_pq RA) (mkActivity 0 0 1)%R (demo_settings 1 true) demo_net tt 7
    (list_pq_bag RA) demo_wf eq_refl (demo_fit _ _)) as (md & s0 & md' & s' & E1 & _ & _ & E2 & E3 & _); cbn; try lia.
  exists md, s0, md', s'. auto.
Qed.
(** Generators meeting the contract of uniform_real_distribution, for reals and for doubles. *)
Definition mid_real_rng : Rng RA := mkRng RA unit (fun lo hi s => ((lo + hi) / 2, s)%R) (fun lo _ s => (lo, s))
        (fun pop k s => (seq 0 (Nat.min k pop), s)) (fun s => (0%R, s)).
Definition low_rng : Rng FA := mkRng FA unit (fun lo hi s => (lo, s)) (fun lo _ s => (lo, s))
        (fun pop k s => (seq 0 (Nat.min k pop), s)) (fun s => (f0 FA, s)).
Example mid_real_rng_ok : real_ok mid_real_rng.
Proof.
  intros lo hi s H. cbn in *. destruct (Rltb_spec lo hi); [|discriminate].
  destruct (Rleb_spec lo ((lo + hi) / 2)), (Rltb_spec ((lo + hi) / 2) hi); auto; lra.
Qed.
Example low_rng_ok : real_ok low_rng.
Proof.
  intros lo hi s H. cbn [r_real low_rng fst]. split; auto.
  cbn [fle flt FA] in *. rewrite ext_le. rewrite ext_lt in H.
  destruct (to_ext lo), (to_ext hi); cbn in *; auto; try discriminate; destruct (Rleb_spec r r); auto; lra.
Qed.

Print Assumptions C38_activity_bots_constant.
Print Assumptions C39_rk4_step.
Print Assumptions C39_slope_formula.
Print Assumptions C42_contact_graph.
Print Assumptions C42_simple_graph.
Print Assumptions C42_no_self_contact.
Print Assumptions C43_always_reciprocated_double.
Print Assumptions C44_zero_contacts_contacts_nobody_refuted.
Print Assumptions C50_inertial_step.
