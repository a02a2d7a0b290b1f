(** Proofs: two deterministic simulations in the same state stay in the same state. *)
From Verif Require Import Base BaseFacts Arith64 MRandom SRandom MNetwork SNetwork PNetwork2 MText SText PText MNetFile PNetFile MAgents PAgents TFiles MDeGroot SDeGroot PDeGroot TDeGroot
  MDeffuant MActivity SActivity PActMean PActInit PActIter2 MConfig SConfig MSimulation SSimulation PSimulation PSimulation2 SRestart.

Section Agree.
Context {a : Arith} (w : world a).
Notation D := (F a).
Notation lm := (w_lm w). Notation g := (w_gen w). Notation q := (w_pq w).
Hypothesis (HQ : pq_bag (w_pq w)).

(** The settings do not matter beyond the limit. *)
Lemma slopes_limit A (ops : agent_ops D A) st (h : network A D) f : get_euler_slopes lm ops st h f = get_euler_slopes lm ops (with_limit None st) h f.
Proof using. reflexivity. Qed.
Lemma rk4_limit st h : rk4_slopes lm st h = rk4_slopes lm (with_limit None st) h.
Proof using. reflexivity. Qed.
Lemma rk4u_limit st ks (l : list (activity_agent D)) : rk4_update st ks l = rk4_update (with_limit None st) ks l.
Proof using. reflexivity. Qed.
Lemma reset_limit A (ops : agent_ops D A) st l : reset_bots ops st l = reset_bots ops (with_limit None st) l.
Proof using. reflexivity. Qed.
Lemma prob_limit A (ops : agent_ops D A) st l : contact_probability lm ops st l = contact_probability lm ops (with_limit None st) l.
Proof using. reflexivity. Qed.
Lemma position_limit st fr h : calc_position lm st fr h = calc_position lm (with_limit None st) fr h.
Proof using. reflexivity. Qed.
Lemma velocity_limit st fr dr h : calc_velocity lm st fr dr h = calc_velocity lm (with_limit None st) fr dr h.
Proof using. reflexivity. Qed.

(** The mean-field network depends on the agents only. *)
Definition mean_of {A} (ops : agent_ops D A) st (l : list A) : network A D :=
  mnet l (repeat (seq 0 (length l)) (length l)) Incoming (all_contributions (length l) (reciprocity st) (contact_probability lm ops st l)).
Lemma update_mean A (ops : agent_ops D A) (md : ad_model A) s : ad_ready md -> mean_weights (ad_set md) = true ->
  exists cpl, update_network lm g q ops (ad_set md) (ad_net md) (contact_prob_list md) s = Ok (mean_of ops (with_limit None (ad_set md)) (agents (ad_net md)), cpl, s).
Proof using.
  intros (R1 & R2 & R3 & R4 & R5 & R6) Hm. destruct (R6 Hm) as [R7 R8]. unfold update_network. rewrite Hm. cbn [negb].
  rewrite update_mean_ok by auto. cbn [bind]. eexists. unfold mean_of. destruct R7 as [R7 _]. rewrite R7, R2. unfold n_agents. reflexivity.
Qed.

Definition agree (x y : model (a:=a)) : Prop :=
  match x, y with
  | MDeGroot d, MDeGroot e => ready d /\ ready e /\ agents (dg_net d) = agents (dg_net e) /\ neigh (dg_net d) = neigh (dg_net e) /\ wts (dg_net d) = wts (dg_net e)
  | MActivity d, MActivity e => ad_ready d /\ ad_ready e /\ mean_weights (ad_set d) = true /\
      with_limit None (ad_set d) = with_limit None (ad_set e) /\ agents (ad_net d) = agents (ad_net e)
  | MInertial d, MInertial e => ad_ready (im_ad d) /\ ad_ready (im_ad e) /\ mean_weights (ad_set (im_ad d)) = true /\
      with_limit None (ad_set (im_ad d)) = with_limit None (ad_set (im_ad e)) /\ friction_coefficient d = friction_coefficient e /\
      agents (ad_net (im_ad d)) = agents (ad_net (im_ad e))
  | _, _ => False
  end.
(** The networks are equal, too. *)
Definition agree_graph (x y : model (a:=a)) : Prop := neigh (net_of x) = neigh (net_of y) /\ wts (net_of x) = wts (net_of y).

Lemma limit_mean (st st' : ad_settings D) : with_limit None st = with_limit None st' -> mean_weights st' = mean_weights st.
Proof using. intros E. apply (f_equal mean_weights) in E. cbn in E. auto. Qed.

Lemma agree_step x y s t x' y' s' t' : agree x y -> model_iteration w x s = Ok (x', s') -> model_iteration w y t = Ok (y', t') ->
  agree x' y' /\ agree_graph x' y'.
Proof using HQ.
  destruct x as [d|d|d|d|d], y as [e|e|e|e|e]; cbn [agree]; try contradiction.
  - intros (R1 & R2 & EA & EN & EW) E1 E2. cbn [model_iteration] in E1, E2.
    assert (EG : dg_net e = mkNet (agents (dg_net d)) (neigh (dg_net d)) (wts (dg_net d)) (dir (dg_net e))) by (rewrite EA, EN, EW; destruct (dg_net e); reflexivity).
    assert (EV : averaged a (dg_net e) = averaged a (dg_net d)) by (rewrite EG; reflexivity).
    pose proof (iteration_ok a d R1) as I1. pose proof (iteration_ok a e R2) as I2. 
    rewrite I1 in E1. rewrite I2 in E2. cbn [bind] in E1, E2. injection E1 as <- <-. injection E2 as <- <-.
    cbn [agree dg_net with_agents agents neigh wts]. split; [|split; cbn [net_of dg_net kind_of neigh wts with_agents]; auto].
    split; [exact (PDeGroot.ready_next a d _ R1 I1)|]. split; [exact (PDeGroot.ready_next a e _ R2 I2)|]. rewrite EV. auto.
  - intros (R1 & R2 & Hm & EL & EA) E1 E2. cbn [model_iteration] in E1, E2.
    destruct (activity_iteration_ok lm g q d s HQ R1) as (d' & sd & h1 & c1 & I1 & Q1 & _ & S1 & _).
    destruct (activity_iteration_ok lm g q e t HQ R2) as (e' & te & h2 & c2 & I2 & Q2 & _ & S2 & _).
    rewrite I1 in E1. rewrite I2 in E2. cbn [bind] in E1, E2. injection E1 as <- <-. injection E2 as <- <-.
    destruct (update_mean _ (activity_ops D) d s R1 Hm) as (p1 & U1).
    destruct (update_mean _ (activity_ops D) e t R2 ltac:(rewrite (limit_mean _ _ EL); exact Hm)) as (p2 & U2).
    unfold activity_iteration in I1, I2. rewrite U1 in I1. rewrite U2 in I2. cbn [bind] in I1, I2. rewrite <- EA, <- EL in I2.
    rewrite rk4_limit in I1. rewrite rk4_limit, <- EL in I2.
    destruct (rk4_slopes lm (with_limit None (ad_set d)) _) as [ks| | |]; try discriminate. cbn [bind] in I1, I2.
    rewrite rk4u_limit in I1. rewrite rk4u_limit, <- EL in I2.
    destruct (rk4_update (with_limit None (ad_set d)) ks _) as [l| | |]; try discriminate. cbn [bind] in I1, I2.
    rewrite reset_limit in I1. rewrite reset_limit, <- EL in I2.
    destruct (reset_bots (activity_ops D) (with_limit None (ad_set d)) l) as [l'| | |]; try discriminate. cbn [bind] in I1, I2.
    injection I1 as <- _. injection I2 as <- _. cbn [agree ad_set ad_net with_agents agents].
    split; [|split; reflexivity]. auto.
  - intros (R1 & R2 & Hm & EL & EF & EA) E1 E2. cbn [model_iteration] in E1, E2.
    destruct (inertial_iteration_ok lm g q d s HQ R1) as (d' & sd & h1 & c1 & I1 & Q1 & _).
    destruct (inertial_iteration_ok lm g q e t HQ R2) as (e' & te & h2 & c2 & I2 & Q2 & _).
    rewrite I1 in E1. rewrite I2 in E2. cbn [bind] in E1, E2. injection E1 as <- <-. injection E2 as <- <-.
    destruct (update_mean _ (inertial_ops D) (im_ad d) s R1 Hm) as (p1 & U1).
    destruct (update_mean _ (inertial_ops D) (im_ad e) t R2 ltac:(rewrite (limit_mean _ _ EL); exact Hm)) as (p2 & U2).
    unfold inertial_iteration in I1, I2. rewrite U1 in I1. rewrite U2 in I2. cbn [bind] in I1, I2. rewrite <- EA, <- EL, <- EF in I2.
    rewrite position_limit in I1. rewrite position_limit, <- EL in I2.
    destruct (calc_position lm (with_limit None (ad_set (im_ad d))) _ _) as [[dr l0]| | |]; try discriminate. cbn [bind] in I1, I2.
    rewrite velocity_limit in I1. rewrite velocity_limit, <- EL in I2.
    destruct (calc_velocity lm (with_limit None (ad_set (im_ad d))) _ _ _) as [l| | |]; try discriminate. cbn [bind] in I1, I2.
    rewrite reset_limit in I1. rewrite reset_limit, <- EL in I2.
    destruct (reset_bots (inertial_ops D) (with_limit None (ad_set (im_ad d))) l) as [l'| | |]; try discriminate. cbn [bind] in I1, I2.
    injection I1 as <- _. injection I2 as <- _. cbn [agree im_ad friction_coefficient ad_set ad_net with_agents agents].
    split; [|split; reflexivity]. split; [exact Q1|]. split; [exact Q2|]. auto.
Qed.

Lemma agree_agents x y : agree x y -> write_agents w (kind_of x) (agents (net_of x)) = write_agents w (kind_of y) (agents (net_of y)).
Proof using.
  destruct x as [d|d|d|d|d], y as [e|e|e|e|e]; cbn [agree]; try contradiction; cbn [kind_of net_of].
  - intros (_ & _ & E & _). exact (f_equal (write_agents w Simple) E).
  - intros (_ & _ & _ & _ & E). exact (f_equal (write_agents w Activity) E).
  - intros (_ & _ & _ & _ & _ & E). exact (f_equal (write_agents w Inertial) E).
Qed.
Lemma agree_count x y : agree x y -> n_agents (net_of x) = n_agents (net_of y).
Proof using.
  destruct x as [d|d|d|d|d], y as [e|e|e|e|e]; cbn [agree]; try contradiction; cbn [kind_of net_of]; unfold n_agents.
  - intros (_ & _ & E & _). exact (f_equal (@length _) E).
  - intros (_ & _ & _ & _ & E). exact (f_equal (@length _) E).
  - intros (_ & _ & _ & _ & _ & E). exact (f_equal (@length _) E).
Qed.
Lemma agree_network x y : agree x y -> agree_graph x y -> network_to_file (w_fmt w) (net_of x) = network_to_file (w_fmt w) (net_of y).
Proof using.
  intros H [E1 E2]. pose proof (agree_count x y H) as EN. unfold network_to_file, get_neighbours, get_weights. rewrite E1, E2, EN. reflexivity.
Qed.

Lemma agree_init x y : agree (model_initialize_iterations x) (model_initialize_iterations y) <-> agree x y.
Proof using. destruct x, y; split; exact (fun H => H). Qed.

Lemma agree_traj st st' k k' i : trajectory w st k -> trajectory w st' k' -> i <= k -> agree (fst (st i)) (fst (st' 0)) ->
  forall j, j <= k' -> i + j <= k -> agree (fst (st (i + j))) (fst (st' j)) /\ (0 < j -> agree_graph (fst (st (i + j))) (fst (st' j))).
Proof using HQ.
  intros T T' Hi HA. induction j as [|j IH]; intros H1 H2.
  - rewrite Nat.add_0_r. split; auto. lia.
  - destruct (IH ltac:(lia) ltac:(lia)) as [A _].
    destruct (T (i + j)%nat ltac:(lia)) as [_ E1]. destruct (T' j ltac:(lia)) as [_ E2].
    rewrite Nat.add_succ_r. destruct (st (S (i + j))) as [x1 s1]. destruct (st' (S j)) as [y1 t1].
    destruct (agree_step _ _ _ _ _ _ _ _ A E1 E2) as [B1 B2]. cbn [fst]. auto.
Qed.
End Agree.
