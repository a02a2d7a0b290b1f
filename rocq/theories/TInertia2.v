(** Property theorem C93: with friction, opinions and velocities of the inertial model stay bounded for ever. *)
From Verif Require Import Base BaseFacts Arith64 RFacts MRandom SRandom PRandom WRandom MDist MNetwork SNetwork PNetwork PNetwork2
  MAgents MDeGroot MActivity SActivity PActStep PActNet PActIter PActMean PActIter2 PActInit PActThm PActSym PActReal PActMean2
  TActivity TActivityR TMean TNetGen SRelax PRelax PRelax2 PTanh WRelax TRelax SInertia PInertia POscillator PInertia2 PInertia3 TInertia.
From Coq Require Import Reals Lra Psatz.
Local Open Scope R_scope.

(** The factor by which an iteration contracts the norm. *)
Definition contraction (h mu : R) : R := sqrt (energy_rate h mu).
Lemma contraction_bounds h mu : 0 < h < 2 -> 0 < mu -> h * mu < 4 -> 0 < contraction h mu < 1.
Proof.
  intros H1 H2 H3. pose proof (energy_rate_bounds h mu H1 H2 H3) as B. unfold contraction. split; [apply sqrt_lt_R0; lra|].
  rewrite <- sqrt_1. apply sqrt_lt_1_alt. lra.
Qed.
Lemma enorm_contracts h mu x v x' v' : 0 < h < 2 -> 0 < mu -> h * mu < 4 -> verlet h mu 0 0 x v x' v' -> enorm h x' v' <= contraction h mu * enorm h x v.
Proof.
  intros H1 H2 H3 HV. unfold enorm, contraction. pose proof (energy_rate_bounds h mu H1 H2 H3) as B.
  rewrite <- sqrt_mult by (try apply energy_nonneg; lra). apply sqrt_le_1_alt. apply energy_decays; auto; lra.
Qed.
(** A step with perturbations. *)
Lemma contracted_step h mu x v x' v' r1 r2 : 0 < h < 2 -> 0 < mu -> h * mu < 4 ->
  x' = x + v * h + h ^ 2 / 2 * (- x - mu * v) + r1 ->
  (1 + mu * h / 2) * v' = v + h / 2 * (- x - mu * v - x') + r2 ->
  enorm h x' v' <= contraction h mu * enorm h x v + (1 + h / 2) * Rabs r1 + Rabs r2.
Proof.
  intros Hh Hm H E1 E2. set (x0 := x + v * h + h ^ 2 / 2 * (- x - mu * v)). set (s := 1 + mu * h / 2). assert (Hs : 1 <= s) by (unfold s; nra).
  set (v0 := (v + h / 2 * (- x - mu * v - x0)) / s).
  assert (HV : verlet h mu 0 0 x v x0 v0). { split; [unfold x0; ring|]. fold s. unfold v0. field. lra. }
  pose proof (enorm_contracts h mu x v x0 v0 Hh Hm H HV) as P.
  assert (Ev : v' = v0 + (r2 - h / 2 * r1) / s).
  { apply Rmult_eq_reg_l with s; [|lra]. fold s in E2. rewrite E2, E1. fold x0. unfold v0. field. lra. }
  assert (Ex : x' = x0 + r1) by exact E1.
  rewrite Ex, Ev. eapply Rle_trans; [apply enorm_triangle; lra|]. pose proof (enorm_simple h r1 ((r2 - h / 2 * r1) / s) ltac:(lra)) as Q.
  assert (B : Rabs ((r2 - h / 2 * r1) / s) <= Rabs r2 + h / 2 * Rabs r1).
  { unfold Rdiv. rewrite Rabs_mult, (Rabs_right (/ s)) by (apply Rle_ge, Rlt_le, Rinv_0_lt_compat; lra).
    assert (0 < / s <= 1) by (split; [apply Rinv_0_lt_compat; lra|rewrite <- Rinv_1; apply Rinv_le_contravar; lra]).
    assert (Rabs (r2 - h * / 2 * r1) <= Rabs r2 + h * / 2 * Rabs r1).
    { unfold Rminus. eapply Rle_trans; [apply Rabs_triang|]. rewrite Rabs_Ropp, Rabs_mult, (Rabs_right (h * / 2)) by lra. lra. }
    pose proof (Rabs_pos (r2 - h * / 2 * r1)). nra. }
  lra.
Qed.
(** A step with pulls of size at most [P]. *)
Lemma pulled_step h mu c c' x v x' v' P : 0 < h <= 1 -> 0 < mu -> h * mu < 4 -> Rabs c <= P -> Rabs c' <= P -> verlet h mu c c' x v x' v' ->
  enorm h x' v' <= contraction h mu * enorm h x v + 2 * h * P.
Proof.
  intros Hh Hm H Hc Hc' (E1 & E2).
  pose proof (contracted_step h mu x v x' v' (h ^ 2 / 2 * c) (h / 2 * (c + c')) ltac:(lra) Hm H ltac:(rewrite E1; ring) ltac:(rewrite E2; ring)) as G.
  rewrite !Rabs_mult, (Rabs_right (h ^ 2 / 2)), (Rabs_right (h / 2)) in G by nra.
  assert (Rabs (c + c') <= 2 * P) by (eapply Rle_trans; [apply Rabs_triang|lra]).
  assert (0 <= P) by (pose proof (Rabs_pos c); lra).
  assert ((1 + h / 2) * (h ^ 2 / 2 * Rabs c) <= (1 + 1 / 2) * (h * 1 / 2 * P)).
  { apply Rmult_le_compat; [lra|apply Rmult_le_pos; [nra|apply Rabs_pos]|lra|]. apply Rmult_le_compat; [nra|apply Rabs_pos|nra|lra]. }
  assert (h / 2 * Rabs (c + c') <= h * P) by nra. nra.
Qed.

Section Bounded.
Context (lm : Libm RA) (g : Rng RA) (q : PQ RA).
Hypothesis Htanh : forall x : R, ltanh RA lm x = tanh x.
Hypothesis Hq : pq_bag q.
Notation time_step im := (dt (ad_set (im_ad im))).
Notation friction im := (friction_coefficient im).

(** The opinion that a bot is put back to; 0 for ordinary agents. *)
Definition bot_size (im : inertial) (i : nat) : R :=
  if (i <? n_bots (ad_set (im_ad im)))%nat then Rabs (nth i (bot_opinion (ad_set (im_ad im))) 0) else 0.

(** C93. If K / reluctance times the sum of the absolute incoming weights of agent [i] (ordinary or bot) is
    at most [P] in every iteration, its opinion and velocity stay bounded: what remains of the initial
    values decays geometrically, and the rest is at most (2 dt P + size of the bot opinion) / (1 - rate). *)
Theorem C93_run k (im im' : inertial) s s' i P : ad_ready (im_ad im) -> 0 < friction im -> 0 < time_step im <= 1 -> time_step im * friction im < 4 ->
  inertial_run (a:=RA) lm g q k im s = Ok (im', s') -> (i < n_agents (ad_net (im_ad im)))%nat -> 0 <= P ->
  inertial_rows lm g q k im s i (fun r => Rabs (K (ad_set (im_ad im)) / inertial_reluctance im i) * total_weight r <= P) ->
  let rate := contraction (time_step im) (friction im) in
  let bound := rate ^ k * (Rabs (position_of im i) + Rabs (velocity_of im i)) + (2 * time_step im * P + bot_size im i) / (1 - rate) in
  0 < rate < 1 /\ Rabs (position_of im' i) <= 6 / 5 * bound /\ Rabs (velocity_of im' i) <= bound.
Proof using Htanh Hq.
  intros Hr Hf Hd Hc E Hi HP Hw rate bound.
  assert (Hrate : 0 < rate < 1) by (apply contraction_bounds; auto; lra). split; [exact Hrate|].
  set (B := bot_size im i) in *. assert (HB : 0 <= B) by (unfold B, bot_size; destruct (_ <? _)%nat; [apply Rabs_pos|lra]).
  set (D := 2 * time_step im * P + B) in *.
  assert (G : enorm (time_step im) (position_of im' i) (velocity_of im' i) <= rate ^ k * enorm (time_step im) (position_of im i) (velocity_of im i) + D / (1 - rate)).
  { destruct (inertial_track lm g q Hq (fun j imj => enorm (time_step im) (position_of imj i) (velocity_of imj i) <=
      rate ^ j * enorm (time_step im) (position_of im i) (velocity_of im i) + D / (1 - rate)) im s k im' s' Hr) as [H _]; auto.
    - cbn [pow]. rewrite Rmult_1_l. assert (0 <= D / (1 - rate)); [|lra]. apply Rmult_le_pos; [|apply Rlt_le, Rinv_0_lt_compat; lra].
      unfold D. revert Hd HP HB. generalize (time_step im). intros h. change R in h. intros. nra.
    - intros j imj sj imj' sj' Hj Ej (F1 & F2 & F3 & F4 & F5 & F6) E1 Ej' Q.
      destruct (inertial_components lm g q Htanh Hq imj imj' sj sj' F1 E1) as (moved & HC).
      { rewrite F2, F3. revert Hf Hd. generalize (time_step im), (friction im). intros h mu Hf Hd. change R in h, mu. assert (0 <= mu * h) by (apply Rmult_le_pos; lra). lra. }
      destruct (HC i ltac:(rewrite F4; exact Hi)) as (V1 & V2 & V3). rewrite F2, F3 in V1. rewrite F2 in V2, V3. rewrite (F5 i Hi) in V1.
      specialize (Hw (S j) imj' sj' ltac:(lia) Ej').
      pose proof (pulled_step _ _ _ _ _ _ _ _ P Hd Hf Hc
        (Rle_trans _ _ _ (pull_bound (ad_set (im_ad im)) (inertial_reluctance im i) (row (ad_net (im_ad imj')) i) _) Hw)
        (Rle_trans _ _ _ (pull_bound (ad_set (im_ad im)) (inertial_reluctance im i) (row (ad_net (im_ad imj')) i) _) Hw) V1) as S1.
      fold rate in S1.
      assert (S2 : enorm (time_step im) (position_of imj' i) (velocity_of imj' i) <= enorm (time_step im) (moved i) (velocity_of imj' i) + B).
      { unfold B, bot_size. destruct (Nat.ltb_spec i (n_bots (ad_set (im_ad im)))) as [Hb|Hb].
        - rewrite (V3 Hb). set (b := nth i (bot_opinion (ad_set (im_ad im))) 0).
          replace b with (0 + b) at 1 by ring. replace (velocity_of imj' i) with (velocity_of imj' i + 0) at 1 by ring.
          eapply Rle_trans; [apply enorm_triangle; revert Hd; generalize (time_step im); intros h; change R in h; lra|].
          pose proof (enorm_simple (time_step im) b 0 ltac:(revert Hd; generalize (time_step im); intros h; change R in h; lra)) as S3. rewrite Rabs_R0, Rplus_0_r in S3.
          assert (S4 : enorm (time_step im) 0 (velocity_of imj' i) <= enorm (time_step im) (moved i) (velocity_of imj' i)); [|lra].
          apply sqrt_le_1_alt. unfold energy. revert Hd. generalize (time_step im). intros h Hd. change R in h.
          assert (0 <= (1 - h ^ 2 / 4) * moved i ^ 2) by (apply Rmult_le_pos; [nra|apply pow2_ge_0]). lra.
        - rewrite (V2 Hb). lra. }
      clear -Q S1 S2 Hrate. unfold D in *. revert Q S1 S2. generalize (time_step im). intros h Q S1 S2. change R in h.
      set (N0 := enorm h (position_of im i) (velocity_of im i)) in *. set (N1 := enorm h (position_of imj i) (velocity_of imj i)) in *.
      set (Z := (2 * h * P + B) / (1 - rate)) in *. assert (EZ : rate * Z + (2 * h * P + B) = Z) by (unfold Z; field; lra).
      cbn [pow]. assert (rate * N1 <= rate * (rate ^ j * N0 + Z)) by (apply Rmult_le_compat_l; lra). lra. }
  assert (Hn : enorm (time_step im) (position_of im i) (velocity_of im i) <= Rabs (position_of im i) + Rabs (velocity_of im i)).
  { apply enorm_simple. revert Hd. generalize (time_step im). intros h. change R in h. lra. }
  assert (Hpow : 0 <= rate ^ k) by (apply pow_le; lra).
  assert (HG : enorm (time_step im) (position_of im' i) (velocity_of im' i) <= bound).
  { eapply Rle_trans; [exact G|]. unfold bound, D. apply Rplus_le_compat_r. now apply Rmult_le_compat_l. }
  pose proof (enorm_position (time_step im) (position_of im' i) (velocity_of im' i) ltac:(revert Hd; generalize (time_step im); intros h; change R in h; lra)) as P1.
  pose proof (enorm_velocity (time_step im) (position_of im' i) (velocity_of im' i) ltac:(revert Hd; generalize (time_step im); intros h; change R in h; lra)) as P2.
  split; lra.
Qed.

(** In the probabilistic mode weights are 1 and nobody has more than one edge from each agent. *)
Lemma inertial_contact_weight (im im' : inertial) s s' i : ad_ready (im_ad im) -> mean_weights (ad_set (im_ad im)) = false ->
  inertial_iteration (a:=RA) lm g q im s = Ok (im', s') -> (i < n_agents (ad_net (im_ad im)))%nat ->
  total_weight (row (ad_net (im_ad im')) i) <= INR (n_agents (ad_net (im_ad im))).
Proof using Hq.
  intros Hr Hm E Hi.
  destruct (inertial_iteration_ok (a:=RA) lm g q im s Hq Hr)
    as (im2 & s2 & h & cpl & E1 & E2 & E3 & E4 & E5 & E6 & E7 & E8 & E9 & E10 & E11 & _).
  rewrite E in E1. assert (im2 = im') by congruence. assert (s2 = s') by congruence. subst im2 s2. clear E1.
  unfold update_network in E3. rewrite Hm in E3. cbn [negb] in E3. apply bind_ok_inv in E3 as ([h0 s0] & E3 & E0).
  assert (h0 = h) by congruence. assert (s0 = s') by congruence. subst h0 s0. destruct Hr as (W1 & W2 & W3 & _).
  destruct (C42_simple_graph RA lm g q _ (inertial_ops (F RA)) (ad_set (im_ad im)) (ad_net (im_ad im)) h s s' Hq W3 W1 W2 E3) as [Hn Hw].
  assert (Hd : dir h = Incoming). { destruct E2 as (_ & Hd & _). rewrite <- E9. exact Hd. }
  assert (Hni : n_agents h = n_agents (ad_net (im_ad im))) by (unfold n_agents; now rewrite E10).
  unfold total_weight. replace (row (ad_net (im_ad im')) i) with (row h i) by (unfold row; now rewrite E7, E8).
  destruct (simple_row h i E11 Hd Hn ltac:(lia)) as (_ & H2 & _).
  pose proof (degree_le h i E11 Hd Hn ltac:(lia)) as Hdeg. rewrite Hni in Hdeg.
  apply Rle_trans with (INR (length (row h i))); [|now apply le_INR].
  clear -H2 Hw. assert (G : forall r, (forall p, In p r -> snd p = 1) -> Rsum (map (fun p : nat * R => Rabs (snd p)) r) <= INR (length r)).
  { induction r as [|p r IH]; intros Hp; cbn [map length]; [rewrite Rsum_nil; cbn; lra|].
    rewrite Rsum_cons, S_INR, (Hp p (or_introl eq_refl)), Rabs_R1. specialize (IH (fun p' H => Hp p' (or_intror H))). lra. }
  apply G. intros p Hp. apply H2 in Hp. apply Hw in Hp. exact Hp.
Qed.
Lemma inertial_contact_rows k (im : inertial) s i : ad_ready (im_ad im) -> mean_weights (ad_set (im_ad im)) = false -> (i < n_agents (ad_net (im_ad im)))%nat ->
  inertial_rows lm g q k im s i (fun r => total_weight r <= INR (n_agents (ad_net (im_ad im)))).
Proof using Hq.
  intros Hr Hm Hi j imj sj Hj Ej. destruct j as [|j]; [lia|]. rewrite inertial_snoc in Ej. apply bind_ok_inv in Ej as ([im1 s1] & E1 & E2).
  destruct (inertial_track lm g q Hq (fun _ _ => True) im s j im1 s1 Hr I) as [_ (F1 & F2 & F3 & F4 & F5 & F6)]; auto.
  rewrite <- F4. eapply inertial_contact_weight; eauto; [now rewrite F2|now rewrite F4].
Qed.

(** On networks drawn from contacts, the bound is the same for every run of any length, whatever the generator draws. *)
Theorem C93_bounded_for_ever k (im : inertial) s i : ad_ready (im_ad im) -> mean_weights (ad_set (im_ad im)) = false ->
  0 < friction im -> 0 < time_step im <= 1 -> time_step im * friction im < 4 -> (i < n_agents (ad_net (im_ad im)))%nat ->
  let pull := Rabs (K (ad_set (im_ad im)) / inertial_reluctance im i) * INR (n_agents (ad_net (im_ad im))) in
  let bound := Rabs (position_of im i) + Rabs (velocity_of im i) + (2 * time_step im * pull + bot_size im i) / (1 - contraction (time_step im) (friction im)) in
  exists im' s', inertial_run (a:=RA) lm g q k im s = Ok (im', s') /\ Rabs (position_of im' i) <= 6 / 5 * bound /\ Rabs (velocity_of im' i) <= bound.
Proof using Htanh Hq.
  intros Hr Hm Hf Hd Hc Hi pull bound.
  destruct (inertial_run_ready lm g q Hq k im s Hr) as (im' & s' & E). exists im', s'. split; [exact E|].
  assert (HP : 0 <= pull) by (apply Rmult_le_pos; [apply Rabs_pos|apply pos_INR]).
  destruct (C93_run k im im' s s' i pull Hr Hf Hd Hc E Hi HP) as (Hrate & H1 & H2).
  { intros j imj sj Hj Ej. apply Rmult_le_compat_l; [apply Rabs_pos|]. exact (inertial_contact_rows k im s i Hr Hm Hi j imj sj Hj Ej). }
  set (rate := contraction (time_step im) (friction im)) in *.
  assert (L : rate ^ k * (Rabs (position_of im i) + Rabs (velocity_of im i)) <= 1 * (Rabs (position_of im i) + Rabs (velocity_of im i))).
  { apply Rmult_le_compat_r; [pose proof (Rabs_pos (position_of im i)); pose proof (Rabs_pos (velocity_of im i)); lra|].
    rewrite <- (pow1 k). apply pow_incr. lra. }
  fold bound in H1, H2. unfold bound. split; lra.
Qed.
End Bounded.

(** ** A concrete population: a bot at 2 and two agents on contact networks *)
Definition contact_inertial : inertial :=
  complete_inertial (mkADS None (1/10) 1 (1/100) (21/10) 3 (1/2) (1/2) 3 false false 1 [1%Z] [1] [2] [0] false 1 1 (1/100) 0) (1/2)
    [mkInertial 2 1 1 0; mkInertial (-1) 1 1 0; mkInertial 1 1 1 1].
Lemma contact_inertial_ready : ad_ready (im_ad contact_inertial).
Proof.
  apply complete_inertial_ready; [|cbn; lia|cbn; lia]. split; [cbn; lia|]. split; [cbn; lia|]. split; [cbn; lia|]. split; [cbn; lia|].
  intros i Hi. cbn in Hi. assert (i = 0%nat) by lia. subst i. cbn. lia.
Qed.
Example C93_instance k s : exists im' s', inertial_run (a:=RA) real_libm mid_rng (list_pq RA) k contact_inertial s = Ok (im', s') /\
  Rabs (velocity_of im' 2) <= 2 + (9 / 5) / (1 - contraction (1/10) (1/2)).
Proof.
  destruct (C93_bounded_for_ever real_libm mid_rng (list_pq RA) (fun _ => eq_refl) (list_pq_bag RA) k contact_inertial s 2 contact_inertial_ready eq_refl
    ltac:(cbn; lra) ltac:(cbn; lra) ltac:(cbn; lra) ltac:(cbn; lia)) as (im' & s' & E & _ & H). exists im', s'. split; [exact E|].
  cbv zeta in H. unfold bot_size in H.
  change (n_bots (ad_set (im_ad contact_inertial))) with 1%nat in H. cbn [Nat.ltb Nat.leb] in H.
  change (dt (ad_set (im_ad contact_inertial))) with (1/10) in H. change (friction_coefficient contact_inertial) with (1/2) in H.
  change (K (ad_set (im_ad contact_inertial))) with 3 in H. change (inertial_reluctance contact_inertial 2) with 1 in H.
  change (n_agents (ad_net (im_ad contact_inertial))) with 3%nat in H. change (position_of contact_inertial 2) with 1 in H. change (velocity_of contact_inertial 2) with 1 in H.
  rewrite Rabs_R1 in H. replace (3 / 1) with 3 in H by field. rewrite (Rabs_right 3) in H by lra. replace (INR 3) with 3 in H by (cbn; ring).
  eapply Rle_trans; [exact H|]. apply Req_le. replace (2 * (1 / 10) * (3 * 3) + 0) with (9/5) by field. ring.
Qed.

Print Assumptions C93_run.
Print Assumptions C93_bounded_for_ever.
