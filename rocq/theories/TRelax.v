(** Property theorems C76 (an agent that hears nobody), C77 (an agent that hears only bots) and C78 (weak
    coupling leads to the neutral consensus) of the activity-driven model in exact arithmetic. *)
From Verif Require Import Base BaseFacts Arith64 RFacts MRandom SRandom PRandom WRandom MDist MNetwork SNetwork PNetwork PNetwork2
  MAgents MDeGroot MActivity SActivity PActStep PActNet PActIter PActMean PActIter2 PActInit PActThm PActSym PActReal PActMean2
  TActivity TActivityR TMean TNetGen SRelax PRelax PRelax2 PTanh WRelax.
From Coq Require Import Reals Lra Psatz Permutation.
Local Open Scope R_scope.
Notation activity_model := (ad_model (a:=RA) (activity_agent (F RA))).

Lemma weights_zero (r : list (nat * R)) : (forall p, In p r -> snd p = 0) -> total_weight r = 0.
Proof.
  intros G. unfold total_weight. induction r as [|p r IH]; [reflexivity|]. cbn [map]. rewrite Rsum_cons, IH by (intros; apply G; now right).
  rewrite (G p (or_introl eq_refl)), Rabs_R0. ring.
Qed.

Section Relax.
Context (lm : Libm RA) (g : Rng RA) (q : PQ RA).
Hypothesis Htanh : forall x : R, ltanh RA lm x = tanh x.
Hypothesis Hq : pq_bag q.

(** ** C76 *)
(** One iteration multiplies the opinion of an agent without incoming weight by
    1 - dt + dt^2/2 - dt^3/6 + dt^4/24. *)
Theorem C76_isolated_step (md md' : activity_model) s s' i : ad_ready md ->
  activity_iteration (a:=RA) lm g q md s = Ok (md', s') -> (n_bots (ad_set md) <= i < n_agents (ad_net md))%nat ->
  total_weight (row (ad_net md') i) = 0 -> opinion_of md' i = decay (dt (ad_set md)) * opinion_of md i.
Proof using Htanh Hq.
  intros Hr E (Hb & Hi) Hw. destruct (step_stages lm g q Htanh Hq md md' s s' Hr E) as (y2 & y3 & y4 & HS).
  destruct (HS i Hi) as (E2 & E3 & E4 & E5 & _). specialize (E5 Hb).
  rewrite !(no_pull _ _ _ _ Hw) in *. rewrite E5, (mixture _ _ _ _ _ _ _ _ _ E2 E3 E4). ring.
Qed.

(** The rows of agent [i] in the networks of iterations 1 to [k] of a run. *)
Definition rows_along (k : nat) (md : activity_model) s (i : nat) (P : list (nat * R) -> Prop) : Prop :=
  forall j mdj sj, (1 <= j <= k)%nat -> activity_run (a:=RA) lm g q j md s = Ok (mdj, sj) -> P (row (ad_net mdj) i).

Theorem C76_isolated_run k (md md' : activity_model) s s' i : ad_ready md ->
  activity_run (a:=RA) lm g q k md s = Ok (md', s') -> (n_bots (ad_set md) <= i < n_agents (ad_net md))%nat ->
  rows_along k md s i (fun r => total_weight r = 0) ->
  opinion_of md' i = decay (dt (ad_set md)) ^ k * opinion_of md i.
Proof using Htanh Hq.
  intros Hr E Hi Hw.
  destruct (run_track lm g q Hq (fun j mdj => opinion_of mdj i = decay (dt (ad_set md)) ^ j * opinion_of md i) md s k md' s' Hr) as [H _]; auto.
  - cbn. ring.
  - intros j mdj sj mdj' sj' Hj Ej (F1 & F2 & F3 & F4 & _) E1 Ej' Q.
    rewrite (C76_isolated_step mdj mdj' sj sj' i F1 E1); [|rewrite F2, F3; exact Hi|apply (Hw (S j) mdj' sj'); auto; lia].
    rewrite F2, Q. cbn [pow]. ring.
Qed.

(** This is exponential decay with rate 1, up to the error of the Taylor polynomial. *)
Theorem C76_exponential_decay k (md md' : activity_model) s s' i : ad_ready md -> 0 < dt (ad_set md) <= 1 ->
  activity_run (a:=RA) lm g q k md s = Ok (md', s') -> (n_bots (ad_set md) <= i < n_agents (ad_net md))%nat ->
  rows_along k md s i (fun r => total_weight r = 0) ->
  Rabs (opinion_of md' i - opinion_of md i * exp (- (INR k * dt (ad_set md)))) <= Rabs (opinion_of md i) * (INR k * (dt (ad_set md) ^ 5 / 120)).
Proof using Htanh Hq.
  intros Hr Hdt E Hi Hw. rewrite (C76_isolated_run k md md' s s' i Hr E Hi Hw). revert Hdt. generalize (dt (ad_set md)). intros h Hdt. change R in h.
  rewrite <- exp_pow. pose proof (exp_alternating h ltac:(lra)) as EA1. destruct (mixture_pos h Hdt) as (P0 & _ & _ & _ & _ & P5).
  replace (decay h ^ k * opinion_of md i - opinion_of md i * exp (- h) ^ k) with (opinion_of md i * (decay h ^ k - exp (- h) ^ k)) by ring.
  rewrite Rabs_mult. apply Rmult_le_compat_l; [apply Rabs_pos|].
  eapply Rle_trans; [apply pow_close|].
  - lra.
  - split; [apply Rlt_le, exp_pos|]. lra.
  - apply Rmult_le_compat_l; [apply pos_INR|]. rewrite Rabs_right; lra.
Qed.

(** A validated time step can be so large that the opinion of an agent that hears nobody grows without bound. *)
Theorem C76_large_time_step_diverges k (md md' : activity_model) s s' i : ad_ready md -> 3 <= dt (ad_set md) ->
  activity_run (a:=RA) lm g q k md s = Ok (md', s') -> (n_bots (ad_set md) <= i < n_agents (ad_net md))%nat ->
  rows_along k md s i (fun r => total_weight r = 0) ->
  (11 / 8) ^ k * Rabs (opinion_of md i) <= Rabs (opinion_of md' i).
Proof using Htanh Hq.
  intros Hr Hdt E Hi Hw. rewrite (C76_isolated_run k md md' s s' i Hr E Hi Hw). revert Hdt. generalize (dt (ad_set md)). intros h Hdt. change R in h.
  rewrite Rabs_mult. apply Rmult_le_compat_r; [apply Rabs_pos|].
  assert (D : 11 / 8 <= decay h).
  { unfold decay. set (t := h - 3). replace h with (t + 3) by (unfold t; ring). assert (Ht : 0 <= t) by (unfold t; lra).
    replace (1 - (t + 3) + (t + 3) ^ 2 / 2 - (t + 3) ^ 3 / 6 + (t + 3) ^ 4 / 24) with (11 / 8 + 2 * t + 5 / 4 * t ^ 2 + 1 / 3 * t ^ 3 + t ^ 4 / 24) by field.
    assert (0 <= t ^ 2) by (apply pow_le; auto). assert (0 <= t ^ 3) by (apply pow_le; auto). assert (0 <= t ^ 4) by (apply pow_le; auto). lra. }
  rewrite <- RPow_abs. apply pow_incr. split; [lra|]. rewrite Rabs_right; lra.
Qed.

(** A population without contacts: in the probabilistic model nobody is ever active, in the mean-field
    model nobody makes contacts. *)
Definition silent (md : activity_model) : Prop :=
  if mean_weights (ad_set md) then forall i, (i < n_agents (ad_net md))%nat -> contact_count (a:=RA) (ad_set md) i = 0%nat
  else Forall (fun x : R => x <= 0) (map a_activity (agents (ad_net md))).

Lemma silent_rows (md md' : activity_model) s s' i : real_ok g -> ad_ready md -> silent md ->
  activity_iteration (a:=RA) lm g q md s = Ok (md', s') -> (i < n_agents (ad_net md))%nat ->
  total_weight (row (ad_net md') i) = 0.
Proof using Hq.
  intros Hg Hr Hs E Hi. unfold silent in Hs. destruct (mean_weights (ad_set md)) eqn:Hm.
  - destruct (C45_activity_weights (a:=RA) lm g q md md' s s' Hq Hr Hm E) as (_ & _ & H).
    specialize (H i Hi). unfold n_agents in Hi, Hs.
    assert (G : forall p, In p (row (ad_net md') i) -> snd p = 0).
    { intros p Hp. rewrite H in Hp. apply in_map_iff in Hp as (j & <- & Hj). cbn [snd]. apply in_seq in Hj.
      assert (PZ : forall u v, (u < length (agents (ad_net md)))%nat -> contact_probability (a:=RA) lm (activity_ops (F RA)) (ad_set md) (agents (ad_net md)) u v = 0).
      { intros u v Hu. unfold contact_probability. rewrite (Hs u Hu). destruct (nth_error (agents (ad_net md)) u); [|reflexivity].
        unfold rounds. cbn [seq fold_left]. cbn [fmul f0 RA]. apply Rmult_0_r. }
      eapply eq_trans; [apply (C45_weight_formula (reciprocity (ad_set md)))|].
      rewrite (PZ i j Hi), (PZ j i) by lia. match goal with |- ?u = ?w => change (@eq R u w) end. ring. }
    apply weights_zero. exact G.
  - destruct (activity_iteration_ok (a:=RA) lm g q md s Hq Hr)
      as (md2 & s2 & h & cpl & E1 & E2 & E3 & E4 & E5 & E6 & E7 & E8 & E9 & E10 & _).
    rewrite E in E1. assert (md2 = md') by congruence. subst md2.
    unfold update_network in E3. rewrite Hm in E3. cbn [negb] in E3. apply bind_ok_inv in E3 as ([h0 s0] & E3 & E0).
    assert (h0 = h) by congruence. subst h0.
    pose proof Hr as (W1 & W2 & W3 & _).
    destruct (C42_contact_graph RA lm g q _ (activity_ops (F RA)) (ad_set md) (ad_net md) s Hq W3 W1 W2)
      as (h' & s3 & cs & s1 & Rc & D1 & D2 & D3 & D4 & D5 & D6 & D7 & D8).
    rewrite E3 in D1. assert (h' = h) by congruence. subst h'.
    assert (N : forall u, nth u cs [] = []).
    { intros u. destruct (nth_error (agents (ad_net md)) u) as [x|] eqn:Ex.
      - destruct (C42_contacts_per_agent RA lm g q _ (activity_ops (F RA)) (ad_set md) (agents (ad_net md)) s cs s1 Hq W3 D2) as [_ H].
        destruct (H u x Ex) as (t & v & t1 & P1 & P2 & _). apply P2.
        pose proof (Hg (f0 RA) (f1 RA) t) as RO. rewrite P1 in RO. cbn [fst] in RO.
        assert (HV : (0 <= v)%R).
        { assert (RB : flt RA (f0 RA) (f1 RA) = true) by (cbn; destruct (Rltb_spec 0 1); auto; lra). destruct (RO RB) as [RL _]. cbn in RL. destruct (Rleb_spec 0 v); [exact r|discriminate]. }
        assert (HX : (a_activity x <= 0)%R).
        { rewrite Forall_forall in Hs. apply Hs. apply in_map. eapply nth_error_In; eauto. }
        cbn [flt RA]. destruct (Rltb_spec v (get_activity (activity_ops (F RA)) x)) as [C|C]; auto. exfalso.
        cbn [get_activity activity_ops] in C. exact (Rlt_irrefl 0 (Rle_lt_trans _ _ _ HV (Rlt_le_trans _ _ _ C HX))).
      - apply nth_overflow. apply nth_error_None in Ex. rewrite D3. exact Ex. }
    assert (CP : contact_pairs cs = []).
    { unfold contact_pairs. induction (seq 0 (length cs)) as [|u l IH]; [reflexivity|]. cbn [flat_map]. rewrite N, IH. reflexivity. }
    assert (RE : Rc = []). { unfold one_way in D4. rewrite CP in D4. cbn in D4. congruence. }
    rewrite CP, RE in D8. cbn in D8. apply Permutation_sym, Permutation_nil in D8.
    assert (Er : row (ad_net md') i = row h i) by (unfold row; now rewrite E6, E7). rewrite Er.
    assert (Rn : row h i = []).
    { assert (Hl : (i < length (neigh h))%nat). { destruct D7 as (V1 & _). rewrite V1. unfold n_agents in Hi. rewrite D5. exact Hi. }
      destruct (row h i) as [|p r] eqn:Eh; auto. exfalso.
      assert (Hin : In (match dir h with Outgoing => (i, fst p, snd p) | Incoming => (fst p, i, snd p) end) (edges h)).
      { unfold edges. apply in_flat_map. exists i. split; [apply in_seq; lia|]. rewrite Eh. now left. }
      exact (eq_ind _ (fun l => In _ l) Hin _ D8). }
    rewrite Rn. reflexivity.
Qed.

Theorem C76_silent_population k (md : activity_model) s : real_ok g -> ad_ready md -> silent md -> 0 < dt (ad_set md) <= 1 ->
  exists md' s', activity_run (a:=RA) lm g q k md s = Ok (md', s') /\
    forall i, (n_bots (ad_set md) <= i < n_agents (ad_net md))%nat ->
      opinion_of md' i = decay (dt (ad_set md)) ^ k * opinion_of md i /\
      Rabs (opinion_of md' i - opinion_of md i * exp (- (INR k * dt (ad_set md)))) <= Rabs (opinion_of md i) * (INR k * (dt (ad_set md) ^ 5 / 120)).
Proof using Htanh Hq.
  intros Hg Hr Hs Hdt. destruct (activity_run_ready (a:=RA) lm g q k md s Hq Hr) as (md' & s' & E & _).
  exists md', s'. split; auto. intros i Hi.
  assert (HW : rows_along k md s i (fun r => total_weight r = 0)).
  { intros j mdj sj Hj Ej. destruct j as [|j]; [lia|]. pose proof Ej as Ej'. rewrite run_snoc in Ej'. apply bind_ok_inv in Ej' as ([md1 s1] & E1 & E2).
    destruct (run_track lm g q Hq (fun _ _ => True) md s j md1 s1 Hr I) as [_ (F1 & F2 & F3 & F4 & F5)]; auto.
    eapply (silent_rows md1 mdj s1 sj); eauto; [|rewrite F3; apply Hi].
    unfold silent in *. rewrite F2. destruct (mean_weights (ad_set md)).
    - intros u Hu. apply Hs. now rewrite <- F3.
    - rewrite F5. exact Hs. }
  split; [now apply (C76_isolated_run k md md' s s')|now apply (C76_exponential_decay k md md' s s')].
Qed.

(** ** C77 *)
(** The opinion towards which bots pull an agent with reluctance [rel] and incoming pairs [r]. *)
Definition bot_target (st : ad_settings (F RA)) (rel : R) (r : list (nat * R)) : R :=
  social_pull st rel r (fun j => nth j (bot_opinion st) 0).
Definition hears_only_bots (st : ad_settings (F RA)) (r : list (nat * R)) : Prop :=
  Forall (fun p => snd p = 0 \/ (fst p < n_bots st)%nat) r.
Definition bots_in_place (md : activity_model) : Prop :=
  forall b, (b < n_bots (ad_set md))%nat -> opinion_of md b = nth b (bot_opinion (ad_set md)) 0.

Theorem C77_step (md md' : activity_model) s s' i B : ad_ready md -> 0 < dt (ad_set md) <= 1 -> bots_in_place md ->
  activity_iteration (a:=RA) lm g q md s = Ok (md', s') -> (n_bots (ad_set md) <= i < n_agents (ad_net md))%nat ->
  hears_only_bots (ad_set md) (row (ad_net md') i) ->
  (forall b, (b < n_bots (ad_set md))%nat -> Rabs (nth b (bot_opinion (ad_set md)) 0) <= B /\
     Rabs (K (ad_set md) / reluctance_of md b) * total_weight (row (ad_net md') b) <= B) ->
  let C := bot_target (ad_set md) (reluctance_of md i) (row (ad_net md') i) in
  Rabs (opinion_of md' i - (C + decay (dt (ad_set md)) * (opinion_of md i - C))) <=
    (1 - decay (dt (ad_set md))) * (Rabs (K (ad_set md) / reluctance_of md i) * total_weight (row (ad_net md') i) * (Rabs (alpha (ad_set md)) * (3 * dt (ad_set md) * B))).
Proof using Htanh Hq.
  intros Hr Hdt Hbp E (Hb & Hi) Hon HB C. destruct (step_stages lm g q Htanh Hq md md' s s' Hr E) as (y2 & y3 & y4 & HS).
  assert (HN : (n_bots (ad_set md) <= n_agents (ad_net md))%nat) by apply Hr.
  destruct (HS i Hi) as (E2 & E3 & E4 & E5 & _). specialize (E5 Hb). rewrite E5, (mixture _ _ _ _ _ _ _ _ _ E2 E3 E4). clear E2 E3 E4 E5.
  set (h := dt (ad_set md)) in *.
  set (r := row (ad_net md') i) in *. set (rel := reluctance_of md i) in *. set (st := ad_set md) in *.
  set (e := Rabs (K st / rel) * total_weight r * (Rabs (alpha st) * (3 * h * B))).
  assert (near : forall y : nat -> R, (forall b, (b < n_bots st)%nat -> Rabs (y b - nth b (bot_opinion st) 0) <= 3 * h * B) -> Rabs (social_pull st rel r y - C) <= e).
  { intros y Hy. apply pull_close. eapply Forall_impl; [|exact Hon]. cbv beta. intros p [Hp|Hp]; auto. }
  assert (G1 : social_pull st rel r (opinion_of md) = C).
  { assert (Z : forall y : nat -> R, (forall b, (b < n_bots st)%nat -> y b = nth b (bot_opinion st) 0) -> social_pull st rel r y = C).
    { intros y Hy. pose proof (pull_close st rel r y (fun j => nth j (bot_opinion st) 0) 0) as P. rewrite !Rmult_0_r in P.
      assert (Hz : Rabs (social_pull st rel r y - C) <= 0).
      { apply P. eapply Forall_impl; [|exact Hon]. cbv beta. intros p [Hp|Hp]; auto. right. rewrite (Hy _ Hp), Rminus_diag_eq, Rabs_R0 by reflexivity. lra. }
      pose proof (Rabs_pos (social_pull st rel r y - C)). destruct (Req_dec (social_pull st rel r y - C) 0) as [|N]; [lra|]. apply Rabs_no_R0 in N. lra. }
    apply Z. exact Hbp. }
  assert (ST : forall b, (b < n_bots st)%nat -> Rabs (y2 b - nth b (bot_opinion st) 0) <= 3 * h * B /\ Rabs (y3 b - nth b (bot_opinion st) 0) <= 3 * h * B /\ Rabs (y4 b - nth b (bot_opinion st) 0) <= 3 * h * B).
  { intros b Hbb. destruct (HS b ltac:(lia)) as (F2 & F3 & F4 & _). destruct (HB b Hbb) as (B1 & B2).
    assert (PB : forall y, Rabs (social_pull st (reluctance_of md b) (row (ad_net md') b) y) <= B) by (intros y; eapply Rle_trans; [apply pull_bound|exact B2]).
    assert (Ob : opinion_of md b = nth b (bot_opinion st) 0) by (apply Hbp; exact Hbb). rewrite Ob in F2, F3, F4.
    exact (bot_stages _ h B _ _ _ _ _ _ Hdt B1 (PB _) (PB _) (PB _) F2 F3 F4). }
  pose proof (near y2 (fun b Hbb => proj1 (ST b Hbb))) as G2.
  pose proof (near y3 (fun b Hbb => proj1 (proj2 (ST b Hbb)))) as G3.
  pose proof (near y4 (fun b Hbb => proj2 (proj2 (ST b Hbb)))) as G4.
  rewrite G1. destruct (mixture_pos h Hdt) as (P0 & P1 & P2 & P3 & P4 & P5). pose proof (mixture_sum h) as PS.
  set (g2 := social_pull st rel r y2) in *. set (g3 := social_pull st rel r y3) in *. set (g4 := social_pull st rel r y4) in *. set (x := opinion_of md i).
  replace (decay h * x + mix1 h * C + mix2 h * g2 + mix3 h * g3 + mix4 h * g4 - (C + decay h * (x - C)))
    with (mix2 h * (g2 - C) + mix3 h * (g3 - C) + mix4 h * (g4 - C))
    by (transitivity (mix2 h * (g2 - C) + mix3 h * (g3 - C) + mix4 h * (g4 - C) + ((decay h + mix1 h + mix2 h + mix3 h + mix4 h) - 1) * C); [rewrite PS; ring|ring]).
  assert (He : 0 <= e) by (eapply Rle_trans; [apply Rabs_pos|exact G2]).
  apply abs_le_iff in G2, G3, G4. apply abs_le_iff.
  assert (T : forall a b : R, 0 <= a -> - e <= b <= e -> - (a * e) <= a * b <= a * e) by (intros; split; nra).
  pose proof (T _ _ P2 G2). pose proof (T _ _ P3 G3). pose proof (T _ _ P4 G4).
  assert ((1 - decay h) * e = mix1 h * e + mix2 h * e + mix3 h * e + mix4 h * e) by (rewrite <- PS; ring).
  assert (0 <= mix1 h * e) by (apply Rmult_le_pos; auto). lra.
Qed.

(** If agent [i] hears the same bots with the same weights throughout, its opinion follows
    C + (x0 - C) exp(-t) up to the error of the Taylor polynomial and an error proportional to dt: bots
    move within an iteration, see C77_bots_move_within_an_iteration. *)
Theorem C77_run k (md md' : activity_model) s s' i r B : 0 <= B -> ad_ready md -> 0 < dt (ad_set md) <= 1 -> bots_in_place md ->
  activity_run (a:=RA) lm g q k md s = Ok (md', s') -> (n_bots (ad_set md) <= i < n_agents (ad_net md))%nat ->
  rows_along k md s i (fun r' => r' = r) -> hears_only_bots (ad_set md) r ->
  (forall b, (b < n_bots (ad_set md))%nat -> Rabs (nth b (bot_opinion (ad_set md)) 0) <= B /\
     rows_along k md s b (fun r' => Rabs (K (ad_set md) / reluctance_of md b) * total_weight r' <= B)) ->
  let C := bot_target (ad_set md) (reluctance_of md i) r in
  let e := Rabs (K (ad_set md) / reluctance_of md i) * total_weight r * (Rabs (alpha (ad_set md)) * (3 * dt (ad_set md) * B)) in
  Rabs (opinion_of md' i - (C + (opinion_of md i - C) * decay (dt (ad_set md)) ^ k)) <= e /\
  Rabs (opinion_of md' i - (C + (opinion_of md i - C) * exp (- (INR k * dt (ad_set md)))))
    <= e + Rabs (opinion_of md i - C) * (INR k * (dt (ad_set md) ^ 5 / 120)).
Proof using Htanh Hq.
  intros HB0 Hr Hdt Hbp E Hi Hw Hon HB C e.
  assert (A : Rabs (opinion_of md' i - (C + (opinion_of md i - C) * decay (dt (ad_set md)) ^ k)) <= (1 - decay (dt (ad_set md)) ^ k) * e).
  { destruct (run_track lm g q Hq (fun j mdj => bots_in_place mdj /\
        Rabs (opinion_of mdj i - (C + (opinion_of md i - C) * decay (dt (ad_set md)) ^ j)) <= (1 - decay (dt (ad_set md)) ^ j) * e) md s k md' s' Hr) as [[_ H] _]; auto.
    - split; [exact Hbp|]. cbn [pow]. rewrite Rminus_diag_eq by ring. rewrite Rabs_R0. lra.
    - intros j mdj sj mdj' sj' Hj Ej (F1 & F2 & F3 & F4 & F5) E1 Ej' (Q1 & Q2).
      assert (Hrow : row (ad_net mdj') i = r) by (apply (Hw (S j) mdj' sj'); auto; lia).
      destruct (step_frame lm g q Hq mdj mdj' sj sj' F1 E1) as (G1 & G2 & G3 & G4 & _).
      split.
      + intros b Hb. rewrite G2 in Hb. destruct (step_stages lm g q Htanh Hq mdj mdj' sj sj' F1 E1) as (y2 & y3 & y4 & HS).
        assert (HN : (n_bots (ad_set mdj) <= n_agents (ad_net mdj))%nat) by apply F1.
        destruct (HS b ltac:(lia)) as (_ & _ & _ & _ & E5). rewrite G2. now apply E5.
      + pose proof (C77_step mdj mdj' sj sj' i B F1) as P. rewrite Hrow, F2, F4 in P.
        specialize (P Hdt Q1 E1 ltac:(rewrite F3; exact Hi) Hon).
        assert (HB' : forall b, (b < n_bots (ad_set md))%nat -> Rabs (nth b (bot_opinion (ad_set md)) 0) <= B /\
          Rabs (K (ad_set md) / reluctance_of mdj b) * total_weight (row (ad_net mdj') b) <= B).
        { intros b Hb. destruct (HB b Hb) as (B1 & B2). split; auto. rewrite F4. apply (B2 (S j) mdj' sj'); auto. lia. }
        specialize (P HB'). fold C e in P. cbv zeta in P. fold C in P. revert P Q2 Hdt. generalize (dt (ad_set md)). intros h P Q2 Hdt. change R in h.
        destruct (mixture_pos h Hdt) as (P0 & _). cbn [pow]. set (dk := decay h ^ j) in *. set (x0 := opinion_of md i) in *. set (x1 := opinion_of mdj i) in *. set (x2 := opinion_of mdj' i) in *.
        replace (x2 - (C + (x0 - C) * (decay h * dk))) with ((x2 - (C + decay h * (x1 - C))) + decay h * (x1 - (C + (x0 - C) * dk))) by ring.
        eapply Rle_trans; [apply Rabs_triang|]. rewrite Rabs_mult, (Rabs_right (decay h)) by lra.
        apply Rle_trans with ((1 - decay h) * e + decay h * ((1 - dk) * e)); [|apply Req_le; ring].
        apply Rplus_le_compat; [exact P|]. apply Rmult_le_compat_l; [lra|exact Q2]. }
  destruct (mixture_pos (dt (ad_set md)) Hdt) as (P0 & _ & _ & _ & _ & P5).
  assert (He : 0 <= e). { unfold e. apply Rmult_le_pos; [apply Rmult_le_pos; [apply Rabs_pos|apply total_weight_nonneg]|]. apply Rmult_le_pos; [apply Rabs_pos|].
    revert Hdt. generalize (dt (ad_set md)). intros h Hdt. change R in h. apply Rmult_le_pos; lra. }
  assert (A' : Rabs (opinion_of md' i - (C + (opinion_of md i - C) * decay (dt (ad_set md)) ^ k)) <= e).
  { eapply Rle_trans; [exact A|]. revert P0. generalize (dt (ad_set md)). intros h P0. change R in h. assert (0 <= decay h ^ k) by (apply pow_le; lra). nra. }
  split; [exact A'|]. revert A' Hdt P0 P5. clearbody e. generalize (dt (ad_set md)). intros h A' Hdt P0 P5. change R in h.
  rewrite <- exp_pow. pose proof (exp_alternating h ltac:(lra)) as EA1. set (x0 := opinion_of md i) in *.
  replace (opinion_of md' i - (C + (x0 - C) * exp (- h) ^ k)) with ((opinion_of md' i - (C + (x0 - C) * decay h ^ k)) + (x0 - C) * (decay h ^ k - exp (- h) ^ k)) by ring.
  eapply Rle_trans; [apply Rabs_triang|]. apply Rplus_le_compat; [exact A'|]. rewrite Rabs_mult. apply Rmult_le_compat_l; [apply Rabs_pos|].
  eapply Rle_trans; [apply pow_close|].
  - lra.
  - split; [apply Rlt_le, exp_pos|]. lra.
  - apply Rmult_le_compat_l; [apply pos_INR|]. rewrite Rabs_right; lra.
Qed.

Lemma pull_less st rel r (y z : nat -> R) : 0 < K st / rel -> 0 < alpha st ->
  Forall (fun p => snd p = 0 \/ 0 < snd p /\ y (fst p) < z (fst p)) r -> Exists (fun p => 0 < snd p) r ->
  social_pull st rel r y < social_pull st rel r z.
Proof.
  intros HK Ha HF HE. unfold social_pull. apply Rmult_lt_compat_l; auto.
  assert (T : forall p, snd p = 0 \/ 0 < snd p /\ y (fst p) < z (fst p) -> snd p * tanh (alpha st * y (fst p)) <= snd p * tanh (alpha st * z (fst p))).
  { intros p [->|[H1 H2]]; [lra|]. apply Rmult_le_compat_l; [lra|]. apply tanh_monotone. apply Rmult_le_compat_l; lra. }
  assert (L : forall l, Forall (fun p => snd p = 0 \/ 0 < snd p /\ y (fst p) < z (fst p)) l ->
    Rsum (map (fun p => snd p * tanh (alpha st * y (fst p))) l) <= Rsum (map (fun p => snd p * tanh (alpha st * z (fst p))) l)).
  { induction l as [|p l IH]; intros Hl; cbn [map]; [lra|]. inversion Hl; subst. rewrite !Rsum_cons. apply Rplus_le_compat; auto. }
  induction HE as [p l Hp|p l Hl IH]; inversion HF as [|p' l' H1 H2]; subst; cbn [map]; rewrite !Rsum_cons.
  - apply Rplus_lt_le_compat; [|apply L; auto]. destruct H1 as [H1|[_ H1]]; [lra|]. apply Rmult_lt_compat_l; auto.
    apply tanh_increasing. apply Rmult_lt_compat_l; auto.
  - apply Rplus_le_lt_compat; [apply T; auto|]. apply IH. exact H2.
Qed.

(** Within an iteration bots drift like everybody else and are put back only at its end: an agent pulled by
    positive bots that hear nobody always falls short of the solution for fixed bots. *)
Theorem C77_bots_move_within_an_iteration (md md' : activity_model) s s' i : ad_ready md -> 0 < dt (ad_set md) <= 1 -> bots_in_place md ->
  activity_iteration (a:=RA) lm g q md s = Ok (md', s') -> (n_bots (ad_set md) <= i < n_agents (ad_net md))%nat ->
  0 < K (ad_set md) / reluctance_of md i -> 0 < alpha (ad_set md) ->
  Forall (fun p => snd p = 0 \/ 0 < snd p /\ (fst p < n_bots (ad_set md))%nat) (row (ad_net md') i) -> Exists (fun p => 0 < snd p) (row (ad_net md') i) ->
  (forall b, (b < n_bots (ad_set md))%nat -> 0 < nth b (bot_opinion (ad_set md)) 0 /\ total_weight (row (ad_net md') b) = 0) ->
  let C := bot_target (ad_set md) (reluctance_of md i) (row (ad_net md') i) in
  opinion_of md' i < C + decay (dt (ad_set md)) * (opinion_of md i - C).
Proof using Htanh Hq.
  intros Hr Hdt Hbp E (Hb & Hi) HK Ha Hon Hex HB C. destruct (step_stages lm g q Htanh Hq md md' s s' Hr E) as (y2 & y3 & y4 & HS).
  assert (HN : (n_bots (ad_set md) <= n_agents (ad_net md))%nat) by apply Hr.
  destruct (HS i Hi) as (E2 & E3 & E4 & E5 & _). specialize (E5 Hb). rewrite E5, (mixture _ _ _ _ _ _ _ _ _ E2 E3 E4). clear E2 E3 E4 E5.
  set (h := dt (ad_set md)) in *. set (r := row (ad_net md') i) in *. set (rel := reluctance_of md i) in *. set (st := ad_set md) in *.
  assert (G1 : social_pull st rel r (opinion_of md) = C).
  { unfold C, bot_target. unfold social_pull. f_equal. f_equal. apply map_ext_in. intros p Hp. rewrite Forall_forall in Hon. destruct (Hon p Hp) as [->|[_ H]]; [ring|]. now rewrite (Hbp _ H). }
  assert (ST : forall b, (b < n_bots st)%nat -> y2 b < nth b (bot_opinion st) 0 /\ y3 b < nth b (bot_opinion st) 0 /\ y4 b < nth b (bot_opinion st) 0).
  { intros b Hbb. destruct (HS b ltac:(lia)) as (F2 & F3 & F4 & _). destruct (HB b Hbb) as (B1 & B2).
    rewrite (no_pull _ _ _ _ B2) in F2. rewrite (no_pull _ _ _ _ B2) in F3. rewrite (no_pull _ _ _ _ B2) in F4.
    assert (Ob : opinion_of md b = nth b (bot_opinion st) 0) by (apply Hbp; exact Hbb). rewrite Ob in F2, F3, F4. 
    assert (Z : forall z v2 v3 v4 : R, 0 < z -> v2 = z + h / 2 * (0 - z) -> v3 = z + h / 2 * (0 - v2) -> v4 = z + h * (0 - v3) -> v2 < z /\ v3 < z /\ v4 < z).
    { intros z v2 v3 v4 Hz -> -> ->. assert (0 < h * z) by (apply Rmult_lt_0_compat; lra).
      assert (h * (h * z) <= h * z) by nra. assert (0 <= h * (h * z)) by nra. assert (0 <= h * (h * (h * z)) <= h * (h * z)) by nra.
      split; [|split]; lra. }
    exact (Z _ _ _ _ B1 F2 F3 F4). }
  assert (LT : forall y, (forall b, (b < n_bots st)%nat -> y b < nth b (bot_opinion st) 0) -> social_pull st rel r y < C).
  { intros y Hy. apply pull_less; auto. eapply Forall_impl; [|exact Hon]. cbv beta. intros p [Hp|[H1 H2]]; auto. }
  pose proof (LT y2 (fun b Hbb => proj1 (ST b Hbb))) as G2. pose proof (LT y3 (fun b Hbb => proj1 (proj2 (ST b Hbb)))) as G3.
  pose proof (LT y4 (fun b Hbb => proj2 (proj2 (ST b Hbb)))) as G4.
  rewrite G1. destruct (mixture_pos h Hdt) as (P0 & P1 & P2 & P3 & P4 & P5). pose proof (mixture_sum h) as PS.
  set (g2 := social_pull st rel r y2) in *. set (g3 := social_pull st rel r y3) in *. set (g4 := social_pull st rel r y4) in *. set (x := opinion_of md i).
  assert (P4' : 0 < mix4 h) by (unfold mix4; lra).
  assert (EC : C + decay h * (x - C) = decay h * x + mix1 h * C + mix2 h * C + mix3 h * C + mix4 h * C).
  { transitivity (decay h * x + (1 - decay h) * C); [ring|]. rewrite <- PS. ring. }
  rewrite EC. assert (mix2 h * g2 <= mix2 h * C) by (apply Rmult_le_compat_l; lra). assert (mix3 h * g3 <= mix3 h * C) by (apply Rmult_le_compat_l; lra).
  assert (mix4 h * g4 < mix4 h * C) by (apply Rmult_lt_compat_l; lra). lra.
Qed.

(** *** Two agents in mean-field mode *)
Hypothesis Hpow : lpow RA lm = Rpow.
Lemma two_probability (st : ad_settings (F RA)) (l : list (activity_agent (F RA))) i j x : length l = 2%nat -> (i < 2)%nat -> (j < 2)%nat -> i <> j ->
  nth_error l i = Some x -> (a_activity x <= 1)%R -> (contact_count (a:=RA) st i <= 1)%nat ->
  contact_probability (a:=RA) lm (activity_ops (F RA)) st l i j = INR (contact_count (a:=RA) st i).
Proof using Hpow.
  intros HL Hi Hj Hne Ex Ha Hc. unfold contact_probability. rewrite Ex.
  assert (Hm : fmax RA (f1 RA) (get_activity (activity_ops (F RA)) x) = 1).
  { unfold fmax. cbn [flt f1 RA get_activity activity_ops]. destruct (Rltb_spec 1 (a_activity x)) as [C|C]; auto. exfalso. exact (Rlt_irrefl 1 (Rlt_le_trans _ _ _ C Ha)). }
  destruct (C45_shares_sum_to_one lm Hpow (activity_ops (F RA)) st l i ltac:(rewrite HL; exact Hi) ltac:(rewrite HL; apply le_n)) as (S1 & _ & S2).
  assert (Sh : share (a:=RA) lm (activity_ops (F RA)) st l i j = 1).
  { rewrite HL in S1. cbn [seq map] in S1. assert (S3 : forall u v : R, Rsum [u; v] = u + v) by (intros; rewrite !Rsum_cons, Rsum_nil; ring).
    pose proof (eq_trans (eq_sym (S3 _ _)) S1) as S4.
    destruct i as [|[|i]]; destruct j as [|[|j]]; try lia; rewrite S2 in S4.
    - rewrite Rplus_0_l in S4. exact S4.
    - rewrite Rplus_0_r in S4. exact S4. }
  rewrite Sh, Hm. cbn [fmul RA]. rewrite Rmult_1_l. eapply eq_trans; [apply (rounds_R lm Hpow 1 (contact_count (a:=RA) st i)); lra|].
  destruct (contact_count (a:=RA) st i) as [|[|c]]; [reflexivity| |lia]. cbn [seq map plus pow]. rewrite Rsum_cons, Rsum_nil. cbn. lra.
Qed.
Lemma two_rows (md md' : activity_model) s s' : ad_ready md -> mean_weights (ad_set md) = true -> n_agents (ad_net md) = 2%nat ->
  Forall (fun x : R => x <= 1) (map a_activity (agents (ad_net md))) ->
  (contact_count (a:=RA) (ad_set md) 0 <= 1)%nat -> (contact_count (a:=RA) (ad_set md) 1 <= 1)%nat ->
  activity_iteration (a:=RA) lm g q md s = Ok (md', s') ->
  let c0 := INR (contact_count (a:=RA) (ad_set md) 0) in let c1 := INR (contact_count (a:=RA) (ad_set md) 1) in let rc := reciprocity (ad_set md) in
  row (ad_net md') 0 = [(0%nat, 0); (1%nat, c1 + (1 - c1) * rc * c0)] /\ row (ad_net md') 1 = [(0%nat, c0 + (1 - c0) * rc * c1); (1%nat, 0)].
Proof using Hpow Hq.
  intros Hr Hm HL Ha H0 H1 E c0 c1 rc. destruct (C45_activity_weights (a:=RA) lm g q md md' s s' Hq Hr Hm E) as (D1 & D2 & D3).
  unfold n_agents in HL.
  destruct (agents (ad_net md)) as [|x0 [|x1 [|? ?]]] eqn:El; try discriminate HL. 
  assert (A0 : (a_activity x0 <= 1)%R) by (inversion Ha; auto). assert (A1 : (a_activity x1 <= 1)%R) by (inversion Ha as [|? ? ? Ha']; inversion Ha'; auto).
  pose proof (two_probability (ad_set md) [x0; x1] 0 1 x0 eq_refl ltac:(lia) ltac:(lia) ltac:(lia) eq_refl A0 H0) as P0.
  pose proof (two_probability (ad_set md) [x0; x1] 1 0 x1 eq_refl ltac:(lia) ltac:(lia) ltac:(lia) eq_refl A1 H1) as P1.
  assert (MN : mean_network (a:=RA) lm (activity_ops (F RA)) (ad_set md) [x0; x1] (ad_net md')) by (split; [exact D1|split; [exact D2|exact D3]]).
  assert (SZ : forall i w, (i < 2)%nat -> In (i, w) (row (ad_net md') i) -> w = 0).
  { intros i w Hi Hin. exact (C45_self_weight_zero lm Hpow (activity_ops (F RA)) (ad_set md) [x0; x1] (ad_net md') i w MN Hi (le_n _) Hin). }
  pose proof (D3 0%nat ltac:(cbn; lia)) as R0. pose proof (D3 1%nat ltac:(cbn; lia)) as R1. cbn [length seq map] in R0, R1.
  set (W := mean_weight (a:=RA) (reciprocity (ad_set md)) (contact_probability (a:=RA) lm (activity_ops (F RA)) (ad_set md) [x0; x1])) in *.
  assert (S0 : W 0%nat 0%nat = 0) by (apply (SZ 0%nat); [lia|]; rewrite R0; apply in_eq).
  assert (S1 : W 1%nat 1%nat = 0) by (apply (SZ 1%nat); [lia|]; rewrite R1; apply in_cons, in_eq).
  pose proof (C45_weight_formula (reciprocity (ad_set md)) (contact_probability (a:=RA) lm (activity_ops (F RA)) (ad_set md) [x0; x1]) 0 1) as W01.
  pose proof (C45_weight_formula (reciprocity (ad_set md)) (contact_probability (a:=RA) lm (activity_ops (F RA)) (ad_set md) [x0; x1]) 1 0) as W10.
  rewrite P0, P1 in W01, W10. split.
  - eapply eq_trans; [exact R0|]. rewrite S0. exact (f_equal (fun w : R => [(0%nat, 0); (1%nat, w)]) W01).
  - eapply eq_trans; [exact R1|]. rewrite S1. exact (f_equal (fun w : R => [(0%nat, w); (1%nat, 0)]) W10).
Qed.
(** One bot that always contacts one agent, which contacts nobody: the agent's opinion follows the solution of
    x' = -x + K/reluctance * tanh(alpha * b), the formula of the project's one-bot test, up to errors that
    vanish with the time step. *)
Theorem C77_one_bot k (md : activity_model) s b : ad_ready md -> 0 < dt (ad_set md) <= 1 -> mean_weights (ad_set md) = true ->
  n_agents (ad_net md) = 2%nat -> Forall (fun x : R => x <= 1) (map a_activity (agents (ad_net md))) ->
  n_bots (ad_set md) = 1%nat -> contact_count (a:=RA) (ad_set md) 0 = 1%nat -> contact_count (a:=RA) (ad_set md) 1 = 0%nat -> reciprocity (ad_set md) = 0 ->
  nth 0 (bot_opinion (ad_set md)) 0 = b -> opinion_of md 0 = b ->
  let C := K (ad_set md) / reluctance_of md 1 * tanh (alpha (ad_set md) * b) in
  exists md' s', activity_run (a:=RA) lm g q k md s = Ok (md', s') /\ opinion_of md' 0 = b /\
  Rabs (opinion_of md' 1 - ((opinion_of md 1 - C) * exp (- (INR k * dt (ad_set md))) + C))
    <= Rabs (K (ad_set md) / reluctance_of md 1) * Rabs (alpha (ad_set md)) * (3 * dt (ad_set md) * Rabs b)
       + Rabs (opinion_of md 1 - C) * (INR k * (dt (ad_set md) ^ 5 / 120)).
Proof using Htanh Hq Hpow.
  intros Hr Hdt Hm HL Ha Hnb H0 H1 Hrc Hbo Hob C.
  destruct (activity_run_ready (a:=RA) lm g q k md s Hq Hr) as (md' & s' & E & _). exists md', s'. split; auto.
  assert (Hbp : bots_in_place md). { intros u Hu. rewrite Hnb in Hu. assert (u = 0%nat) by lia. subst u. now rewrite Hob, Hbo. }
  assert (HR : forall j mdj sj, (1 <= j <= k)%nat -> activity_run (a:=RA) lm g q j md s = Ok (mdj, sj) ->
    row (ad_net mdj) 0 = [(0%nat, 0); (1%nat, 0)] /\ row (ad_net mdj) 1 = [(0%nat, 1); (1%nat, 0)]).
  { intros j mdj sj Hj Ej. destruct j as [|j]; [lia|]. pose proof Ej as Ej'. rewrite run_snoc in Ej'. apply bind_ok_inv in Ej' as ([md1 s1] & E1 & E2).
    destruct (run_track lm g q Hq (fun _ _ => True) md s j md1 s1 Hr I) as [_ (F1 & F2 & F3 & F4 & F5)]; auto.
    destruct (two_rows md1 mdj s1 sj F1 ltac:(now rewrite F2) ltac:(now rewrite F3) ltac:(now rewrite F5) ltac:(rewrite F2; lia) ltac:(rewrite F2; lia) E2) as (R0 & R1).
    rewrite F2, H0, H1, Hrc in R0, R1. cbn [INR] in R0, R1. split.
    - rewrite R0. assert (G : forall u v : R, u = v -> [(0%nat, 0); (1%nat, u)] = [(0%nat, 0); (1%nat, v)]) by (intros ? ? ->; reflexivity). apply G. ring.
    - rewrite R1. assert (G : forall u v : R, u = v -> [(0%nat, u); (1%nat, 0)] = [(0%nat, v); (1%nat, 0)]) by (intros ? ? ->; reflexivity). apply G. ring. }
  split.
  { destruct (run_track lm g q Hq (fun j mdj => opinion_of mdj 0 = b) md s k md' s' Hr) as [H _]; auto.
    intros j mdj sj mdj' sj' Hj Ej (F1 & F2 & F3 & F4 & _) E1 Ej' Q. destruct (step_stages lm g q Htanh Hq mdj mdj' sj sj' F1 E1) as (y2 & y3 & y4 & HS).
    destruct (HS 0%nat ltac:(rewrite F3; lia)) as (_ & _ & _ & _ & E6). rewrite E6 by (rewrite F2; lia). now rewrite F2. }
  assert (HT : forall u v : R, total_weight [(0%nat, u); (1%nat, v)] = Rabs u + Rabs v) by (intros; unfold total_weight; cbn [map snd]; rewrite !Rsum_cons, Rsum_nil; ring).
  assert (T0 : total_weight [(0%nat, 0); (1%nat, 0)] = 0) by (rewrite HT, Rabs_R0; ring).
  assert (T1 : total_weight [(0%nat, 1); (1%nat, 0)] = 1) by (rewrite HT, Rabs_R0, Rabs_R1; ring).
  assert (EC : bot_target (ad_set md) (reluctance_of md 1) [(0%nat, 1); (1%nat, 0)] = C).
  { unfold bot_target, social_pull, C. cbn [map fst snd]. rewrite !Rsum_cons, Rsum_nil, Hbo. ring. }
  pose proof (C77_run k md md' s s' 1 [(0%nat, 1); (1%nat, 0)] (Rabs b) (Rabs_pos b) Hr Hdt Hbp E ltac:(rewrite Hnb, HL; lia)) as P.
  specialize (P ltac:(intros j mdj sj Hj Ej; apply (HR j mdj sj Hj Ej))).
  rewrite Hnb in P. specialize (P ltac:(unfold hears_only_bots; rewrite Hnb; constructor; [right; cbn; lia|constructor; [left; reflexivity|constructor]])).
  specialize (P ltac:(intros u Hu; assert (u = 0%nat) by lia; subst u; split; [rewrite Hbo; apply Rle_refl|
    intros j mdj sj Hj Ej; rewrite (proj1 (HR j mdj sj Hj Ej)), T0, Rmult_0_r; apply Rabs_pos])).
  rewrite EC, T1 in P. destruct P as [_ P]. rewrite Rmult_1_r, <- Rmult_assoc in P. rewrite (Rplus_comm (_ * exp _) C). exact P.
Qed.

(** ** C78 *)
(** If |K / reluctance| * (total incoming weight) * |alpha| never exceeds [c], one iteration shrinks the
    largest absolute opinion by the factor 1 - dt/2 * (1 - c * (1 + 2/3 dt^2)). *)
Theorem C78_step (md md' : activity_model) s s' c M : ad_ready md -> 0 < dt (ad_set md) <= 1 -> 0 <= c <= 1 -> 0 <= M ->
  activity_iteration (a:=RA) lm g q md s = Ok (md', s') ->
  (forall b, (b < n_bots (ad_set md))%nat -> nth b (bot_opinion (ad_set md)) 0 = 0) ->
  (forall i, (i < n_agents (ad_net md))%nat ->
     Rabs (K (ad_set md) / reluctance_of md i) * total_weight (row (ad_net md') i) * Rabs (alpha (ad_set md)) <= c) ->
  (forall i, (i < n_agents (ad_net md))%nat -> Rabs (opinion_of md i) <= M) ->
  forall i, (i < n_agents (ad_net md))%nat ->
    Rabs (opinion_of md' i) <= (1 - dt (ad_set md) / 2 * (1 - c * (1 + 2 / 3 * dt (ad_set md) ^ 2))) * M.
Proof using Htanh Hq.
  intros Hr Hdt Hc HM E HB HW Hx i Hi. destruct (step_stages lm g q Htanh Hq md md' s s' Hr E) as (y2 & y3 & y4 & HS).
  destruct (step_frame lm g q Hq md md' s s' Hr E) as (_ & _ & _ & _ & _ & HF).
  destruct (HS i Hi) as (_ & _ & _ & E5 & E6).
  destruct (le_lt_dec (n_bots (ad_set md)) i) as [Hb|Hb].
  - pose proof (rk4_contracts (n_agents (ad_net md)) (opinion_of md) y2 y3 y4 (fun _ => 0)
      (fun u y => social_pull (ad_set md) (reluctance_of md u) (row (ad_net md') u) y) (dt (ad_set md)) c M (5 / 2 * M) Hdt Hc HM (Rle_refl _)) as P.
    rewrite (E5 Hb). rewrite <- (Rminus_0_r (_ + _)). apply P; auto.
    + intros u y e Hu He Hy. rewrite Rminus_0_r. eapply Rle_trans; [apply (pull_small _ _ _ _ e)|].
      * specialize (HF u Hu). eapply Forall_impl; [|exact HF]. cbv beta. intros p Hp. rewrite <- (Rminus_0_r (y _)). now apply Hy.
      * rewrite <- Rmult_assoc. apply Rmult_le_compat_r; [apply He|apply HW; exact Hu].
    + intros j Hj. rewrite Rminus_0_r. now apply Hx.
    + intros j Hj. destruct (HS j Hj) as (F2 & F3 & F4 & _). now repeat split.
  - rewrite (E6 Hb), (HB i Hb), Rabs_R0. apply Rmult_le_pos; auto. revert Hdt. generalize (dt (ad_set md)). intros h Hdt. change R in h.
    assert (0 <= h ^ 2) by (apply pow_le; lra). assert (0 <= c * (1 + 2 / 3 * h ^ 2)) by (apply Rmult_le_pos; lra). nra.
Qed.

Definition weakly_coupled (c : R) (k : nat) (md : activity_model) s : Prop :=
  forall i, (i < n_agents (ad_net md))%nat ->
    rows_along k md s i (fun r => Rabs (K (ad_set md) / reluctance_of md i) * total_weight r * Rabs (alpha (ad_set md)) <= c).

Theorem C78_run k (md md' : activity_model) s s' c M : ad_ready md -> 0 < dt (ad_set md) <= 1 -> 0 <= c <= 1 -> 0 <= M ->
  activity_run (a:=RA) lm g q k md s = Ok (md', s') ->
  (forall b, (b < n_bots (ad_set md))%nat -> nth b (bot_opinion (ad_set md)) 0 = 0) -> weakly_coupled c k md s ->
  (forall i, (i < n_agents (ad_net md))%nat -> Rabs (opinion_of md i) <= M) ->
  forall i, (i < n_agents (ad_net md))%nat ->
    Rabs (opinion_of md' i) <= (1 - dt (ad_set md) / 2 * (1 - c * (1 + 2 / 3 * dt (ad_set md) ^ 2))) ^ k * M.
Proof using Htanh Hq.
  intros Hr Hdt Hc HM E HB HW Hx.
  set (f := 1 - dt (ad_set md) / 2 * (1 - c * (1 + 2 / 3 * dt (ad_set md) ^ 2))).
  assert (Hf : 0 <= f). { unfold f. revert Hdt. generalize (dt (ad_set md)). intros h Hdt. change R in h.
    assert (0 <= h ^ 2) by (apply pow_le; lra). assert (0 <= c * (1 + 2 / 3 * h ^ 2)) by (apply Rmult_le_pos; lra). nra. }
  destruct (run_track lm g q Hq (fun j mdj => forall i, (i < n_agents (ad_net md))%nat -> Rabs (opinion_of mdj i) <= f ^ j * M) md s k md' s' Hr) as [H _]; auto.
  - intros i Hi. cbn. rewrite Rmult_1_l. now apply Hx.
  - intros j mdj sj mdj' sj' Hj Ej (F1 & F2 & F3 & F4 & _) E1 Ej' Q i Hi.
    pose proof (C78_step mdj mdj' sj sj' c (f ^ j * M) F1) as P. rewrite F2, F3 in P. cbn [pow]. rewrite Rmult_assoc.
    apply P; auto.
    + apply Rmult_le_pos; auto. now apply pow_le.
    + intros u Hu. rewrite F4. apply (HW u Hu (S j) mdj' sj'); auto. lia.
Qed.

(** With c * (1 + 2/3 dt^2) < 1, opinions converge to neutral, uniformly over the random choices. *)
Theorem C78_neutral_consensus (h c M : R) : 0 < h <= 1 -> 0 <= c -> c * (1 + 2 / 3 * h ^ 2) < 1 -> 0 <= M ->
  forall eps, 0 < eps -> exists k0, forall k (md md' : activity_model) s s', (k0 <= k)%nat -> dt (ad_set md) = h -> ad_ready md ->
  activity_run (a:=RA) lm g q k md s = Ok (md', s') ->
  (forall b, (b < n_bots (ad_set md))%nat -> nth b (bot_opinion (ad_set md)) 0 = 0) -> weakly_coupled c k md s ->
  (forall i, (i < n_agents (ad_net md))%nat -> Rabs (opinion_of md i) <= M) ->
  forall i, (i < n_agents (ad_net md))%nat -> Rabs (opinion_of md' i) < eps.
Proof using Htanh Hq.
  intros Hh Hc Hc1 HM eps He. set (f := 1 - h / 2 * (1 - c * (1 + 2 / 3 * h ^ 2))).
  assert (Hs : 0 <= h ^ 2) by (apply pow_le; lra). assert (Hc0 : 0 <= c * (1 + 2 / 3 * h ^ 2)) by (apply Rmult_le_pos; lra).
  assert (Hcc : c <= 1) by nra.
  assert (Hf : 0 <= f < 1) by (unfold f; split; nra).
  destruct (pow_lt_1_zero f ltac:(rewrite Rabs_right; lra) (eps / (M + 1)) ltac:(apply Rdiv_lt_0_compat; lra)) as [k0 Hk0].
  exists k0. intros k md md' s s' Hk Ed Hr E HB HW Hx i Hi.
  pose proof (C78_run k md md' s s' c M Hr) as P. rewrite Ed in P. specialize (P Hh (conj Hc Hcc) HM E HB HW Hx i Hi). fold f in P.
  specialize (Hk0 k Hk). assert (0 <= f ^ k) by (apply pow_le; lra). rewrite Rabs_right in Hk0 by lra.
  eapply Rle_lt_trans; [exact P|]. apply Rle_lt_trans with (f ^ k * (M + 1)); [nra|].
  apply Rmult_lt_reg_r with (/ (M + 1)); [apply Rinv_0_lt_compat; lra|]. rewrite Rmult_assoc, Rinv_r by lra. rewrite Rmult_1_r. exact Hk0.
Qed.

(** Settings that bound the incoming weights by the number of agents: the probabilistic network, or the
    mean-field network with at most two contacts per agent and activities and reciprocity within [0,1]. *)
Definition moderate (md : activity_model) : Prop :=
  mean_weights (ad_set md) = false \/
  mean_weights (ad_set md) = true /\ (2 <= n_agents (ad_net md))%nat /\ 0 <= reciprocity (ad_set md) <= 1 /\
  Forall (fun x : R => x <= 1) (map a_activity (agents (ad_net md))) /\
  (forall i, (i < n_agents (ad_net md))%nat -> (contact_count (a:=RA) (ad_set md) i <= 2)%nat).

Lemma moderate_weight (md md' : activity_model) s s' i : ad_ready md -> moderate md ->
  activity_iteration (a:=RA) lm g q md s = Ok (md', s') -> (i < n_agents (ad_net md))%nat ->
  total_weight (row (ad_net md') i) <= INR (n_agents (ad_net md)).
Proof using Hq Hpow.
  intros Hr [Hm|(Hm & Hn & Hrc & Ha & Hc)] E Hi; [exact (probabilistic_in_weight lm g q md md' s s' i Hq Hr Hm E Hi)|].
  destruct (C45_activity_weights (a:=RA) lm g q md md' s s' Hq Hr Hm E) as (_ & _ & H). specialize (H i Hi). rewrite H. unfold n_agents in *.
  set (l := agents (ad_net md)) in *. set (P := contact_probability (a:=RA) lm (activity_ops (F RA)) (ad_set md) l).
  assert (PB : forall u v, (u < length l)%nat -> (v < length l)%nat -> 0 <= P u v <= 1).
  { intros u v Hu Hv. destruct (nth_error l u) as [x|] eqn:Ex. 2:{ apply nth_error_None in Ex. lia. }
    apply (C46_two_contacts lm Hpow (activity_ops (F RA)) (ad_set md) l u v x); auto.
    rewrite Forall_forall in Ha. apply (Ha (a_activity x)). apply in_map. eapply nth_error_In; eauto. }
  assert (L : forall js, (forall j, In j js -> (j < length l)%nat) ->
     total_weight (map (fun j => (j, mean_weight (a:=RA) (reciprocity (ad_set md)) P i j)) js) <= INR (length js)).
  { induction js as [|j js IH]; intros Hj; [apply Rle_refl|]. unfold total_weight in *. cbn [map length]. rewrite Rsum_cons, S_INR, Rplus_comm.
    apply Rplus_le_compat; [apply IH; intros; apply Hj; now right|]. cbn [snd].
    rewrite (C45_weight_formula (reciprocity (ad_set md)) P i j).
    assert (Q : forall u v r : R, 0 <= u <= 1 -> 0 <= v <= 1 -> 0 <= r <= 1 -> Rabs (u + (1 - u) * r * v) <= 1).
    { intros u v r Hu Hv Hr'. apply abs_le_iff. assert (0 <= r * v <= 1) by nra. replace ((1 - u) * r * v) with ((1 - u) * (r * v)) by ring. split; nra. }
    apply Q; auto; apply PB; auto; apply Hj; now left. }
  specialize (L (seq 0 (length l))). rewrite seq_length in L. apply L. intros j Hj. apply in_seq in Hj. lia.
Qed.

Theorem C78_settings k (md : activity_model) s c M : ad_ready md -> 0 < dt (ad_set md) <= 1 -> 0 <= c <= 1 -> 0 <= M -> moderate md ->
  (forall b, (b < n_bots (ad_set md))%nat -> nth b (bot_opinion (ad_set md)) 0 = 0) ->
  (forall i, (i < n_agents (ad_net md))%nat ->
     Rabs (K (ad_set md) / reluctance_of md i) * INR (n_agents (ad_net md)) * Rabs (alpha (ad_set md)) <= c) ->
  (forall i, (i < n_agents (ad_net md))%nat -> Rabs (opinion_of md i) <= M) ->
  exists md' s', activity_run (a:=RA) lm g q k md s = Ok (md', s') /\ forall i, (i < n_agents (ad_net md))%nat ->
    Rabs (opinion_of md' i) <= (1 - dt (ad_set md) / 2 * (1 - c * (1 + 2 / 3 * dt (ad_set md) ^ 2))) ^ k * M.
Proof using Htanh Hq Hpow.
  intros Hr Hdt Hc HM Hmod HB HW Hx. destruct (activity_run_ready (a:=RA) lm g q k md s Hq Hr) as (md' & s' & E & _).
  exists md', s'. split; auto. apply (C78_run k md md' s s' c M); auto.
  intros i Hi j mdj sj Hj Ej. destruct j as [|j]; [lia|]. pose proof Ej as Ej'. rewrite run_snoc in Ej'. apply bind_ok_inv in Ej' as ([md1 s1] & E1 & E2).
  destruct (run_track lm g q Hq (fun _ _ => True) md s j md1 s1 Hr I) as [_ (F1 & F2 & F3 & F4 & F5)]; auto.
  eapply Rle_trans; [|apply (HW i Hi)]. apply Rmult_le_compat_r; [apply Rabs_pos|]. apply Rmult_le_compat_l; [apply Rabs_pos|].
  rewrite <- F3 in Hi |- *. eapply (moderate_weight md1 mdj s1 sj); eauto.
  unfold moderate in *. rewrite F2, F3, F5. exact Hmod.
Qed.
End Relax.

(** ** Concrete populations *)
Definition two_silent : activity_model := complete_model (field_settings (1/10) 0 3 (1/2) 3 0 [] []) [mkActivity 1 1 1; mkActivity (-2) 1 1].
Example C76_instance k : ad_ready two_silent /\ silent two_silent /\ exists md' s',
  activity_run (a:=RA) real_libm mid_rng (list_pq RA) k two_silent 0%nat = Ok (md', s') /\
  opinion_of md' 0 = decay (1/10) ^ k * 1 /\ opinion_of md' 1 = decay (1/10) ^ k * -2.
Proof.
  assert (Hr : ad_ready two_silent) by (apply complete_ready; [apply field_fit; cbn; try lia; constructor|cbn; lia|cbn; lia]).
  assert (Hs : silent two_silent) by (intros i Hi; reflexivity).
  split; [exact Hr|]. split; [exact Hs|].
  destruct (C76_silent_population real_libm mid_rng (list_pq RA) (fun _ => eq_refl) (list_pq_bag RA) k two_silent 0%nat (proj2 C16_contracts_met) Hr Hs ltac:(cbn; lra)) as (md' & s' & E & H).
  exists md', s'. split; [exact E|]. split; [exact (proj1 (H 0%nat ltac:(cbn; lia)))|exact (proj1 (H 1%nat ltac:(cbn; lia)))].
Qed.

(** "Opinions of a population without contacts stay bounded" fails: a time step of 3 makes them grow. *)
Theorem C76_bounded_for_every_time_step_refuted :
  ~ (forall (md : activity_model) s i, ad_ready md -> silent md -> 0 < dt (ad_set md) -> (n_bots (ad_set md) <= i < n_agents (ad_net md))%nat ->
       exists B, forall k md' s', activity_run (a:=RA) real_libm mid_rng (list_pq RA) k md s = Ok (md', s') -> Rabs (opinion_of md' i) <= B).
Proof.
  intros Claim. set (md := complete_model (field_settings 3 0 3 (1/2) 3 0 [] []) [mkActivity 1 1 1; mkActivity (-2) 1 1] : activity_model).
  assert (Hr : ad_ready md) by (apply complete_ready; [apply field_fit; cbn; try lia; constructor|cbn; lia|cbn; lia]).
  assert (Hs : silent md) by (intros i Hi; reflexivity).
  destruct (Claim md 0%nat 0%nat Hr Hs ltac:(cbn; lra) ltac:(cbn; lia)) as [B HB].
  assert (G : forall k, (11 / 8) ^ k <= B).
  { intros k. destruct (activity_run_ready (a:=RA) real_libm mid_rng (list_pq RA) k md 0%nat (list_pq_bag RA) Hr) as (md' & s' & E & _).
    specialize (HB k md' s' E).
    assert (HW : rows_along real_libm mid_rng (list_pq RA) k md 0%nat 0 (fun r => total_weight r = 0)).
    { intros j mdj sj Hj Ej. destruct j as [|j]; [lia|]. pose proof Ej as Ej'. rewrite run_snoc in Ej'. apply bind_ok_inv in Ej' as ([md1 s1] & E1 & E2).
      destruct (run_track real_libm mid_rng (list_pq RA) (list_pq_bag RA) (fun _ _ => True) md 0%nat j md1 s1 Hr I) as [_ (F1 & F2 & F3 & F4 & F5)]; auto.
      eapply (silent_rows real_libm mid_rng (list_pq RA) (list_pq_bag RA) md1 mdj s1 sj 0 (proj2 C16_contracts_met)); eauto; [|rewrite F3; cbn; lia].
      unfold silent in *. rewrite F2. change (mean_weights (ad_set md)) with true. cbv beta iota. intros u Hu. reflexivity. }
    pose proof (C76_large_time_step_diverges real_libm mid_rng (list_pq RA) (fun _ => eq_refl) (list_pq_bag RA) k md md' 0%nat s' 0 Hr ltac:(cbn; lra) E ltac:(cbn; lia) HW) as P.
    change (opinion_of md 0) with 1 in P. rewrite Rabs_R1, Rmult_1_r in P. lra. }
  destruct (Pow_x_infinity (11 / 8) ltac:(rewrite Rabs_right; lra) (B + 1)) as [N HN]. specialize (HN N (le_n _)). specialize (G N).
  rewrite Rabs_right in HN; [lra|]. apply Rle_ge, pow_le. lra.
Qed.

Definition bot_and_agent : activity_model :=
  complete_model (field_settings (1/10) 0 (3/2) 0 2 1 [1%Z] [2]) [mkActivity 2 1 1; mkActivity (-1) 1 (3/2)].
Lemma bot_and_agent_ready : ad_ready bot_and_agent.
Proof. apply complete_ready; [apply field_fit; cbn; try lia; constructor; [lia|constructor]|cbn; lia|cbn; lia]. Qed.
Example C77_instance k : exists md' s',
  activity_run (a:=RA) real_libm mid_rng (list_pq RA) k bot_and_agent 0%nat = Ok (md', s') /\ opinion_of md' 0 = 2 /\
  let C := 2 / (3/2) * tanh (3/2 * 2) in
  Rabs (opinion_of md' 1 - ((-1 - C) * exp (- (INR k * (1/10))) + C)) <=
   Rabs (2 / (3/2)) * Rabs (3/2) * (3 * (1/10) * Rabs 2) + Rabs (-1 - C) * (INR k * ((1/10) ^ 5 / 120)).
Proof.
  exact (C77_one_bot real_libm mid_rng (list_pq RA) (fun _ => eq_refl) (list_pq_bag RA) eq_refl k bot_and_agent 0%nat 2
    bot_and_agent_ready ltac:(cbn; lra) eq_refl eq_refl ltac:(repeat constructor; cbn; lra) eq_refl eq_refl eq_refl eq_refl eq_refl eq_refl).
Qed.

(** "Bots are fixed during an iteration", that is, agents hearing only bots follow the Runge-Kutta solution
    for constant bot opinions: false. *)
Theorem C77_bots_fixed_within_iteration_refuted :
  ~ (forall (md md' : activity_model) s s' i, ad_ready md -> 0 < dt (ad_set md) <= 1 -> bots_in_place md ->
       activity_iteration (a:=RA) real_libm mid_rng (list_pq RA) md s = Ok (md', s') -> (n_bots (ad_set md) <= i < n_agents (ad_net md))%nat ->
       hears_only_bots (ad_set md) (row (ad_net md') i) ->
       let C := bot_target (ad_set md) (reluctance_of md i) (row (ad_net md') i) in
       opinion_of md' i = C + decay (dt (ad_set md)) * (opinion_of md i - C)).
Proof.
  intros Claim.
  destruct (activity_iteration_ok (a:=RA) real_libm mid_rng (list_pq RA) bot_and_agent 0%nat (list_pq_bag RA) bot_and_agent_ready) as (md' & s' & _ & _ & E & _).
  destruct (two_rows real_libm mid_rng (list_pq RA) (list_pq_bag RA) eq_refl bot_and_agent md' 0%nat s' bot_and_agent_ready eq_refl eq_refl
    ltac:(repeat constructor; cbn; lra) ltac:(cbn; lia) ltac:(cbn; lia) E) as (R0 & R1).
  assert (C0 : contact_count (a:=RA) (ad_set bot_and_agent) 0 = 1%nat) by reflexivity.
  assert (C1 : contact_count (a:=RA) (ad_set bot_and_agent) 1 = 0%nat) by reflexivity.
  rewrite C0, C1 in R0, R1. change (reciprocity (ad_set bot_and_agent)) with 0 in R0, R1. cbn [INR] in R0, R1.
  assert (Hbp : bots_in_place bot_and_agent) by (intros u Hu; assert (u = 0%nat) by (cbn in Hu; lia); subst u; reflexivity).
  assert (W1 : 1 + (1 - 1) * 0 * 0 = 1) by ring. assert (W0 : 0 + (1 - 0) * 0 * 1 = 0) by ring. 
  assert (R1' : row (ad_net md') 1 = [(0%nat, 1); (1%nat, 0)]) by (rewrite R1; exact (f_equal (fun u : R => [(0%nat, u); (1%nat, 0)]) W1)).
  assert (R0' : row (ad_net md') 0 = [(0%nat, 0); (1%nat, 0)]) by (rewrite R0; exact (f_equal (fun u : R => [(0%nat, 0); (1%nat, u)]) W0)).
  pose proof (Claim bot_and_agent md' 0%nat s' 1%nat bot_and_agent_ready ltac:(cbn; lra) Hbp E ltac:(cbn; lia)) as P.
  rewrite R1' in P. specialize (P ltac:(constructor; [right; cbn; lia|constructor; [left; reflexivity|constructor]])).
  pose proof (C77_bots_move_within_an_iteration real_libm mid_rng (list_pq RA) (fun _ => eq_refl) (list_pq_bag RA) bot_and_agent md' 0%nat s' 1
    bot_and_agent_ready ltac:(cbn; lra) Hbp E ltac:(cbn; lia) ltac:(cbn; lra) ltac:(cbn; lra)) as Q.
  rewrite R1' in Q. specialize (Q ltac:(constructor; [right; cbn; split; [lra|lia]|constructor; [left; reflexivity|constructor]]) ltac:(constructor; cbn; lra)).
  specialize (Q ltac:(intros u Hu; assert (u = 0%nat) by (cbn in Hu; lia); subst u; split; [cbn; lra|
    rewrite R0'; apply weights_zero; intros p [<-|[<-|[]]]; reflexivity])).
  cbv zeta in P, Q. rewrite P in Q. exact (Rlt_irrefl _ Q).
Qed.

Definition weak_pair : activity_model :=
  complete_model (field_settings (1/10) 1 (1/4) (1/2) 1 0 [] []) [mkActivity 3 (1/2) 1; mkActivity (-1) (1/2) 1].
Example C78_instance k : exists md' s',
  activity_run (a:=RA) real_libm mid_rng (list_pq RA) k weak_pair 0%nat = Ok (md', s') /\ forall i, (i < 2)%nat ->
    Rabs (opinion_of md' i) <= (1 - 1/10 / 2 * (1 - 1/2 * (1 + 2 / 3 * (1/10) ^ 2))) ^ k * 3.
Proof.
  apply (C78_settings real_libm mid_rng (list_pq RA) (fun _ => eq_refl) (list_pq_bag RA) eq_refl k weak_pair 0%nat (1/2) 3).
  - apply complete_ready; [apply field_fit; cbn; try lia; constructor|cbn; lia|cbn; lia].
  - cbn. lra.
  - lra.
  - lra.
  - right. split; [reflexivity|]. split; [cbn; lia|]. split; [cbn; lra|]. split; [repeat constructor; cbn; lra|]. intros i Hi. cbn. lia.
  - intros b Hb. cbn in Hb. lia.
  - intros i Hi. cbn in Hi. assert (Er : reluctance_of weak_pair i = 1) by (destruct i as [|[|i]]; [reflexivity|reflexivity|lia]). rewrite Er.
    cbn. rewrite !Rabs_right; lra.
  - intros i Hi. cbn in Hi. destruct i as [|[|i]]; [| |lia]; cbn; [rewrite Rabs_right|rewrite Rabs_left]; lra.
Qed.

Print Assumptions C76_silent_population.
Print Assumptions C76_bounded_for_every_time_step_refuted.
Print Assumptions C77_run.
Print Assumptions C77_one_bot.
Print Assumptions C77_bots_fixed_within_iteration_refuted.
Print Assumptions C78_neutral_consensus.
Print Assumptions C78_settings.
