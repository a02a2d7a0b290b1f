(** Proofs: the program started on the files of a saved state is in that state. *)
From Verif Require Import Base BaseFacts Arith64 MRandom SRandom MNetwork SNetwork PNetwork2 MNetGen TNetGen MText SText PText MNetFile PNetFile MAgents PAgents TFiles MDeGroot SDeGroot PDeGroot TDeGroot
  MDeffuant MActivity SActivity PActMean PActInit PActIter2 MConfig SConfig PConfig TConfig MSimulation SSimulation PSimulation PSimulation2 TSimulation SRestart PRestart.

Section Restart.
Context {a : Arith} (w : world a).
Notation D := (F a).
Notation lm := (w_lm w). Notation g := (w_gen w). Notation q := (w_pq w).
Hypothesis (HS : sample_ok (w_gen w)) (HI : SRandom.int_ok (w_gen w)) (HQ : pq_bag (w_pq w)).

(** The configuration describes the model of [x], which is deterministic. *)
Definition continues (o' : options D) (x : model (a:=a)) : Prop :=
  match opt_settings o', x with
  | DeGrootSettings _, MDeGroot _ => True
  | ActivityDrivenSettings st, MActivity d => mean_weights (ad_set d) = true /\ with_limit None (ad_set d) = with_limit None st
  | ActivityDrivenInertialSettings st, MInertial d => mean_weights (ad_set (im_ad d)) = true /\
      with_limit None (ad_set (im_ad d)) = with_limit None (in_activity st) /\ friction_coefficient d = in_friction st
  | _, _ => False
  end.
Definition bots_ready (x : model (a:=a)) : Prop :=
  match x with
  | MActivity d => n_bots (ad_set d) <= length (bot_activity (ad_set d))
  | MInertial d => n_bots (ad_set (im_ad d)) <= length (bot_activity (ad_set (im_ad d)))
  | _ => True
  end.
Definition short_rows (x : model (a:=a)) : Prop :=
  (Z.of_nat (n_agents (net_of x)) < 2 ^ 31)%Z /\
  forall i, i < n_agents (net_of x) -> (Z.of_nat (length (nrow (net_of x) i)) <= 2147483647)%Z.

(** Where the numbers stand in the files. *)
Definition sub (t c : text) : Prop := exists p r, c = p ++ t ++ r.
Lemma sub_refl t : sub t t. Proof using. exists [], []. now rewrite app_nil_r. Qed.
Lemma sub_trans t u c : sub t u -> sub u c -> sub t c.
Proof using. intros (p & r & ->) (p' & r' & ->). exists (p' ++ p), (r ++ r'). now rewrite <- !app_assoc. Qed.
Lemma sub_app_l t u c : sub t u -> sub t (u ++ c).
Proof using. intros (p & r & ->). exists p, (r ++ c). now rewrite <- !app_assoc. Qed.
Lemma sub_app_r t u c : sub t u -> sub t (c ++ u).
Proof using. intros (p & r & ->). exists (c ++ p), r. now rewrite <- !app_assoc. Qed.
Lemma sub_cons t u c : sub t u -> sub t (c :: u).
Proof using. intros H. exact (sub_app_r t u [c] H). Qed.
Lemma sub_concat t p ps : In p ps -> sub t p -> sub t (concat ps).
Proof using. intros Hin H. apply in_split in Hin as (l1 & l2 & ->). rewrite concat_app. cbn [concat]. apply sub_app_r, sub_app_l, H. Qed.
Lemma sub_pad k s : sub (space :: s) (space :: pad k s).
Proof using.
  unfold pad. assert (E : forall n, space :: repeat space n ++ s = repeat space n ++ space :: s).
  { induction n as [|n IH]; [reflexivity|]. cbn [repeat app]. now rewrite IH. }
  rewrite E. exists (repeat space (k - length s)), []. now rewrite app_nil_r.
Qed.
Lemma sub_prefix t u : sub (space :: t) (space :: t ++ u).
Proof using. exists [], u. reflexivity. Qed.
Lemma appears_sub c y : sub (space :: w_fmt w y) c -> appears w c y.
Proof using. intros (p & r & ->). exists p, r. reflexivity. Qed.

Lemma ok_inj {X} (x y : X) : Ok x = Ok y -> x = y.
Proof using. now intros [= ->]. Qed.
Lemma weight_appears {A} (h : network A D) c i y : wf h -> network_to_file (w_fmt w) h = Ok c -> i < n_agents h -> In y (wrow h i) -> appears w c y.
Proof using.
  intros Hw E Hi Hy. rewrite (to_file_eq (w_fmt w) h Hw) in E. apply ok_inj in E. rewrite <- E. apply appears_sub. apply sub_app_r, sub_cons.
  eapply sub_concat; [apply in_map, in_seq; split; [apply Nat.le_0_l|exact Hi]|]. apply sub_app_l. unfold body, columns. rewrite join_cons. apply sub_app_r.
  eapply sub_concat; [apply (in_map (fun q => comma :: q)); right; apply in_app_iff; right; apply in_map; exact Hy|].
  apply sub_cons. apply sub_pad.
Qed.
Lemma agent_appears {A} cols (ts : A -> text) (l : list A) c x t : agents_to_file cols (fun x => Ok (ts x)) l = Ok c -> In x l -> sub t (space :: ts x) -> sub t c.
Proof using.
  intros E Hx Hs. rewrite (agents_to_file_eq cols (fun x => Ok (ts x)) l (map ts l)) in E.
  2: { clear. induction l; cbn; constructor; auto. }
  apply ok_inj in E. rewrite <- E. apply In_nth_error in Hx as (i & Hi). apply sub_app_r.
  eapply sub_concat; [apply in_map, (in_seq _ _ i); split; [apply Nat.le_0_l|apply nth_error_Some; congruence]|].
  apply sub_app_l. unfold arow. apply sub_app_r.
  rewrite (nth_error_nth (map ts l) i [] (map_nth_error ts i l Hi)). cbn [lit String.list_ascii_of_string app]. apply sub_cons.
  eapply sub_trans; [exact Hs|]. apply sub_pad.
Qed.

Lemma agents_back k (l : list (agent_of D k)) c : k <> Vector -> readable w c -> write_agents w k l = Ok c -> read_agents w k c = Ok l.
Proof using.
  intros HK HF E. pose proof E as E0. revert E. destruct k; cbn [write_agents read_agents agent_of] in *.
  - apply C21_simple_agents. apply Forall_forall. intros y Hy. apply HF, appears_sub. eapply agent_appears; [exact E0|exact Hy|]. apply sub_refl.
  - apply C21_activity_agents. apply Forall_forall. intros y Hy.
    assert (G : forall u, sub (space :: w_fmt w u) (space :: activity_to_string (w_fmt w) y) -> printable (w_fmt w) (w_stod w) u).
    { intros u Hu. apply HF, appears_sub. eapply agent_appears; [exact E0|exact Hy|exact Hu]. }
    unfold activity_to_string in G. cbn [lit String.list_ascii_of_string app] in G.
    split; [apply G, sub_prefix|]. split; apply G; apply sub_cons.
    + apply sub_app_r. apply sub_cons, sub_prefix.
    + apply sub_app_r, sub_cons, sub_cons, sub_app_r, sub_cons, sub_refl.
  - apply C21_inertial_agents. apply Forall_forall. intros y Hy.
    assert (G : forall u, sub (space :: w_fmt w u) (space :: inertial_to_string (w_fmt w) y) -> printable (w_fmt w) (w_stod w) u /\ length (w_fmt w u) <= 1000).
    { intros u Hu. apply HF, appears_sub. eapply agent_appears; [exact E0|exact Hy|exact Hu]. }
    unfold inertial_to_string in G. cbn [lit String.list_ascii_of_string app] in G.
    assert (G1 := G (i_opinion y) (sub_prefix _ _)).
    assert (G2 := G (i_velocity y)). assert (G3 := G (i_activity y)). assert (G4 := G (i_reluctance y)).
    destruct G2 as [G2 L2]; [apply sub_cons, sub_app_r, sub_cons, sub_prefix|].
    destruct G3 as [G3 L3]; [apply sub_cons, sub_app_r, sub_cons, sub_cons, sub_app_r, sub_cons, sub_prefix|].
    destruct G4 as [G4 L4]; [apply sub_cons, sub_app_r, sub_cons, sub_cons, sub_app_r, sub_cons, sub_cons, sub_app_r, sub_cons, sub_refl|].
    destruct G1 as [G1 L1]. split; [exact G1|]. split; [exact G2|]. split; [exact G3|]. split; [exact G4|].
    unfold inertial_to_string. rewrite !app_length. cbn [lit String.list_ascii_of_string length]. lia.
  - congruence.
Qed.

Lemma network_back k (d : agent_of D k) {A} (h : network A D) c : readable w c -> wf h -> (Z.of_nat (n_agents h) < 2 ^ 31)%Z ->
  (forall i, i < n_agents h -> (Z.of_nat (length (nrow h i)) <= 2147483647)%Z) -> fits c -> network_to_file (w_fmt w) h = Ok c ->
  generate_from_file d (w_stod w) c = Ok (mkNet (repeat d (n_agents h)) (neigh h) (wts h) Incoming).
Proof using.
  intros HF Hw Hn Hr HC E. 
  set (h' := mkNet (repeat d (n_agents h)) (neigh h) (wts h) Incoming).
  assert (N : n_agents h' = n_agents h) by (unfold n_agents at 1, h'; cbn [agents]; now rewrite repeat_length).
  assert (E' : network_to_file (w_fmt w) h' = Ok c).
  { rewrite <- E. unfold network_to_file. rewrite N. reflexivity. }
  rewrite (round_trip d (w_fmt w) (w_stod w) h' c); [rewrite N; reflexivity| | | | |exact HC|exact E'].
  - destruct Hw as (W1 & W2 & W3 & W4). unfold wf. unfold n_agents in N. rewrite N. auto.
  - intros i y Hi Hy. rewrite N in Hi. apply HF. exact (weight_appears h c i y Hw E Hi Hy).
  - rewrite N. lia.
  - rewrite N. exact Hr.
Qed.

Lemma limit_fit (st st' : ad_settings D) n : with_limit None st = with_limit None st' -> settings_fit st n -> n_bots st <= n -> n_bots st <= length (bot_opinion st) -> n_bots st <= length (bot_activity st) ->
  settings_fit st' n /\ n_bots st' <= n /\ n_bots st' <= length (bot_opinion st') /\ n_bots st' <= length (bot_activity st').
Proof using.
  intros E H1 H2 H3 H4.
  change (settings_fit (with_limit None st) n) in H1. change (n_bots (with_limit None st) <= n) in H2.
  change (n_bots (with_limit None st) <= length (bot_opinion (with_limit None st))) in H3.
  change (n_bots (with_limit None st) <= length (bot_activity (with_limit None st))) in H4. rewrite E in H1, H2, H3, H4.
  split; [exact H1|]. split; [exact H2|]. split; [exact H3|exact H4].
Qed.

Lemma ad_ready_put {A} (md : ad_model (a:=a) A) l : ad_ready md -> length l = n_agents (ad_net md) ->
  ad_ready (mkAD (ad_base md) (ad_set md) (with_agents (ad_net md) l) (contact_prob_list md)).
Proof using.
  intros (R1 & R2 & R3 & R4 & R5 & R6) HL. unfold ad_ready. cbn [ad_set ad_net contact_prob_list].
  assert (N : n_agents (with_agents (ad_net md) l) = n_agents (ad_net md)) by exact HL.
  rewrite N. split; [now apply wf_swap|]. split; [exact R2|]. split; [exact R3|]. split; [exact R4|]. split; [exact R5|].
  intros Hm. destruct (R6 Hm) as [[Q1 Q2] Q3]. split; [|exact Q3]. split; rewrite N; auto.
Qed.

Lemma restart_state (o' : options D) x fn fa cn ca : matching o' -> readable w cn -> readable w ca -> sim_ready x -> short_rows x -> bots_ready x -> continues o' x ->
  network_to_file (w_fmt w) (net_of x) = Ok cn -> fits cn -> write_agents w (kind_of x) (agents (net_of x)) = Ok ca ->
  w_read w fn = Ok cn -> w_read w fa = Ok ca ->
  exists y s', main_simulation w o' (Some fn) (Some fa) = Ok (y, s') /\ agree x y /\ sim_ready y /\
    (kind_of x = Simple -> agree_graph x y) /\ max_iterations (base_of y) = option_map to_size_t (configured_limit o').
Proof using.
  intros HM HFn HF [Hw HR] [Hn Hr] HB HC EN HFit EA Rn Ra.
  destruct (main_simulation_needs w o' (Some fn) (Some fa) HM) as (k & HK & ->). unfold simulation_ctor. cbv zeta. unfold create_network. rewrite Rn. cbn [bind].
  rewrite (network_back k (default_agent k) (net_of x) cn HFn Hw Hn Hr HFit EN). cbn [bind].
  set (h := mkNet (repeat (default_agent k) (n_agents (net_of x))) (neigh (net_of x)) (wts (net_of x)) Incoming).
  assert (N : n_agents h = n_agents (net_of x)) by (unfold n_agents at 1, h; cbn [agents]; now rewrite repeat_length).
  assert (Wh : wf h). { destruct Hw as (W1 & W2 & W3 & W4). unfold wf. unfold n_agents in N. rewrite N. auto. }
  unfold create_model, matching, needs, continues, configured_limit in *.
  destruct (opt_model o'), (opt_settings o') as [ds|st|st|ds]; try contradiction; destruct x as [d|d|d|d|d]; try contradiction; subst k.
  - cbn [create_model_degroot get_degroot bind].
    destruct (C25_constructor a (dg_max_iterations ds) (dg_convergence_tol ds) h Wh) as (y & wn & E & R & G1 & G2 & G3 & N2 & I & M & T & _).
    rewrite E. cbn [bind]. rewrite Ra. cbn [bind]. cbn [kind_of net_of] in *. rewrite (agents_back Simple _ ca ltac:(discriminate) HF EA). cbn [bind put_agents].
    eexists _, _. split; [reflexivity|].
    assert (R' : ready (mkDeGroot (dg_base y) (convergence_tol y) (max_opinion_diff y) (with_agents (dg_net y) (agents (dg_net d))) (agents_current_copy y))).
    { destruct R as [R1 R2]. split; cbn [dg_net agents_current_copy].
      - apply wf_swap; [exact R1|]. unfold n_agents in *. cbn [agent_of] in *. congruence.
      - unfold n_agents at 1. cbn [agents with_agents]. unfold n_agents in *. cbn [agent_of] in *. congruence. }
    split; [cbn [agree]; split; [exact HR|]; split; [exact R'|]; cbn [dg_net agents neigh wts with_agents]; rewrite G1, G2; auto|].
    split; [split; [apply R'|exact R']|]. split; [|exact M]. intros _. split; cbn [net_of kind_of dg_net neigh wts with_agents]; rewrite ?G1, ?G2; reflexivity.
  - destruct HC as [Hm EL]. cbn [create_model_activity_driven get_activity_driven bind]. cbn [net_of kind_of bots_ready] in *.
    destruct (HR) as (_ & _ & R3 & R4 & R5 & _).
    destruct (limit_fit (ad_set d) st (n_agents (ad_net d)) EL R3 R4 R5 HB) as (G1 & G2 & G3 & G4).
    apply (fun H => eq_ind_r (settings_fit st) H N) in G1. apply (fun H => eq_ind_r (fun z => n_bots st <= z) H N) in G2.
    destruct (ctor_ok lm g (activity_ops D) (default_agent Activity) st h (w_seed w (opt_rng_seed o')) Wh eq_refl G1 G2 G3 G4) as (md & s' & E & R & S1 & B & AG & _).
    change (default_agent (a:=a) Activity) with (mkActivity (f0 a) (f0 a) (f1 a)) in *. cbn [default_agent]. 
    match goal with |- context [ad_ctor ?l0 ?g0 ?o0 ?d0 ?s0 ?h0 ?r0] => replace (ad_ctor l0 g0 o0 d0 s0 h0 r0) with (Ok (md, s')) by (symmetry; exact E) end.
    cbn [bind]. rewrite Ra. cbn [bind kind_of]. rewrite (agents_back Activity _ ca ltac:(discriminate) HF EA). cbn [bind put_agents].
    eexists _, _. split; [reflexivity|].
    assert (NM : n_agents (ad_net md) = n_agents (ad_net d)).
    { unfold n_agents at 1. rewrite AG, with_bot_values_length, drawn_agents_length. exact N. }
    pose proof (ad_ready_put md (agents (ad_net d)) R (eq_sym NM)) as R'.
    split; [cbn [agree]; split; [exact HR|]; split; [exact R'|]; cbn [ad_set ad_net agents with_agents]; rewrite S1; auto|].
    split; [split; [apply R'|exact R']|]. split; [intros ?; discriminate|]. cbn [base_of ad_base]. rewrite B. reflexivity.
  - destruct HC as (Hm & EL & EF). cbn [create_model_activity_driven_inertial get_inertial bind]. unfold inertial_ctor. cbn [net_of kind_of bots_ready] in *.
    destruct (HR) as (_ & _ & R3 & R4 & R5 & _).
    destruct (limit_fit (ad_set (im_ad d)) (in_activity st) (n_agents (ad_net (im_ad d))) EL R3 R4 R5 HB) as (G1 & G2 & G3 & G4).
    apply (fun H => eq_ind_r (settings_fit (in_activity st)) H N) in G1. apply (fun H => eq_ind_r (fun z => n_bots (in_activity st) <= z) H N) in G2.
    destruct (ctor_ok lm g (inertial_ops D) (default_agent Inertial) (in_activity st) h (w_seed w (opt_rng_seed o')) Wh eq_refl G1 G2 G3 G4) as (md & s' & E & R & S1 & B & AG & _).
    match goal with |- context [ad_ctor ?l0 ?g0 ?o0 ?d0 ?s0 ?h0 ?r0] => replace (ad_ctor l0 g0 o0 d0 s0 h0 r0) with (Ok (md, s')) by (symmetry; exact E) end.
    cbn [bind]. rewrite Ra. cbn [bind kind_of]. rewrite (agents_back Inertial _ ca ltac:(discriminate) HF EA). cbn [bind put_agents im_ad friction_coefficient].
    eexists _, _. split; [reflexivity|].
    assert (NM : n_agents (ad_net md) = n_agents (ad_net (im_ad d))).
    { unfold n_agents at 1. rewrite AG, with_bot_values_length, drawn_agents_length. exact N. }
    pose proof (ad_ready_put md (agents (ad_net (im_ad d))) R (eq_sym NM)) as R'.
    split; [cbn [agree im_ad friction_coefficient]; split; [exact HR|]; split; [exact R'|]; cbn [ad_set ad_net agents with_agents]; rewrite S1; auto|].
    split; [split; [apply R'|exact R']|]. split; [intros ?; discriminate|]. cbn [base_of im_ad ad_base]. rewrite B. reflexivity.
Qed.

Lemma mean_row {A} (md : ad_model (a:=a) A) i : ad_ready md -> mean_weights (ad_set md) = true -> (Z.of_nat (n_agents (ad_net md)) < 2 ^ 31)%Z -> i < n_agents (ad_net md) ->
  (Z.of_nat (length (nrow (ad_net md) i)) <= 2147483647)%Z.
Proof using.
  intros (_ & _ & _ & _ & _ & R6) Hm Hn Hi. destruct (R6 Hm) as [[M1 _] _]. unfold nrow. rewrite M1.
  rewrite (nth_error_nth _ _ _ (nth_error_repeat_lt _ _ _ _ Hi)), seq_length. lia.
Qed.

(** What is needed of the saved state holds along the first run. *)
Definition restartable (o o' : options D) (x : model (a:=a)) : Prop :=
  sim_ready x /\ short_rows x /\ bots_ready x /\ continues o' x.

Lemma restartable_step o o' x s x' s' : restartable o o' x -> model_iteration w x s = Ok (x', s') -> restartable o o' x'.
Proof using HS HI HQ.
  intros (R & [S1 S2] & B & C) E. destruct (iteration_ready w HS HI HQ x s R) as (x1 & s1 & E1 & R1 & N1 & P1). rewrite E in E1. injection E1 as <- <-.
  assert (K : agree x x). { destruct R as [_ R]. unfold continues in C. destruct (opt_settings o'), x as [d|d|d|d|d]; try contradiction; cbn [agree]; intuition auto. }
  destruct (agree_step w HQ x x s s x' x' s' s' K E E) as [K' _].
  unfold restartable. split; [exact R1|].
  assert (Q : bots_ready x' /\ continues o' x' /\ (kind_of x = Simple -> neigh (net_of x') = neigh (net_of x))).
  { unfold continues in *. destruct (opt_settings o') as [ds|st|st|ds], x as [d|d|d|d|d]; try contradiction; cbn [model_iteration] in E.
    - destruct R as [_ R]. rewrite (iteration_ok a d R) in E. cbn [bind] in E. injection E as <- <-. cbn. auto.
    - destruct R as [_ R]. destruct (activity_iteration_ok lm g q d s HQ R) as (d' & sd & h1 & c1 & I1 & Q1 & _ & T1 & _). rewrite I1 in E. cbn [bind] in E. injection E as <- <-.
      cbn [bots_ready]. rewrite T1. split; [exact B|]. split; [exact C|discriminate].
    - destruct R as [_ R]. destruct (inertial_iteration_ok lm g q d s HQ R) as (d' & sd & h1 & c1 & I1 & Q1 & _ & T1 & T2 & _). rewrite I1 in E. cbn [bind] in E. injection E as <- <-.
      cbn [bots_ready]. rewrite T1, T2. split; [exact B|]. split; [exact C|discriminate]. }
  destruct Q as (Q1 & Q2 & Q3). split; [|split; [exact Q1|exact Q2]].
  split; [rewrite N1; exact S1|]. rewrite N1. intros i Hi.
  unfold continues in Q2. destruct (opt_settings o') as [ds|st|st|ds], x' as [d|d|d|d|d]; try contradiction.
  - destruct (iteration_base w _ _ _ _ E) as [_ KK]. unfold nrow. rewrite Q3 by (rewrite <- KK; reflexivity). apply S2. exact Hi.
  - destruct R1 as [_ R1]. exact (mean_row d i R1 (proj1 Q2) ltac:(rewrite <- N1 in S1; exact S1) ltac:(rewrite <- N1 in Hi; exact Hi)).
  - destruct R1 as [_ R1]. exact (mean_row (im_ad d) i R1 (proj1 Q2) ltac:(rewrite <- N1 in S1; exact S1) ltac:(rewrite <- N1 in Hi; exact Hi)).
Qed.
Lemma restartable_init o o' x : restartable o o' x -> restartable o o' (model_initialize_iterations x).
Proof using. destruct x; exact (fun H => H). Qed.
Lemma restartable_traj o o' st k : trajectory w st k -> restartable o o' (fst (st 0)) -> forall i, i <= k -> restartable o o' (fst (st i)).
Proof using HS HI HQ.
  intros T H0. induction i as [|i IH]; intros Hi; [exact H0|]. destruct (T i ltac:(lia)) as [_ E]. destruct (st (S i)) as [x s].
  eapply restartable_step; [apply IH; lia|exact E].
Qed.

Lemma restartable_first (o o' : options D) : matching o -> sizes_fit o -> same_deterministic_model o o' ->
  exists x s, main_simulation w o None None = Ok (x, s) /\ restartable o o' x.
Proof using HS HI HQ.
  intros HM HF HD. destruct (main_simulation_needs w o None None HM) as (k & HK & ->). unfold simulation_ctor. cbv zeta.
  pose proof HF as (F1 & F2 & F3 & F4).
  assert (EN : exists net s', create_network w k o None (w_seed w (opt_rng_seed o)) = Ok (net, s') /\ wf net /\ dir net = Incoming /\
    Z.of_nat (n_agents net) = net_n_agents (opt_network o) /\ forall i, i < n_agents net -> (Z.of_nat (length (nrow net i)) <= 2147483647)%Z).
  { unfold create_network. rewrite F1.
    assert (EN : to_size_t (to_int32 (net_n_agents (opt_network o))) = net_n_agents (opt_network o)).
    { unfold to_int32, to_size_t. rewrite (Z.mod_small _ (2 ^ 32)) by lia.
      destruct (Z.ltb_spec (net_n_agents (opt_network o)) 2147483648); [|lia]. rewrite Z.mod_small; lia. }
    rewrite EN.
    destruct (C15_n_connections a g (agent_of D k) (default_agent k) (Z.to_nat (net_n_agents (opt_network o)))
      (Z.to_nat (net_n_connections (opt_network o))) true (w_seed w (opt_rng_seed o)) HS ltac:(lia)) as (G & s' & E & Hw & Ha & Hd & HG).
    assert (NN : n_agents G = Z.to_nat (net_n_agents (opt_network o))) by (unfold n_agents; now rewrite Ha, repeat_length).
    exists G, s'. split; [exact E|]. split; auto. split; auto. split; [lia|]. rewrite NN. intros i Hi.
    destruct (HG i Hi) as (out & G1 & G2 & _). unfold get_neighbours in G1. unfold nrow. destruct (nth_error (neigh G) i) as [row|] eqn:ER; [|unfold vget in G1; rewrite ER in G1; discriminate].
    unfold vget in G1. rewrite ER in G1. injection G1 as ->. rewrite (nth_error_nth _ _ _ ER), app_length. cbn [length]. lia. }
  destruct EN as (net & s' & E & Hw & Hd & Hn & Hrow). rewrite E. cbn [bind].
  destruct (create_ok w HI k o net s' HF HM HK Hw Hd Hn) as (x & s2 & E2 & R & RA & I & M & N). exists x, s2. split; [exact E2|].
  split; [exact R|].
  assert (Q : bots_ready x /\ continues o' x).
  { unfold same_deterministic_model, runs_as, continues, bots_ready in *.
    destruct (opt_settings o) as [ds|st|st|ds], (opt_settings o') as [ds'|st'|st'|ds'], x as [d|d|d|d|d]; try contradiction; auto.
    - rewrite RA. split; [apply F4|exact HD].
    - destruct RA as [RA1 RA2]. rewrite RA1, RA2. split; [apply F4|exact HD]. }
  destruct Q as [Q1 Q2]. split; [|split; [exact Q1|exact Q2]].
  split; [rewrite N; lia|]. rewrite N. intros i Hi.
  unfold continues in Q2. destruct (opt_settings o') as [ds|st|st|ds], x as [d|d|d|d|d]; try contradiction.
  - unfold create_model in E2. match type of E2 with bind ?m0 _ = _ => destruct m0 as [[x0 s0]| | |] eqn:E0; try discriminate end. cbn [bind] in E2. injection E2 as -> ->.
    unfold matching, needs, runs_as in *. destruct (opt_model o), (opt_settings o) as [ds'|st'|st'|ds']; try contradiction. subst k.
    cbn [create_model_degroot get_degroot bind] in E0.
    destruct (C25_constructor a (dg_max_iterations ds') (dg_convergence_tol ds') net Hw) as (y & wn & EC & _ & G1 & _).
    rewrite EC in E0. cbn [bind] in E0. injection E0 as <- _. exact (eq_ind_r (fun z => (Z.of_nat (length (nth i z [])) <= 2147483647)%Z) (Hrow i Hi) G1).
  - destruct R as [_ R1]. assert (HH : (Z.of_nat (n_agents (net_of (MActivity d))) < 2 ^ 31)%Z) by (rewrite N; lia). exact (mean_row d i R1 (proj1 Q2) HH ltac:(rewrite <- N in Hi; exact Hi)).
  - destruct R as [_ R1]. assert (HH : (Z.of_nat (n_agents (net_of (MInertial d))) < 2 ^ 31)%Z) by (rewrite N; lia). exact (mean_row (im_ad d) i R1 (proj1 Q2) HH ltac:(rewrite <- N in Hi; exact Hi)).
Qed.
End Restart.
