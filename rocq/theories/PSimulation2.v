(** Proofs: creating a simulation and iterating it never fails for configurations whose sizes fit. *)
From Verif Require Import Base BaseFacts Arith64 MRandom SRandom MNetwork SNetwork PNetwork2 MNetGen TNetGen MText PText MNetFile MAgents TFiles MDeGroot SDeGroot TDeGroot MDeffuant SDeffuant PDeffuant PDeffuantV TDeffuant TDeffuantV MActivity SActivity PActInit PActIter2 MConfig SConfig MSimulation SSimulation PSimulation.

Section Ready.
Context {a : Arith} (w : world a).
Notation state := (model (a:=a) * rst (w_gen w))%type.
Hypothesis (HS : sample_ok (w_gen w)) (HI : SRandom.int_ok (w_gen w)) (HQ : pq_bag (w_pq w)).

(** The state of a simulation between iterations. *)
Definition sim_ready (x : model (a:=a)) : Prop :=
  wf (net_of x) /\
  match x with
  | MDeGroot y => ready y
  | MDeffuant y => can_select (use_network y) (df_net y)
  | MVector y => can_select (use_network y) (df_net y) /\
      exists dim, (Z.of_nat dim < 2147483648)%Z /\ vectors dim (fun _ _ => True) (agents (df_net y))
  | MActivity y => ad_ready y
  | MInertial y => ad_ready (im_ad y)
  end.

Lemma wf_swap {A W} (g : network A W) l : wf g -> length l = n_agents g -> wf (with_agents g l).
Proof. intros (W1 & W2 & W3 & W4) H. unfold wf, n_agents in *. cbn [agents neigh wts with_agents]. rewrite H. auto. Qed.

(** The same model, with the same parameters and population. *)
Definition same_run (x x' : model (a:=a)) : Prop :=
  n_agents (net_of x') = n_agents (net_of x) /\ forall o, runs_as o x -> runs_as o x'.
Lemma same_run_refl x : same_run x x. Proof. split; auto. Qed.
Lemma same_run_trans x y z : same_run x y -> same_run y z -> same_run x z.
Proof. intros [A1 A2] [B1 B2]. split; [congruence|auto]. Qed.

Lemma iteration_ready x s : sim_ready x -> exists x' s', model_iteration w x s = Ok (x', s') /\ sim_ready x' /\ same_run x x'.
Proof.
  destruct x as [d|d|d|d|d]; cbn [model_iteration]; intros [Hw HR]; cbn [net_of kind_of] in Hw.
  - destruct (C25_synchronous_step a d HR) as (d' & E & R & N & _ & _ & _ & _ & _ & T & _). rewrite E. cbn [bind]. eexists _, _. split; [reflexivity|].
    split; [split; [apply R|exact R]|]. split; [exact N|]. unfold runs_as. intros o. now rewrite T.
  - destruct (C29_iteration_is_n_encounters a (w_gen w) d s HS HI HR) as (d' & s' & ps & E & _ & _ & _ & N1 & N2 & N3 & N4 & HT & HM & U & _).
    rewrite E. cbn [bind]. eexists _, _. split; [reflexivity|].
    assert (Q : wf (df_net d')). { destruct Hw as (W1 & W2 & W3 & W4). unfold wf, n_agents in *. rewrite N1, N2, N4. auto. }
    split; [|split; [exact N4|unfold runs_as; intros o; now rewrite HT, HM, U]].
    split; [exact Q|]. rewrite U. destruct HR as [->|(_ & H1 & H2)]; [now left|]. right. rewrite N1, N4. auto.
  - destruct HR as [HC (dim & HD & HV)].
    destruct (iteration_inv (w_gen w) HS HI (update_rule_vector (w_gen w) (homophily_threshold d) (mu d)) d s (vectors dim (fun _ _ => True)) HC HV) as (l' & s' & E & HL & HV').
    { intros i j l s0 (V1 & V2 & _) HLl Hl. cbn [fst snd] in V1, V2.
      destruct (update_vectors a (w_gen w) (homophily_threshold d) (mu d) dim (fun _ _ => True) i j l s0 HD ltac:(lia) ltac:(lia) Hl) as (l' & s' & E & A1 & A2 & _). eauto. }
    unfold vector_iteration. rewrite E. cbn [bind]. eexists _, _. split; [reflexivity|].
    split; [|split; [exact HL|auto]].
    split; [now apply wf_swap|]. cbn [use_network df_net]. split; [now apply can_select_ext|]. exists dim. auto.
  - destruct (activity_iteration_ok (w_lm w) (w_gen w) (w_pq w) d s HQ HR) as (d' & s' & h & cpl & E & R & _ & S1 & _ & _ & _ & _ & _ & _ & _ & LA & _).
    rewrite E. cbn [bind]. eexists _, _. split; [reflexivity|]. split; [split; [apply R|exact R]|].
    split; [|unfold runs_as; intros o; now rewrite S1].
    apply (f_equal (@length _)) in LA. rewrite !map_length in LA. exact LA.
  - destruct (inertial_iteration_ok (w_lm w) (w_gen w) (w_pq w) d s HQ HR) as (d' & s' & h & cpl & E & R & _ & S1 & S2 & _ & _ & _ & _ & _ & _ & LA & _).
    rewrite E. cbn [bind]. eexists _, _. split; [reflexivity|]. split; [split; [apply R|exact R]|].
    split; [exact LA|unfold runs_as; intros o; now rewrite S1, S2].
Qed.

Lemma ready_init x : sim_ready x -> sim_ready (model_initialize_iterations x).
Proof. destruct x; exact (fun H => H). Qed.

Lemma write_network_ok x n : sim_ready x -> exists f, write_network w x n = Ok f.
Proof. intros [H _]. unfold write_network. destruct (C19_network_file_written _ _ (w_fmt w) _ H) as (c & ->). cbn. eauto. Qed.
Lemma write_opinions_ok (x : model (a:=a)) n : exists f, write_opinions w x n = Ok f.
Proof.
  unfold write_opinions.
  assert (G : exists c, write_agents w (kind_of x) (agents (net_of x)) = Ok c).
  { generalize (agents (net_of x)). destruct (kind_of x); cbn [agent_of write_agents]; intros l; apply C21_agents_written; eauto.
    intros y _. destruct y as [[|o os]]; [eexists; reflexivity|]. rewrite (PAgents.vector_to_string_eq o os). eauto. }
  destruct G as (c & ->). cbn. eauto.
Qed.

Definition nonzero (every : option Z) : Prop := every <> Some 0%Z.
Lemma due_defined every start n : nonzero every -> exists b, due every start n = Ok b.
Proof.
  unfold due, nonzero. destruct every as [k|]; [|eauto]. intros H. destruct (start <=? n)%Z; [|eauto].
  destruct (Z.eqb_spec k 0); [subst; congruence|eauto].
Qed.

(** The loop runs until the limit. *)
Lemma run_loop_total os lim : nonzero (n_output_agents os) -> nonzero (n_output_network os) ->
  forall fuel x s log j, sim_ready x -> n_iterations x = Z.of_nat j -> max_iterations (base_of x) = Some (Z.of_nat lim) ->
  (Z.of_nat lim < 2 ^ 64)%Z -> j <= lim -> lim - j < fuel ->
  exists x' s' log', run_loop w fuel os x s log = Ok (x', s', log') /\ sim_ready x' /\ same_run x x'.
Proof.
  intros Z1 Z2. induction fuel as [|fuel IH]; intros x s log j HR HJ HM HB Hj HF; [lia|]. cbn [run_loop].
  destruct (model_finished x) eqn:EF; [exists x, s, log; auto using same_run_refl|].
  assert (j < lim).
  { destruct (Nat.eq_dec j lim) as [->|]; [|lia]. exfalso. rewrite (finished_limit x) in EF; [discriminate|].
    apply base_finished_spec. eexists. split; [exact HM|]. unfold n_iterations in HJ. lia. }
  destruct (iteration_ready x s HR) as (x1 & s1 & E & R1 & SR). rewrite E. cbn [bind].
  destruct (iteration_base w _ _ _ _ E) as [B1 _].
  destruct (due_defined (n_output_agents os) (start_output os) (n_iterations x1) Z1) as (b1 & ->). cbn [bind].
  destruct (due_defined (n_output_network os) (start_output os) (n_iterations x1) Z2) as (b2 & E2).
  assert (J1 : n_iterations x1 = Z.of_nat (S j)).
  { unfold n_iterations in *. rewrite B1. cbn [base_iteration iterations]. rewrite HJ. unfold to_size_t. rewrite Z.mod_small; lia. }
  assert (M1 : max_iterations (base_of x1) = Some (Z.of_nat lim)) by (rewrite B1; exact HM).
  destruct (write_opinions_ok x1 (to_size_t (n_iterations x1 + start_numbering_from os))) as (f1 & F1).
  destruct (write_network_ok x1 (to_size_t (n_iterations x1 + start_numbering_from os)) R1) as (f2 & F2).
  destruct b1; rewrite ?F1; cbn [bind]; rewrite E2; cbn [bind]; destruct b2; rewrite ?F2; cbn [bind];
    match goal with |- context [run_loop w fuel os x1 s1 ?l] => destruct (IH x1 s1 l (S j)) as (x' & s' & log' & E' & R' & SR'); auto; try lia;
      exists x', s', log'; eauto using same_run_trans end.
Qed.

Lemma run_total os lim x s fuel : nonzero (n_output_agents os) -> nonzero (n_output_network os) -> sim_ready x ->
  max_iterations (base_of x) = Some (Z.of_nat lim) -> (Z.of_nat lim < 2 ^ 64)%Z -> lim < fuel ->
  exists x' s' log, run w fuel os x s = Ok (x', s', log) /\ sim_ready x' /\ same_run x x'.
Proof.
  intros Z1 Z2 HR HM HB HF. unfold run. destruct (init_iterations x) as (I1 & I2 & _).
  destruct (write_network_ok x (start_numbering_from os) HR) as (f1 & F1).
  destruct (write_opinions_ok x (start_numbering_from os)) as (f2 & F2).
  destruct (output_initial os); rewrite ?F1; cbn [bind]; rewrite ?F2; cbn [bind];
    (match goal with |- context [run_loop w fuel os ?x1 ?s1 ?l] =>
       destruct (run_loop_total os lim Z1 Z2 fuel x1 s1 l 0) as (x' & s' & log' & E' & R' & SR');
         [now apply ready_init|exact I1|congruence|lia|lia|lia|] end;
     exists x', s', log'; split; [exact E'|]; split; [exact R'|]; eapply same_run_trans; [|exact SR'];
     split; [destruct x; reflexivity|intros o; unfold runs_as; destruct (opt_settings o), x; auto]).
Qed.

(** Without a limit (and without DeGroot's criterion) it never stops. *)
Lemma run_loop_forever os : nonzero (n_output_agents os) -> nonzero (n_output_network os) ->
  forall fuel x s log, sim_ready x -> counts_only x -> max_iterations (base_of x) = None ->
  run_loop w fuel os x s log = NoFuel.
Proof.
  intros Z1 Z2. induction fuel as [|fuel IH]; intros x s log HR HC HM; [reflexivity|]. cbn [run_loop].
  rewrite finished_counts_only by auto. unfold base_finished. rewrite HM.
  destruct (iteration_ready x s HR) as (x1 & s1 & E & R1 & SR). rewrite E. cbn [bind].
  destruct (iteration_base w _ _ _ _ E) as [B1 _]. pose proof (counts_only_next w _ _ _ _ HC E) as C1.
  assert (M1 : max_iterations (base_of x1) = None) by (rewrite B1; exact HM).
  destruct (due_defined (n_output_agents os) (start_output os) (n_iterations x1) Z1) as (b1 & ->). cbn [bind].
  destruct (due_defined (n_output_network os) (start_output os) (n_iterations x1) Z2) as (b2 & E2).
  destruct (write_opinions_ok x1 (to_size_t (n_iterations x1 + start_numbering_from os))) as (f1 & F1).
  destruct (write_network_ok x1 (to_size_t (n_iterations x1 + start_numbering_from os)) R1) as (f2 & F2).
  destruct b1; rewrite ?F1; cbn [bind]; rewrite E2; cbn [bind]; destruct b2; rewrite ?F2; cbn [bind]; apply IH; auto.
Qed.

(** ** Creation *)
Lemma create_network_ok k (o : options (F a)) s : sizes_fit o ->
  exists net s', create_network w k o None s = Ok (net, s') /\ wf net /\ dir net = Incoming /\
    Z.of_nat (n_agents net) = net_n_agents (opt_network o).
Proof.
  intros (H1 & H2 & H3 & _). unfold create_network. rewrite H1.
  assert (EN : to_size_t (to_int32 (net_n_agents (opt_network o))) = net_n_agents (opt_network o)).
  { unfold to_int32, to_size_t. rewrite (Z.mod_small _ (2 ^ 32)) by lia.
    destruct (Z.ltb_spec (net_n_agents (opt_network o)) 2147483648); [|lia]. rewrite Z.mod_small; lia. }
  rewrite EN.
  destruct (C15_n_connections a (w_gen w) (agent_of (F a) k) (default_agent k) (Z.to_nat (net_n_agents (opt_network o)))
    (Z.to_nat (net_n_connections (opt_network o))) true s HS ltac:(lia)) as (G & s' & E & Hw & Ha & Hd & _).
  exists G, s'. split; [exact E|]. split; auto. split; auto. unfold n_agents. rewrite Ha, repeat_length. lia.
Qed.

Lemma init_simple_ok (l : list (simple_agent (F a))) : exists l', initialize_agents_simple l = Ok l' /\ length l' = length l.
Proof. change (initialize_agents_simple l) with (spread_opinions l). rewrite PDeGroot.spread_ok. eexists. split; [reflexivity|]. now rewrite map_length, seq_length. Qed.

Lemma activity_fit (st : ad_settings (F a)) n : (Z.of_nat n < 2 ^ 31)%Z -> activity_sizes st (Z.of_nat n) ->
  settings_fit st n /\ n_bots st <= n /\ n_bots st <= length (bot_opinion st) /\ n_bots st <= length (bot_activity st).
Proof.
  intros Hn (A1 & A2 & A3 & A4 & A5 & A6 & A7). split; [|split; [lia|auto]].
  unfold settings_fit. split; [lia|]. split; [lia|]. split; auto. split; auto. intros i Hi. specialize (A7 i Hi). lia.
Qed.

Lemma create_ok k (o : options (F a)) (net : network (agent_of (F a) k) (F a)) s : sizes_fit o -> matching o -> needs o k ->
  wf net -> dir net = Incoming -> Z.of_nat (n_agents net) = net_n_agents (opt_network o) ->
  exists x s', create_model w k net o None s = Ok (x, s') /\ sim_ready x /\ runs_as o x /\ n_iterations x = 0%Z /\
    max_iterations (base_of x) = option_map to_size_t (configured_limit o) /\ n_agents (net_of x) = n_agents net.
Proof.
  intros (_ & F2 & F3 & F4) HM HK Hw Hd Hn. unfold create_model, matching, needs, runs_as, configured_limit in *.
  destruct (opt_model o), (opt_settings o) as [d|st|st|d]; try contradiction.
  - subst k. cbn [create_model_degroot get_degroot bind].
    destruct (C25_constructor a (dg_max_iterations d) (dg_convergence_tol d) net Hw) as (y & wn & E & R & _ & _ & _ & N & I & M & T & _).
    rewrite E. cbn [bind]. eexists _, _. split; [reflexivity|]. split; [split; [apply R|exact R]|]. cbn [base_of n_iterations net_of kind_of].
    split; auto.
  - subst k. cbn [create_model_activity_driven get_activity_driven bind].
    rewrite <- Hn in F4. destruct (activity_fit st (n_agents net) ltac:(lia) F4) as (G1 & G2 & G3 & G4).
    destruct (ctor_ok (w_lm w) (w_gen w) (activity_ops (F a)) (default_agent Activity) st net s Hw Hd G1 G2 G3 G4) as (md & s' & E & R & S1 & B & AG & _).
    change (default_agent (a:=a) Activity) with (mkActivity (f0 a) (f0 a) (f1 a)) in *. cbn [default_agent]. rewrite E. cbn [bind]. eexists _, _. split; [reflexivity|].
    split; [split; [apply R|exact R]|]. split; auto. unfold n_iterations. cbn [base_of net_of kind_of]. rewrite B. cbn.
    split; auto. split; auto. unfold n_agents. rewrite AG, with_bot_values_length, drawn_agents_length. reflexivity.
  - subst k. cbn [create_model_activity_driven_inertial get_inertial bind]. unfold inertial_ctor.
    rewrite <- Hn in F4. destruct (activity_fit (in_activity st) (n_agents net) ltac:(lia) F4) as (G1 & G2 & G3 & G4).
    destruct (ctor_ok (w_lm w) (w_gen w) (inertial_ops (F a)) (default_agent Inertial) (in_activity st) net s Hw Hd G1 G2 G3 G4) as (md & s' & E & R & S1 & B & AG & _).
    cbn [default_agent] in *. rewrite E. cbn [bind]. eexists _, _. split; [reflexivity|].
    split; [split; [apply R|exact R]|]. split; auto. unfold n_iterations. cbn [base_of net_of kind_of im_ad]. rewrite B. cbn.
    split; auto. split; auto. unfold n_agents. rewrite AG, with_bot_values_length, drawn_agents_length. reflexivity.
  - destruct F4 as [F4 F5]. cbn [get_deffuant bind].
    assert (CT : forall (A : Type) (dd : A) (nt : network A (F a)), wf nt -> Z.of_nat (n_agents nt) = net_n_agents (opt_network o) ->
      exists y, deffuant_ctor dd (df_max_iterations d) (df_homophily_threshold d) (df_mu d) (df_use_network d) nt = Ok y /\
        wf (df_net y) /\ can_select (use_network y) (df_net y) /\ n_agents (df_net y) = n_agents nt /\
        use_network y = df_use_network d /\ homophily_threshold y = df_homophily_threshold d /\ mu y = df_mu d /\
        df_base y = base_ctor (df_max_iterations d)).
    { intros A dd nt Hwn Hnn. destruct (df_use_network d) eqn:EU.
      - destruct (F4 eq_refl) as (L & HL).
        assert (exists L', n_agents nt = L' * L') as (L' & HL') by (exists (Z.abs_nat L); nia).
        destruct (C37_square_population a A dd (df_max_iterations d) (df_homophily_threshold d) (df_mu d) nt L' HL' ltac:(lia)) as (y & G & E & EG & N & NN & CS & U & T & Mu & MX & IT).
        exists y. split; auto. split; [|split; [auto|split; [auto|split; [auto|split; [auto|split; [auto|]]]]]].
        + rewrite U in CS. destruct CS as [?|(? & _)]; [discriminate|auto].
        + destruct (df_base y) as [mx it]. cbn in MX, IT. subst mx it. reflexivity.
      - eexists. split; [reflexivity|]. cbn [df_net use_network homophily_threshold mu df_base]. repeat (split; auto). now left. }
    destruct (df_use_binary_vector d); subst k.
    + cbn [create_model_deffuant_vector get_deffuant bind]. cbn [agent_of] in *.
      destruct (CT _ (default_agent (a:=a) Vector) net Hw Hn) as (y & E & W & CS & N & U & T & Mu & B). cbn [default_agent agent_of] in E |- *. rewrite E. cbn [bind].
      destruct (C35_initial_vectors a (w_gen w) (Z.to_nat (df_dim d)) (agents (df_net y)) s HI) as (l' & s' & EL & LL & V).
      match goal with |- context [initialize_agents_vector ?g0 ?d0 ?l0 ?s0] => replace (initialize_agents_vector g0 d0 l0 s0) with (Ok (l', s')) by (symmetry; exact EL) end. cbn [bind put_agents]. eexists _, _. split; [reflexivity|]. cbn [net_of kind_of base_of df_net].
      split; [split; [now apply wf_swap|]|]. { cbn [use_network df_net]. split; [now apply can_select_ext|]. exists (Z.to_nat (df_dim d)). split; [lia|]. intros i x Hx. destruct (V i x Hx). auto. }
      split; [cbn; auto|]. unfold n_iterations. split; [exact (f_equal iterations B)|]. split; [exact (f_equal max_iterations B)|]. exact (eq_trans LL N).
    + cbn [create_model_deffuant get_deffuant bind]. cbn [agent_of] in *.
      destruct (CT _ (default_agent (a:=a) Simple) net Hw Hn) as (y & E & W & CS & N & U & T & Mu & B). cbn [default_agent agent_of] in E |- *. rewrite E. cbn [bind].
      destruct (init_simple_ok (agents (df_net y))) as (l' & EL & LL).
      match goal with |- context [initialize_agents_simple ?l0] => replace (initialize_agents_simple l0) with (Ok l') by (symmetry; exact EL) end. cbn [bind put_agents]. eexists _, _. split; [reflexivity|]. cbn [net_of kind_of base_of df_net].
      split; [split; [now apply wf_swap|]|]. { cbn [use_network df_net]. now apply can_select_ext. }
      split; [cbn; auto|]. unfold n_iterations. split; [exact (f_equal iterations B)|]. split; [exact (f_equal max_iterations B)|]. exact (eq_trans LL N).
Qed.

Lemma main_simulation_needs (o : options (F a)) nf af : matching o ->
  exists k, needs o k /\ main_simulation w o nf af = simulation_ctor w k o nf af.
Proof.
  unfold matching, needs, main_simulation. destruct (opt_model o), (opt_settings o) as [d|st|st|d]; try contradiction; intros _; eauto.
  cbn [get_deffuant bind]. destruct (df_use_binary_vector d); eauto.
Qed.

Lemma main_simulation_ok (o : options (F a)) : sizes_fit o -> matching o ->
  exists x s', main_simulation w o None None = Ok (x, s') /\ sim_ready x /\ runs_as o x /\ n_iterations x = 0%Z /\
    max_iterations (base_of x) = option_map to_size_t (configured_limit o) /\
    Z.of_nat (n_agents (net_of x)) = net_n_agents (opt_network o).
Proof.
  intros HF HM. destruct (main_simulation_needs o None None HM) as (k & HK & ->). unfold simulation_ctor.
  destruct (create_network_ok k o (w_seed w (opt_rng_seed o)) HF) as (net & s' & E & Hw & Hd & Hn). cbv zeta. rewrite E. cbn [bind].
  destruct (create_ok k o net s' HF HM HK Hw Hd Hn) as (x & s2 & E2 & R & RA & I & M & N). exists x, s2. split; auto. split; auto. split; auto. split; auto. split; auto. lia.
Qed.
End Ready.
