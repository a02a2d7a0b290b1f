(** Property theorems C55 (complete runs of the program), C56: input files from the command line; and
    concrete cases for C53-C56 and C59. *)
From Verif Require Import Base BaseFacts Arith64 RFacts MRandom SRandom WRandom MNetwork SNetwork PNetwork2 MNetGen TNetGen MText PText SText MNetFile MAgents TFiles MDeGroot SDeGroot PDeGroot TDeGroot MDeffuant SDeffuant TDeffuant MDist MActivity SActivity PActInit TActivity MConfig SConfig PConfig TConfig MSimulation SSimulation PSimulation PSimulation2 PQuiet TSimulation.
From Coq Require Import Reals Lra.

(** ** C55: from the configuration file *)
Section WholeRun.
Context {a : Arith} (w : world a).

(** The program, if it ends normally, has performed exactly the configured number of iterations. *)
Theorem C55_program_performs_the_limit fuel root seed network_file agent_file (o : options (F a)) limit x s files :
  parse_config (w_trunc w) root seed = Ok o -> opt_model o <> DeGroot ->
  configured_limit o = Some limit -> (0 <= limit < 2 ^ 31)%Z ->
  (0 <= start_numbering_from (opt_output o))%Z -> (Z.of_nat fuel + start_numbering_from (opt_output o) < 2 ^ 64)%Z ->
  main w fuel root seed network_file agent_file = Ok (x, s, files) ->
  n_iterations x = limit.
Proof.
  intros EP HD HL H0 HN HB E. unfold main in E. rewrite EP in E. cbn [bind] in E.
  destruct (validate_settings o); try discriminate. destruct (print_settings o); try discriminate. cbn [bind] in E.
  destruct (main_simulation w o network_file agent_file) as [[x0 s0]| | |] eqn:EM; try discriminate. cbn [bind] in E.
  destruct (C53_right_model w root seed o network_file agent_file x0 s0 EP EM) as (R & _ & M).
  rewrite HL in M. cbn [option_map] in M. rewrite Z.mod_small in M by lia.
  assert (C : counts_only x0).
  { intros d ->. unfold runs_as in R. pose proof (parsed_matching w root seed o EP) as HM. unfold matching in HM.
    destruct (opt_model o), (opt_settings o); try contradiction; congruence. }
  destruct (C55_exactly_the_limit w fuel (opt_output o) x0 s0 x s files limit HN HB C M ltac:(lia) E) as (_ & _ & _ & _ & N & _). exact N.
Qed.

(** A configuration without a limit, or with a negative one, runs forever: whatever the number of
    steps one waits (below 2^63 for a negative limit), the program is still running. *)
Hypothesis (HS : sample_ok (w_gen w)) (HI : SRandom.int_ok (w_gen w)) (HQ : pq_bag (w_pq w)).

Lemma run_loop_long os lim : PSimulation2.nonzero (n_output_agents os) -> PSimulation2.nonzero (n_output_network os) ->
  forall fuel x s log j, sim_ready x -> counts_only x -> n_iterations x = Z.of_nat j -> max_iterations (base_of x) = Some lim ->
  (lim < 2 ^ 64)%Z -> (Z.of_nat (j + fuel) < lim)%Z -> run_loop w fuel os x s log = NoFuel.
Proof using HS HI HQ.
  intros Z1 Z2. induction fuel as [|fuel IH]; intros x s log j HR HC HJ HM HB HF; [reflexivity|]. cbn [run_loop].
  rewrite finished_counts_only by auto. unfold base_finished. rewrite HM. unfold n_iterations in HJ. rewrite HJ.
  destruct (Z.leb_spec lim (Z.of_nat j)); [lia|].
  destruct (iteration_ready w HS HI HQ x s HR) as (x1 & s1 & E & R1 & SR). rewrite E. cbn [bind].
  destruct (iteration_base w _ _ _ _ E) as [B1 _]. pose proof (counts_only_next w _ _ _ _ HC E) as C1.
  assert (M1 : max_iterations (base_of x1) = Some lim) by (rewrite B1; exact HM).
  assert (J1 : n_iterations x1 = Z.of_nat (S j)).
  { unfold n_iterations. rewrite B1. cbn [base_iteration iterations]. rewrite HJ. unfold to_size_t. rewrite Z.mod_small; lia. }
  destruct (due_defined (n_output_agents os) (start_output os) (n_iterations x1) Z1) as (b1 & ->). cbn [bind].
  destruct (due_defined (n_output_network os) (start_output os) (n_iterations x1) Z2) as (b2 & E2).
  destruct (write_opinions_ok w x1 (to_size_t (n_iterations x1 + start_numbering_from os))) as (f1 & F1).
  destruct (write_network_ok w x1 (to_size_t (n_iterations x1 + start_numbering_from os)) R1) as (f2 & F2).
  destruct b1; rewrite ?F1; cbn [bind]; rewrite E2; cbn [bind]; destruct b2; rewrite ?F2; cbn [bind]; apply (IH _ _ _ (S j)); auto; lia.
Qed.

Theorem C55_program_never_stops fuel root seed (o : options (F a)) :
  parse_config (w_trunc w) root seed = Ok o -> validate_settings o = Ok tt -> opt_model o <> DeGroot ->
  sizes_fit o ->
  configured_limit o = None \/ (exists limit, configured_limit o = Some limit /\ (- 2 ^ 31 <= limit < 0)%Z /\ (Z.of_nat fuel < 2 ^ 63)%Z) ->
  n_output_agents (opt_output o) <> Some 0%Z -> n_output_network (opt_output o) <> Some 0%Z ->
  main w fuel root seed None None = NoFuel.
Proof using HS HI HQ.
  intros EP EV HD HF HL Z1 Z2. unfold main. rewrite EP. cbn [bind]. rewrite EV. cbn [bind].
  pose proof (parsed_matching w root seed o EP) as HM.
  assert (EPr : print_settings o = Ok tt).
  { unfold print_settings, matching in *. destruct (opt_model o), (opt_settings o); try contradiction; reflexivity. }
  rewrite EPr. cbn [bind].
  destruct (main_simulation_ok w HS HI o HF HM) as (x & s & E & R & RA & I & M & N). rewrite E. cbn [bind].
  assert (C : counts_only x).
  { intros d ->. unfold runs_as in RA. unfold matching in HM. destruct (opt_model o), (opt_settings o); try contradiction; congruence. }
  unfold run. destruct (init_iterations x) as (I1 & I2 & _).
  destruct (write_network_ok w x (start_numbering_from (opt_output o)) R) as (f1 & F1).
  destruct (write_opinions_ok w x (start_numbering_from (opt_output o))) as (f2 & F2).
  assert (L : forall log, run_loop w fuel (opt_output o) (model_initialize_iterations x) s log = NoFuel).
  { intros log. destruct HL as [HL|(limit & HL & H1 & H2)]; rewrite HL in M; cbn [option_map] in M.
    - apply (run_loop_forever w HS HI HQ); auto; [now apply ready_init|now apply counts_only_init|congruence].
    - apply (run_loop_long (opt_output o) (to_size_t limit)) with (j := 0); auto; [now apply ready_init|now apply counts_only_init|congruence| |].
      + apply Z.mod_pos_bound. lia.
      + unfold to_size_t. assert (EQ : (limit mod 2 ^ 64 = limit + 2 ^ 64)%Z).
        { rewrite <- (Z.mod_add limit 1) by lia. apply Z.mod_small. lia. }
        cbn [Nat.add]. replace (limit mod 18446744073709551616)%Z with (limit + 2 ^ 64)%Z by (symmetry; exact EQ). lia. }
  destruct (output_initial (opt_output o)); rewrite ?F1; cbn [bind]; rewrite ?F2; cbn [bind]; apply L.
Qed.
End WholeRun.

(** ** C56 *)
Section InputFiles.
Context {a : Arith} (w : world a).
Notation D := (F a).

(** Settings under which a model keeps the network it is given. *)
Definition keeps_network (o : options D) : Prop :=
  match opt_settings o with
  | DeGrootSettings _ => True
  | ActivityDrivenSettings st => mean_weights st = false
  | ActivityDrivenInertialSettings st => mean_weights (in_activity st) = false
  | DeffuantSettings d => df_use_network d = false
  end.
(** Two networks (possibly of different agent types) have the same neighbours, weights and direction. *)
Definition same_graph {A B} (g : network A D) (h : network B D) : Prop :=
  (forall i, get_neighbours g i = get_neighbours h i) /\ (forall i, get_weights g i = get_weights h i) /\ dir g = dir h.

Lemma put_agents_graph (x : model (a:=a)) l : same_graph (net_of (put_agents x l)) (net_of x).
Proof. destruct x; repeat split. Qed.
Lemma same_graph_trans {A B C} (g : network A D) (h : network B D) (k : network C D) : same_graph g h -> same_graph h k -> same_graph g k.
Proof. intros (A1 & A2 & A3) (B1 & B2 & B3). split; [|split]; intros; congruence. Qed.

Lemma create_model_graph k (net : network (agent_of D k) D) (o : options D) s x s' : matching o -> needs o k ->
  keeps_network o -> create_model w k net o None s = Ok (x, s') ->
  kind_of x = k /\ same_graph (net_of x) net.
Proof.
  intros HM HK HW E. unfold create_model in *.
  match type of E with bind ?m _ = _ => destruct m as [[x0 s0]| | |] eqn:E0; try discriminate end. cbn [bind] in E. injection E as <- <-.
  unfold matching, needs, keeps_network in *. destruct (opt_model o), (opt_settings o) as [d|st|st|d]; try contradiction.
  - subst k. cbn [create_model_degroot get_degroot bind] in E0. unfold degroot_ctor in E0.
    match type of E0 with context [@MTarjan.strongly_connected_components ?A ?B ?q] => destruct (@MTarjan.strongly_connected_components A B q); try discriminate end.
    cbn [bind] in E0. rewrite spread_ok in E0. cbn [bind] in E0. injection E0 as <- <-. repeat split.
  - subst k. cbn [create_model_activity_driven get_activity_driven bind] in E0. unfold ad_ctor in E0. cbv zeta in E0.
    destruct (get_agents_from_power_law _ _ _ _ _ _) as [[l s1]| | |]; try discriminate. cbn [bind] in E0.
    rewrite HW in E0. cbn [bind] in E0. injection E0 as <- <-. repeat split.
  - subst k. cbn [create_model_activity_driven_inertial get_inertial bind] in E0. unfold inertial_ctor, ad_ctor in E0. cbv zeta in E0.
    destruct (get_agents_from_power_law _ _ _ _ _ _) as [[l s1]| | |]; try discriminate. cbn [bind] in E0.
    rewrite HW in E0. cbn [bind] in E0. injection E0 as <- <-. repeat split.
  - cbn [get_deffuant bind] in E0. destruct (df_use_binary_vector d); subst k.
    + cbn [create_model_deffuant_vector get_deffuant bind] in E0. unfold deffuant_ctor in E0. rewrite HW in E0. cbn [bind] in E0.
      destruct (initialize_agents_vector _ _ _ _) as [[l s1]| | |]; try discriminate. cbn [bind put_agents] in E0. injection E0 as <- <-. repeat split.
    + cbn [create_model_deffuant get_deffuant bind] in E0. unfold deffuant_ctor in E0. rewrite HW in E0. cbn [bind] in E0.
      destruct (initialize_agents_simple _) as [l| | |]; try discriminate. cbn [bind put_agents] in E0. injection E0 as <- <-. repeat split.
Qed.

(** The network of the simulation is the one in the file of the command line ... *)
Theorem C56_network_file_used (o : options D) file agent_file x s :
  matching o -> keeps_network o ->
  main_simulation w o (Some file) agent_file = Ok (x, s) ->
  exists contents net, w_read w file = Ok contents /\
    generate_from_file (default_agent (a:=a) (kind_of x)) (w_stod w) contents = Ok net /\
    same_graph (net_of x) net.
Proof.
  intros HM HW E. destruct (main_simulation_needs w o (Some file) agent_file HM) as (k & HK & EQ). rewrite EQ in E.
  unfold simulation_ctor in E. cbv zeta in E. unfold create_network in E.
  destruct (w_read w file) as [contents| | |] eqn:ER; try discriminate. cbn [bind] in E.
  destruct (generate_from_file (default_agent (a:=a) k) (w_stod w) contents) as [net| | |] eqn:EG; try discriminate. cbn [bind] in E.
  destruct (create_model_inv w k net o agent_file _ x s HM HK E) as (x0 & E0 & _ & K & _ & _ & HA).
  destruct (create_model_graph k net o _ x0 s HM HK HW E0) as [_ G].
  assert (KX : kind_of x = k) by (destruct agent_file as [f|]; [destruct HA as (c & l & _ & _ & ->); destruct (put_agents_base x0 l) as [_ ->]; exact K|subst x0; exact K]).
  exists contents. clear EQ HK E E0 K. subst k. exists net. split; auto. split; auto.
  destruct agent_file as [f|]; [|subst x0; exact G]. destruct HA as (c & l & _ & _ & ->).
  eapply same_graph_trans; [apply put_agents_graph|exact G].
Qed.

(** ... in particular, a network saved by Seldon is the one simulated. *)
Theorem C56_saved_network_used (A : Type) (g : network A D) (o : options D) file agent_file x s contents :
  matching o -> keeps_network o ->
  wf g -> (forall i ws y, get_weights g i = Ok ws -> In y ws -> printable (w_fmt w) (w_stod w) y) ->
  (Z.of_nat (n_agents g) <= 2147483648)%Z ->
  (forall i ns, get_neighbours g i = Ok ns -> (Z.of_nat (length ns) <= 2147483647)%Z) ->
  network_to_file (w_fmt w) g = Ok contents -> fits contents -> w_read w file = Ok contents ->
  main_simulation w o (Some file) agent_file = Ok (x, s) ->
  (forall i, get_neighbours (net_of x) i = get_neighbours g i) /\ (forall i, get_weights (net_of x) i = get_weights g i).
Proof.
  intros HM HW Hwf HP Hn Hr EC HF ER E.
  destruct (C56_network_file_used o file agent_file x s HM HW E) as (c & net & E1 & E2 & G1 & G2 & _). rewrite ER in E1. injection E1 as <-.
  assert (Q : forall k (d : agent_of D k), exists h, generate_from_file d (w_stod w) contents = Ok h /\
     (forall i, get_neighbours h i = get_neighbours g i) /\ (forall i, get_weights h i = get_weights g i)).
  { intros k d.
    assert (EC' : network_to_file (w_fmt w) (mkNet (repeat d (n_agents g)) (neigh g) (wts g) (dir g)) = Ok contents).
    { rewrite <- EC. unfold network_to_file, n_agents, get_neighbours, get_weights. cbn [agents neigh wts]. now rewrite repeat_length. }
    assert (W' : wf (mkNet (repeat d (n_agents g)) (neigh g) (wts g) (dir g))).
    { destruct Hwf as (W1 & W2 & W3 & W4). unfold wf, n_agents in *. cbn [agents neigh wts]. rewrite repeat_length. auto. }
    destruct (C19_network_file_round_trip _ _ d (w_fmt w) (w_stod w) _ contents W' HP) as (h & Q1 & _ & _ & Q2 & Q3); auto.
    - unfold n_agents at 1. cbn [agents]. now rewrite repeat_length.
    - exists h. auto. }
  destruct (Q (kind_of x) (default_agent (a:=a) (kind_of x))) as (h & Q1 & Q2 & Q3). rewrite E2 in Q1. injection Q1 as <-.
  split; intros i; [rewrite G1|rewrite G2]; auto.
Qed.

(** The network file overrides everything the configuration says about the network. *)
Theorem C56_network_settings_overridden (o : options D) ns file agent_file :
  main_simulation w (mkOptions (opt_model o) (opt_model_string o) (opt_rng_seed o) (opt_output o) (opt_settings o) ns)
    (Some file) agent_file = main_simulation w o (Some file) agent_file.
Proof. unfold main_simulation. destruct o as [k m0 sd ou st n0]. destruct k; reflexivity. Qed.

(** A file that cannot be read stops the program with that error. *)
Theorem C56_unreadable_network_file (o : options D) file agent_file e :
  matching o -> w_read w file = Throw e -> main_simulation w o (Some file) agent_file = Throw e.
Proof.
  intros HM E. destruct (main_simulation_needs w o (Some file) agent_file HM) as (k & HK & ->).
  unfold simulation_ctor. cbv zeta. unfold create_network. rewrite E. reflexivity.
Qed.

(** The agents of the simulation are those of the agent file; the network (neighbours and weights),
    the parameters and the random numbers are those of the simulation without the file. *)
Theorem C56_agent_file_used (o : options D) network_file file x s :
  matching o -> main_simulation w o network_file (Some file) = Ok (x, s) ->
  (exists contents, w_read w file = Ok contents /\ read_agents w (kind_of x) contents = Ok (agents (net_of x))) /\
  exists x0, main_simulation w o network_file None = Ok (x0, s) /\ same_graph (net_of x) (net_of x0) /\
    kind_of x = kind_of x0 /\ base_of x = base_of x0 /\ (forall o', runs_as o' x0 -> runs_as o' x).
Proof.
  intros HM E. destruct (main_simulation_needs w o network_file (Some file) HM) as (k & HK & EQ). rewrite EQ in E.
  unfold simulation_ctor in E. cbv zeta in E.
  destruct (create_network w k o network_file (w_seed w (opt_rng_seed o))) as [[net s0]| | |] eqn:EN; try discriminate. cbn [bind] in E.
  destruct (create_model_inv w k net o (Some file) s0 x s HM HK E) as (x0 & E0 & _ & K & _ & _ & c & l & ER & EL & ->).
  split.
  - exists c. split; auto. clear EQ. destruct x0; cbn [put_agents kind_of net_of agents with_agents dg_net df_net ad_net im_ad] in *; exact EL.
  - exists x0. split.
    + destruct (main_simulation_needs w o network_file None HM) as (k' & HK' & EQ'). rewrite EQ'.
      assert (k' = k) as ->. { unfold needs in *. destruct (opt_settings o) as [| | |d]; try congruence. destruct (df_use_binary_vector d); congruence. }
      unfold simulation_ctor. cbv zeta. rewrite EN. cbn [bind]. exact E0.
    + destruct (put_agents_base x0 l) as [B KK]. split; [apply put_agents_graph|]. split; auto. split; auto. intros o'. apply put_agents_runs_as.
Qed.
Theorem C56_unreadable_agent_file (o : options D) network_file file e x s :
  matching o -> main_simulation w o network_file None = Ok (x, s) -> w_read w file = Throw e ->
  main_simulation w o network_file (Some file) = Throw e.
Proof.
  intros HM E ER. destruct (main_simulation_needs w o network_file None HM) as (k & HK & EQ). rewrite EQ in E.
  destruct (main_simulation_needs w o network_file (Some file) HM) as (k' & HK' & EQ'). rewrite EQ'.
  assert (k' = k) as ->. { unfold needs in *. destruct (opt_settings o) as [| | |d]; try congruence. destruct (df_use_binary_vector d); congruence. }
  unfold simulation_ctor in *. cbv zeta in *.
  destruct (create_network w k o network_file (w_seed w (opt_rng_seed o))) as [[net s0]| | |] eqn:EN; try discriminate. cbn [bind] in *.
  unfold create_model in *. match type of E with bind ?m _ = _ => destruct m as [[x0 s1]| | |]; try discriminate end. cbn [bind]. rewrite ER. reflexivity.
Qed.

(** Deffuant with use_network: the network file only determines the number of agents; the network is
    the square lattice of that size, whatever the file says. *)
Theorem C56_lattice_ignores_network_file_refuted (o : options D) d file agent_file x s :
  matching o -> opt_settings o = DeffuantSettings d -> df_use_network d = true ->
  main_simulation w o (Some file) agent_file = Ok (x, s) ->
  exists L G, generate_square_lattice (default_agent (a:=a) (kind_of x)) L (f0 a) = Ok G /\ same_graph (net_of x) G.
Proof.
  intros HM ES HU E. destruct (main_simulation_needs w o (Some file) agent_file HM) as (k & HK & EQ). rewrite EQ in E.
  unfold simulation_ctor in E. cbv zeta in E.
  destruct (create_network w k o (Some file) (w_seed w (opt_rng_seed o))) as [[net s0]| | |]; try discriminate. cbn [bind] in E.
  destruct (create_model_inv w k net o agent_file s0 x s HM HK E) as (x0 & E0 & _ & K & _ & _ & HA).
  assert (Q : exists L G, generate_square_lattice (default_agent (a:=a) (kind_of x0)) L (f0 a) = Ok G /\ same_graph (net_of x0) G).
  { clear EQ HA E. unfold create_model in E0. unfold matching, needs in *. rewrite ES in *. destruct (opt_model o); try contradiction.
    cbn [get_deffuant bind] in E0. destruct (df_use_binary_vector d); subst k.
    + cbn [create_model_deffuant_vector get_deffuant bind] in E0. unfold deffuant_ctor in E0. rewrite HU in E0. cbv zeta in E0.
      match type of E0 with context [sqrt_size ?n] => set (L := sqrt_size n) in * end.
      destruct (negb _); [discriminate|].
      destruct (generate_square_lattice _ _ _) as [G| | |] eqn:EG; try discriminate. cbn [bind] in E0.
      destruct (initialize_agents_vector _ _ _ _) as [[l s1]| | |]; try discriminate. cbn [bind put_agents] in E0. injection E0 as <- <-.
      exists L, G. split; [exact EG|]. repeat split.
    + cbn [create_model_deffuant get_deffuant bind] in E0. unfold deffuant_ctor in E0. rewrite HU in E0. cbv zeta in E0.
      match type of E0 with context [sqrt_size ?n] => set (L := sqrt_size n) in * end.
      destruct (negb _); [discriminate|].
      destruct (generate_square_lattice _ _ _) as [G| | |] eqn:EG; try discriminate. cbn [bind] in E0.
      destruct (initialize_agents_simple _) as [l| | |]; try discriminate. cbn [bind put_agents] in E0. injection E0 as <- <-.
      exists L, G. split; [exact EG|]. repeat split. }
  destruct agent_file as [f|]; [|subst x0; exact Q]. destruct HA as (c & l & _ & _ & ->). destruct Q as (L & G & Q1 & Q2).
  destruct (put_agents_base x0 l) as [_ KK]. clear - Q1 Q2. exists L. destruct x0; cbn [kind_of put_agents] in *; exists G; (split; [exact Q1|exact Q2]).
Qed.

(** With mean_weights the network becomes fully connected with zero weights, whatever the file says. *)
Theorem C56_mean_weights_ignores_network_file_refuted (o : options D) st file agent_file x s :
  matching o -> (opt_settings o = ActivityDrivenSettings st \/ exists fr, opt_settings o = ActivityDrivenInertialSettings (mkINS st fr)) ->
  mean_weights st = true ->
  main_simulation w o (Some file) agent_file = Ok (x, s) ->
  exists n G, generate_fully_connected (default_agent (a:=a) (kind_of x)) n (f0 a) = Ok G /\ same_graph (net_of x) G.
Proof.
  intros HM ES HU E. destruct (main_simulation_needs w o (Some file) agent_file HM) as (k & HK & EQ). rewrite EQ in E.
  unfold simulation_ctor in E. cbv zeta in E.
  destruct (create_network w k o (Some file) (w_seed w (opt_rng_seed o))) as [[net s0]| | |]; try discriminate. cbn [bind] in E.
  destruct (create_model_inv w k net o agent_file s0 x s HM HK E) as (x0 & E0 & _ & K & _ & _ & HA).
  assert (Q : exists n G, generate_fully_connected (default_agent (a:=a) (kind_of x0)) n (f0 a) = Ok G /\ same_graph (net_of x0) G).
  { clear EQ HA E. unfold create_model in E0. unfold matching, needs in *. destruct ES as [ES|(fr & ES)]; rewrite ES in *; destruct (opt_model o); try contradiction; subst k.
    + cbn [create_model_activity_driven get_activity_driven bind] in E0. unfold ad_ctor in E0. cbv zeta in E0.
      destruct (get_agents_from_power_law _ _ _ _ _ _) as [[l s1]| | |]; try discriminate. cbn [bind] in E0. rewrite HU in E0.
      destruct (generate_fully_connected _ _ _) as [G| | |] eqn:EG; try discriminate. cbn [bind] in E0. injection E0 as <- <-.
      eexists _, G. split; [exact EG|]. repeat split.
    + cbn [create_model_activity_driven_inertial get_inertial bind] in E0. unfold inertial_ctor, ad_ctor in E0. cbn [in_activity in_friction] in E0. cbv zeta in E0.
      destruct (get_agents_from_power_law _ _ _ _ _ _) as [[l s1]| | |]; try discriminate. cbn [bind] in E0. rewrite HU in E0.
      destruct (generate_fully_connected _ _ _) as [G| | |] eqn:EG; try discriminate. cbn [bind] in E0. injection E0 as <- <-.
      eexists _, G. split; [exact EG|]. repeat split. }
  destruct agent_file as [f|]; [|subst x0; exact Q]. destruct HA as (c & l & _ & _ & ->). destruct Q as (n & G & Q1 & Q2).
  clear - Q1 Q2. exists n. destruct x0; cbn [kind_of put_agents] in *; exists G; (split; [exact Q1|exact Q2]).
Qed.
End InputFiles.

(** Agent files of the wrong size. The number of agents in the file is not compared with the network.
    A DeGroot iteration with more agents than the network has rows, or with fewer agents than a
    neighbour's number needs, accesses a vector out of range. *)
Section WrongSize.
Context {a : Arith}.

Definition index_safe {X} (m : res X) : Prop := (exists x, m = Ok x) \/ m = UB UbIndex.
Lemma safe_bind {X Y} (m : res X) (k : X -> res Y) : index_safe m -> (forall x, m = Ok x -> index_safe (k x)) -> index_safe (bind m k).
Proof. intros [(x & ->)| ->] H; cbn; [apply H; reflexivity|now right]. Qed.
Lemma safe_vget {X} (v : list X) i : index_safe (vget v i).
Proof. unfold vget. destruct (nth_error v i); [left; eauto|now right]. Qed.
Lemma safe_vset {X} (v : list X) i x : index_safe (vset v i x).
Proof. unfold vset. destruct (i <? length v); [left; eauto|now right]. Qed.
Lemma safe_for {X} (body : nat -> X -> res X) : (forall i x, index_safe (body i x)) -> forall n i x, index_safe (for_from i n body x).
Proof.
  intros H. induction n as [|n IH]; intros i x; cbn [for_from]; [left; eauto|]. apply safe_bind; auto.
Qed.
Lemma for_from_each {X} (body : nat -> X -> res X) : forall n i x x', for_from i n body x = Ok x' ->
  forall j, i <= j < i + n -> exists y y', body j y = Ok y'.
Proof.
  induction n as [|n IH]; intros i x x' E j Hj; [lia|]. cbn [for_from] in E.
  destruct (body i x) as [x1| | |] eqn:EB; try discriminate. cbn [bind] in E.
  destruct (Nat.eq_dec j i) as [->|]; [eauto|]. apply (IH (S i) x1 x' E). lia.
Qed.

Theorem C56_wrong_number_of_agents_is_undefined (d : degroot a) :
  (exists d', degroot_iteration d = Ok d') \/ degroot_iteration d = UB UbIndex.
Proof.
  change (index_safe (degroot_iteration d)). unfold degroot_iteration, degroot_average, degroot_update. apply safe_bind.
  - apply safe_for. intros i c. apply safe_bind; [apply safe_vget|]. intros nb _. apply safe_bind; [apply safe_vget|]. intros wb _.
    apply safe_bind; [apply safe_vset|]. intros c1 _. apply safe_for. intros j c2.
    repeat (apply safe_bind; [apply safe_vget|intros ? _]). apply safe_vset.
  - intros c _. apply safe_bind; [|intros [diff l] _; left; eauto]. apply safe_for. intros i [diff l].
    repeat (apply safe_bind; [apply safe_vget|intros ? _]). apply safe_bind; [apply safe_vset|]. intros ? _. left; eauto.
Qed.
Theorem C56_right_number_of_agents_needed (d d' : degroot a) : degroot_iteration d = Ok d' ->
  n_agents (dg_net d) <= length (neigh (dg_net d)) /\
  forall i ns j, i < n_agents (dg_net d) -> get_neighbours (dg_net d) i = Ok ns -> In j ns -> j < n_agents (dg_net d).
Proof.
  unfold degroot_iteration. destruct (degroot_average (dg_net d) (agents_current_copy d)) as [c| | |] eqn:E; try discriminate. intros _.
  unfold degroot_average, for_n in E. pose proof (for_from_each _ _ _ _ _ E) as H. clear E. split.
  - destruct (n_agents (dg_net d)) as [|n] eqn:EN; [lia|]. destruct (H n ltac:(lia)) as (y & y' & E).
    destruct (get_neighbours (dg_net d) n) eqn:EG; try discriminate. apply vget_ok in EG.
    assert (n < length (neigh (dg_net d))) by (apply nth_error_Some; congruence). lia.
  - intros i ns j Hi EG Hj. destruct (H i ltac:(lia)) as (y & y' & E). rewrite EG in E. cbn [bind] in E.
    destruct (get_weights (dg_net d) i); try discriminate. cbn [bind] in E. destruct (vset y i _) as [y1| | |]; try discriminate. cbn [bind] in E.
    apply In_nth_error in Hj as (q & Hq). assert (q < length ns) by (apply nth_error_Some; congruence).
    pose proof (for_from_each _ _ _ _ _ E q ltac:(lia)) as (z & z' & E2). apply vget_ok in Hq. rewrite Hq in E2. cbn [bind] in E2.
    destruct (vget a0 q); try discriminate. cbn [bind] in E2. destruct (vget z i); try discriminate. cbn [bind] in E2.
    destruct (vget (agents (dg_net d)) j) eqn:EV; try discriminate. apply vget_ok in EV. apply nth_error_Some. congruence.
Qed.
End WrongSize.

(** ** Concrete cases *)
(** A world over binary64: numbers in files are whole numbers; two files exist. *)
Definition net_text : text := lit "0,2,1,2,1,1" ++ [newline] ++ lit "1,1,0,1" ++ [newline] ++ lit "2,0" ++ [newline].
Definition agents_text : text := lit "# idx_agent,opinion" ++ [newline] ++ lit "0,7" ++ [newline] ++ lit "1,8" ++ [newline] ++ lit "2,9" ++ [newline].
Definition demo_world : world FA :=
  mkWorld FA (zero_libm FA) (const_rng (a:=FA) (flit FA 1 2) (f0 FA)) (list_pq FA) (fun _ => tt)
    (fun x => match trunc64 x with Some z => fmt_Z z | None => lit "nan" end)
    (fun t => z <- stoi t ;; Ok (fofZ FA z)) trunc64
    (fun f => if text_eqb f (lit "net") then Ok net_text else if text_eqb f (lit "agents") then Ok agents_text else Throw ExRuntime).

Lemma demo_stod : stod_throws (w_stod demo_world).
Proof.
  assert (H : forall t e, stoi t = Throw e -> e = ExInvalidArgument \/ e = ExOutOfRange).
  { intros t e. unfold stoi. cbv zeta.
    destruct (match skip_spaces t with [] => _ | _ => _ end) as [neg u]. destruct (starts_with_digit u).
    - match goal with |- context [if (?b && _)%bool then _ else _] => destruct (b && _)%bool end; intros E; [discriminate|]. injection E as <-. auto.
    - intros E. injection E as <-. auto. }
  intros t e E. cbn [w_stod demo_world] in E. specialize (H t). destruct (stoi t); try discriminate. cbn [bind] in E. injection E as <-. auto.
Qed.
Lemma demo_read : read_throws (w_read demo_world).
Proof. intros t e. cbn [w_read demo_world]. destruct (text_eqb t (lit "net")); [discriminate|]. destruct (text_eqb t (lit "agents")); [discriminate|]. intros [= <-]. auto. Qed.
Lemma demo_gen : sample_ok (w_gen demo_world) /\ SRandom.int_ok (w_gen demo_world) /\ pq_bag (w_pq demo_world).
Proof. split; [|split]; [apply (const_rng_sample_ok FA)|apply (const_rng_int_ok FA)|apply (list_pq_bag FA)]. Qed.

Definition conf (name : text) (io model sec : list (text * toml Arith64.float)) (n k : Z) : list (text * toml Arith64.float) :=
  [(lit "simulation", TTable [(lit "model", TString name); (lit "rng_seed", TInt 120)]);
   (lit "io", TTable io); (lit "model", TTable model); (name, TTable sec);
   (lit "network", TTable [(lit "number_of_agents", TInt n); (lit "connections_per_agent", TInt k)])].
Definition io2 : list (text * toml Arith64.float) :=
  [(lit "n_output_agents", TInt 2); (lit "n_output_network", TInt 3); (lit "start_output", TInt 2); (lit "start_numbering_from", TInt 10)].
Definition conf_activity := conf (lit "ActivityDriven") io2 [(lit "max_iterations", TInt 4)] [(lit "m", TInt 2); (lit "n_bots", TInt 1)] 5 2.
Definition conf_degroot := conf (lit "DeGroot") io2 [(lit "max_iterations", TInt 4)] [] 3 2.
Definition conf_endless := conf (lit "Deffuant") io2 [] [(lit "use_network", TBool true)] 9 2.
Definition conf_zero := conf (lit "Deffuant") [(lit "n_output_agents", TInt 0)] [(lit "max_iterations", TInt 4)] [] 9 2.

(** What a run did, without the floating point numbers. *)
Definition summary {w : world FA} (r : res (model (a:=FA) * rst (w_gen w) * list output)) : option (Z * nat * list text) :=
  match r with Ok (x, _, files) => Some (n_iterations (a:=FA) x, n_agents (net_of (a:=FA) x), map fst files) | _ => None end.

(** A complete run of the activity-driven model: 4 iterations; opinions after iterations 2 and 4,
    network after iteration 3, and the initial state. *)
Example C54_instance : summary (main demo_world 10 conf_activity 7 None None) =
  Some (4%Z, 5, [lit "network_10.txt"; lit "opinions_10.txt"; lit "opinions_12.txt"; lit "network_13.txt"; lit "opinions_14.txt"]).
Proof. vm_compute. reflexivity. Qed.

(** Configurations used below, as parsed: what the theorems ask of them. *)
Definition fits_b (o : options (F FA)) : bool :=
  match net_file (opt_network o) with None => true | _ => false end &&
  (0 <=? net_n_connections (opt_network o))%Z && (net_n_connections (opt_network o) <? net_n_agents (opt_network o))%Z &&
  (net_n_agents (opt_network o) <? 2 ^ 31)%Z.
Lemma fits_b_spec o : fits_b o = true -> net_file (opt_network o) = None /\
  (0 <= net_n_connections (opt_network o) < net_n_agents (opt_network o))%Z /\ (net_n_agents (opt_network o) < 2 ^ 31)%Z.
Proof.
  unfold fits_b. rewrite !andb_true_iff, Z.leb_le, !Z.ltb_lt. intros (((H1 & H2) & H3) & H4).
  destruct (net_file (opt_network o)); [discriminate|]. auto.
Qed.

Definition small {D} (o : options D) : Prop := net_file (opt_network o) = None /\
  (0 <= net_n_connections (opt_network o) < net_n_agents (opt_network o))%Z /\ (net_n_agents (opt_network o) < 2 ^ 31)%Z.
Lemma fit_activity {D} (o : options D) st n b q p : opt_settings o = ActivityDrivenSettings st -> small o ->
  net_n_agents (opt_network o) = n -> m st = q -> n_bots st = b -> length (bot_m st) = b -> length (bot_homophily st) = b ->
  length (bot_opinion st) = b -> length (bot_activity st) = b -> nth 0 (bot_m st) 0%Z = p ->
  (Z.of_nat b <= 1 /\ Z.of_nat b <= n /\ 0 <= q <= n /\ 0 <= p <= n)%Z -> sizes_fit o.
Proof.
  intros ES (F1 & F2 & F3) <- <- <- H1 H2 H3 H4 <- (B1 & B2 & B3 & B4). split; auto. split; auto. split; auto. rewrite ES.
  unfold activity_sizes. rewrite H1, H2, H3, H4. split; [auto|]. split; [auto|]. split; [auto|]. split; [auto|]. split; [auto|]. split; [auto|].
  intros i Hi. assert (i = 0) as -> by lia. auto.
Qed.
Lemma fit_deffuant {D} (o : options D) d n L q : opt_settings o = DeffuantSettings d -> small o ->
  net_n_agents (opt_network o) = n -> df_dim d = q -> n = (L * L)%Z -> (0 <= q < 2 ^ 31)%Z -> sizes_fit o.
Proof. intros ES (F1 & F2 & F3) H1 <- H2 H3. split; auto. split; auto. split; auto. rewrite ES. split; auto. intros _. exists L. congruence. Qed.
Lemma conf_activity_facts : exists (o : options (F FA)) (st : ad_settings (F FA)), parse_config (w_trunc demo_world) conf_activity 7 = Ok o /\
  opt_settings o = ActivityDrivenSettings st /\ validate_settings (a:=FA) o = Ok tt /\ sizes_fit (D:=F FA) o /\
  configured_limit o = Some 4%Z /\ opt_output o = mkOutput (Some 2%Z) (Some 3%Z) false true 2 10 /\ mean_weights st = false.
Proof.
  set (sm := fun r : res (options (F FA)) => match r with
    | Ok o => match opt_settings o with
              | ActivityDrivenSettings st => Some (validate_settings (a:=FA) o, fits_b o, net_n_agents (opt_network o), m st, n_bots st, length (bot_m st), length (bot_homophily st),
                  length (bot_opinion st), length (bot_activity st), nth 0 (bot_m st) 0%Z, configured_limit o, opt_output o, mean_weights st)
              | _ => None end
    | _ => None end).
  assert (E : sm (parse_config (w_trunc demo_world) conf_activity 7) =
     Some (Ok tt, true, 5%Z, 2%Z, 1, 1, 1, 1, 1, 2%Z, Some 4%Z, mkOutput (Some 2%Z) (Some 3%Z) false true 2 10, false)) by (vm_compute; reflexivity).
  destruct (parse_config (w_trunc demo_world) conf_activity 7) as [o| | |]; try discriminate E. unfold sm in E. cbv beta iota in E.
  match type of E with context [@opt_settings ?T o] => destruct (@opt_settings T o) as [|st| |] eqn:ES; try discriminate E end. cbv beta iota in E. injection E as E1 E2 E3 E4 E5 E6 E7 E8 E9 E10 E11 E12 E13.
  exists o, st. split; auto. split; auto. split; auto. split; [|auto].
  apply fits_b_spec in E2. exact (fit_activity o st 5 1 2 2 ES E2 E3 E4 E5 E6 E7 E8 E9 E10 ltac:(lia)).
Qed.
Lemma conf_endless_facts : exists (o : options (F FA)) (d : deffuant_settings (F FA)), parse_config (w_trunc demo_world) conf_endless 7 = Ok o /\
  opt_settings o = DeffuantSettings d /\ opt_model o = Deffuant /\ validate_settings (a:=FA) o = Ok tt /\ sizes_fit (D:=F FA) o /\
  configured_limit o = None /\ opt_output o = mkOutput (Some 2%Z) (Some 3%Z) false true 2 10 /\ df_use_network d = true.
Proof.
  set (sm := fun r : res (options (F FA)) => match r with
    | Ok o => match opt_settings o with
              | DeffuantSettings d => Some (opt_model o, validate_settings (a:=FA) o, fits_b o, net_n_agents (opt_network o), df_dim d,
                  configured_limit o, opt_output o, df_use_network d)
              | _ => None end
    | _ => None end).
  assert (E : sm (parse_config (w_trunc demo_world) conf_endless 7) =
     Some (Deffuant, Ok tt, true, 9%Z, 1%Z, None, mkOutput (Some 2%Z) (Some 3%Z) false true 2 10, true)) by (vm_compute; reflexivity).
  destruct (parse_config (w_trunc demo_world) conf_endless 7) as [o| | |]; try discriminate E. unfold sm in E. cbv beta iota in E.
  match type of E with context [@opt_settings ?T o] => destruct (@opt_settings T o) as [| | |d] eqn:ES; try discriminate E end. cbv beta iota in E. injection E as E1 E2 E3 E4 E5 E6 E7 E8.
  exists o, d. split; auto. split; auto. split; auto. split; auto. split; [|auto].
  apply fits_b_spec in E3. exact (fit_deffuant o d 9 3 1 ES E3 E4 E5 eq_refl ltac:(lia)).
Qed.

Example C53_instance : exists o, parse_config (w_trunc demo_world) conf_activity 7 = Ok o /\
  (exists x s, main_simulation demo_world o None None = Ok (x, s) /\ needs o (kind_of x)) /\
  stod_throws (w_stod demo_world) /\ read_throws (w_read demo_world).
Proof.
  destruct conf_activity_facts as (o & st & E1 & E2 & E3 & E4 & E5 & E6 & E7). exists o. split; auto. split; [|auto using demo_stod, demo_read].
  destruct demo_gen as (G1 & G2 & G3).
  destruct (main_simulation_ok demo_world G1 G2 o E4 (parsed_matching demo_world _ _ o E1)) as (x & s & E & _). exists x, s. split; auto.
  apply (C53_right_model demo_world _ _ o None None x s E1 E).
Qed.
Example C53_instance_refused : exists o, parse_config (w_trunc demo_world) conf_activity 7 = Ok o /\
  simulation_ctor demo_world Simple o None None = Throw ExIncompatible.
Proof.
  destruct conf_activity_facts as (o & st & E1 & E2 & E3 & E4 & E5 & E6 & E7). exists o. split; auto.
  destruct demo_gen as (G1 & G2 & G3).
  destruct (create_network_ok demo_world G1 Simple o (w_seed demo_world (opt_rng_seed o)) E4) as (net & s & EN & _).
  apply (C53_wrong_agent_type_refused demo_world Simple o None None net s); auto; [apply (parsed_matching demo_world _ _ o E1)|].
  unfold needs. rewrite E2. discriminate.
Qed.

(** A configuration with an output interval of 0 passes validation; the run is undefined. *)
Theorem C54_zero_interval_accepted_refuted :
  (exists o, parse_config (w_trunc demo_world) conf_zero 7 = Ok o /\ validate_settings (a:=FA) o = Ok tt) /\
  main demo_world 10 conf_zero 7 None None = UB UbDivZero.
Proof.
  split.
  - assert (E : match parse_config (w_trunc demo_world) conf_zero 7 with Ok o => validate_settings (a:=FA) o | _ => NoFuel end = Ok tt) by (vm_compute; reflexivity).
    destruct (parse_config (w_trunc demo_world) conf_zero 7) as [o| | |]; try discriminate E. eauto.
  - assert (E : match main demo_world 10 conf_zero 7 None None with UB UbDivZero => true | _ => false end = true) by (vm_compute; reflexivity).
    destruct (main demo_world 10 conf_zero 7 None None) as [| |[]|]; try discriminate E. reflexivity.
Qed.

(** An endless configuration. *)
Example C55_instance_endless fuel : main demo_world fuel conf_endless 7 None None = NoFuel.
Proof.
  destruct conf_endless_facts as (o & d & E1 & E2 & EM & E3 & E4 & E5 & E6 & E7). destruct demo_gen as (G1 & G2 & G3).
  apply (C55_program_never_stops demo_world G1 G2 G3 fuel conf_endless 7 o); auto; rewrite ?EM, ?E6; discriminate.
Qed.
Lemma summary_inv (w : world FA) r n k l : summary (w:=w) r = Some (n, k, l) ->
  exists x s files, r = Ok (x, s, files) /\ n_iterations x = n /\ map fst files = l.
Proof. destruct r as [[[x s] files]| | |]; try discriminate. cbn [summary]. intros E. injection E as E1 _ E3. eauto 6. Qed.
Example C55_instance : exists x s files, main demo_world 10 conf_activity 7 None None = Ok (x, s, files) /\ n_iterations x = 4%Z.
Proof. destruct (summary_inv _ _ _ _ _ C54_instance) as (x & s & files & E & N & _). exists x, s, files. split; [exact E|exact N]. Qed.
Example C59_instance : exists o, parse_config (w_trunc demo_world) conf_activity 7 = Ok o /\ validate_settings (a:=FA) o = Ok tt /\
  sizes_fit o /\ configured_limit o = Some 4%Z /\ sample_ok (w_gen demo_world) /\ SRandom.int_ok (w_gen demo_world) /\ pq_bag (w_pq demo_world).
Proof. destruct conf_activity_facts as (o & st & E1 & E2 & E3 & E4 & E5 & _). exists o. split; auto. split; auto. split; auto. split; auto. apply demo_gen. Qed.

(** Files from the command line: the network of 3 agents in [net_text], the opinions 7, 8, 9. *)
Example C56_instance :
  match parse_config (w_trunc demo_world) conf_degroot 7 with
  | Ok o => match main_simulation demo_world o (Some (lit "net")) (Some (lit "agents")) with
            | Ok (x, _) => Some (neigh (net_of (a:=FA) x), n_agents (net_of x), match write_agents demo_world (kind_of x) (agents (net_of x)) with Ok t => filter (fun c => negb (Ascii.eqb c space)) t | _ => [] end)
            | _ => None end
  | _ => None end = Some ([[1; 2]; [0]; []], 3, lit "#idx_agent,opinion" ++ [newline] ++ lit "0,7" ++ [newline] ++ lit "1,8" ++ [newline] ++ lit "2,9" ++ [newline]).
Proof. vm_compute. reflexivity. Qed.
Example C56_instance_missing :
  match parse_config (w_trunc demo_world) conf_degroot 7 with
  | Ok o => match main_simulation demo_world o (Some (lit "nowhere")) None with Throw ExRuntime => true | _ => false end
  | _ => false end = true.
Proof. vm_compute. reflexivity. Qed.
(** Three agents in the file, two in the network: undefined. *)
Example C56_instance_wrong_size :
  match main demo_world 10 (conf (lit "DeGroot") [] [(lit "max_iterations", TInt 4)] [] 2 1) 7 None (Some (lit "agents")) with
  | UB UbIndex => true | _ => false end = true.
Proof. vm_compute. reflexivity. Qed.

Print Assumptions C53_never_incompatible.
Print Assumptions C53_right_model.
Print Assumptions C53_wrong_agent_type_refused.
Print Assumptions C54_schedule.
Print Assumptions C54_opinions_files.
Print Assumptions C54_network_files.
Print Assumptions C54_no_file_twice.
Print Assumptions C54_zero_interval.
Print Assumptions C54_zero_interval_accepted_refuted.
Print Assumptions C55_exactly_the_limit.
Print Assumptions C55_run_again.
Print Assumptions C55_no_limit_never_stops.
Print Assumptions C55_degroot_at_most_the_limit.
Print Assumptions C55_degroot_run_again_refuted.
Print Assumptions C55_program_performs_the_limit.
Print Assumptions C55_program_never_stops.
Print Assumptions C56_network_file_used.
Print Assumptions C56_saved_network_used.
Print Assumptions C56_agent_file_used.
Print Assumptions C56_lattice_ignores_network_file_refuted.
Print Assumptions C56_mean_weights_ignores_network_file_refuted.
Print Assumptions C56_right_number_of_agents_needed.
Print Assumptions C59_runs_to_the_end.
