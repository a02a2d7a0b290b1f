(** Property theorems C53-C56 and C59: simulations. *)
From Verif Require Import Base BaseFacts Arith64 MRandom SRandom WRandom MNetwork SNetwork PNetwork2 MNetGen MText PText MNetFile MAgents MDeGroot SDeGroot PDeGroot TDeGroot MDeffuant SDeffuant TDeffuant MDist MActivity SActivity PActInit TActivity MConfig SConfig PConfig TConfig MSimulation SSimulation PSimulation PSimulation2 PQuiet.
From Coq Require Import Reals Lra.

(** ** C53 *)
Section Pairing.
Context {a : Arith} (w : world a).
Notation D := (F a).
Hypothesis (Hstod : stod_throws (w_stod w)) (Hread : read_throws (w_read w)).

Lemma quiet_stod t : quiet (w_stod w t).
Proof using Hstod. split; intros E; destruct (Hstod _ _ E); discriminate. Qed.
Lemma quiet_read t : quiet (w_read w t).
Proof using Hread. split; intros E; pose proof (Hread _ _ E); discriminate. Qed.
Lemma quiet_create_network k (o : options D) nf s : quiet (create_network w k o nf s).
Proof using Hstod Hread.
  unfold create_network. cbv zeta. destruct (match nf with Some f => Some f | None => _ end).
  - apply quiet_bind; [apply quiet_read|]. intros c. apply quiet_bind; [|q]. apply quiet_generate_from_file. apply quiet_stod.
  - apply quiet_gen_n.
Qed.
Lemma quiet_read_agents k t : quiet (read_agents w k t).
Proof using Hstod.
  destruct k; cbn [read_agents agent_of]; apply quiet_agent_loop; intros; auto using quiet_simple, quiet_activity, quiet_inertial, quiet_vector, quiet_stod.
Qed.
Lemma quiet_create_model k (net : network (agent_of D k) D) (o : options D) af s : matching o -> needs o k ->
  quiet (create_model w k net o af s).
Proof using Hstod Hread.
  intros HM HK. unfold create_model. apply quiet_bind.
  - unfold matching, needs in *. destruct (opt_model o), (opt_settings o) as [d|st|st|d]; try contradiction.
    + subst k. cbn [create_model_degroot get_degroot bind]. apply quiet_bind; [|q]. apply quiet_bind; [apply quiet_degroot_ctor|q].
    + subst k. cbn [create_model_activity_driven get_activity_driven bind]. apply quiet_bind; [apply quiet_ad_ctor|q].
    + subst k. cbn [create_model_activity_driven_inertial get_inertial bind]. apply quiet_bind; [apply quiet_inertial_ctor|q].
    + cbn [get_deffuant bind]. destruct (df_use_binary_vector d); subst k.
      * cbn [create_model_deffuant_vector get_deffuant bind]. apply quiet_bind; [apply quiet_deffuant_ctor|]. intros.
        apply quiet_bind; [apply quiet_init_vector|q].
      * cbn [create_model_deffuant get_deffuant bind]. apply quiet_bind; [apply quiet_deffuant_ctor|]. intros.
        apply quiet_bind; [apply quiet_init_simple|q].
  - intros [x s']. destruct af; [|q]. apply quiet_bind; [apply quiet_read|]. intros. apply quiet_bind; [apply quiet_read_agents|q].
Qed.
Lemma quiet_main_simulation (o : options D) nf af : matching o -> quiet (main_simulation w o nf af).
Proof using Hstod Hread.
  intros HM. destruct (main_simulation_needs w o nf af HM) as (k & HK & ->). unfold simulation_ctor. cbv zeta.
  apply quiet_bind; [apply quiet_create_network|]. intros [net s]. now apply quiet_create_model.
Qed.
Lemma quiet_iteration (x : model (a:=a)) s : quiet (model_iteration w x s).
Proof.
  destruct x; cbn [model_iteration].
  - apply quiet_bind; [apply quiet_degroot_it|q].
  - apply quiet_bind; [apply quiet_deffuant_it; intros; apply quiet_rule_simple|q].
  - apply quiet_bind; [apply quiet_deffuant_it; intros; apply quiet_rule_vector|q].
  - apply quiet_bind; [apply quiet_activity_it|q].
  - apply quiet_bind; [apply quiet_inertial_it|q].
Qed.
Lemma quiet_write_opinions (x : model (a:=a)) n : quiet (write_opinions w x n).
Proof. destruct (write_opinions_ok w x n) as (f & ->). apply quiet_ok. Qed.
Lemma quiet_write_network (x : model (a:=a)) n : quiet (write_network w x n).
Proof. unfold write_network. apply quiet_bind; [apply quiet_network_to_file|q]. Qed.
Lemma quiet_due e st n : quiet (due e st n). Proof. unfold due. q. Qed.
Lemma quiet_run fuel os (x : model (a:=a)) s : quiet (run w fuel os x s).
Proof.
  unfold run. apply quiet_bind.
  - destruct (output_initial os); [|q]. apply quiet_bind; [apply quiet_write_network|]. intros. apply quiet_bind; [apply quiet_write_opinions|q].
  - intros log. generalize (model_initialize_iterations x). clear x. revert s log. induction fuel as [|fuel IH]; intros s log x; cbn [run_loop]; [q|].
    destruct (model_finished x); [q|]. apply quiet_bind; [apply quiet_iteration|]. intros [x1 s1].
    apply quiet_bind; [apply quiet_due|]. intros b1. apply quiet_bind; [destruct b1; [apply quiet_bind; [apply quiet_write_opinions|q]|q]|]. intros log1.
    apply quiet_bind; [apply quiet_due|]. intros b2. apply quiet_bind; [destruct b2; [apply quiet_bind; [apply quiet_write_network|q]|q]|]. auto.
Qed.
Lemma quiet_push_back {T} (oi : Z -> T) (of : D -> res T) node acc n d : (forall x, quiet (of x)) -> quiet (push_back_bot_array oi of node acc n d).
Proof. intros H. unfold push_back_bot_array. destruct node as [[]|]; q. Qed.
Lemma quiet_parse root seed : quiet (parse_config (w_trunc w) root seed).
Proof.
  assert (A : forall st sec tbl, quiet (parse_activity_settings (w_trunc w) st sec tbl)).
  { intros. unfold parse_activity_settings. cbv zeta.
    repeat (apply quiet_bind; [apply quiet_push_back; intros; unfold int_of_double; q|intros]). q. }
  unfold parse_config. cbv zeta. destruct (value_string _); [|q]. apply quiet_bind; [unfold model_string_to_enum; q|]. intros k.
  apply quiet_bind; [|q]. destruct k; cbn [parse_model_settings]; [q| | |q]; (apply quiet_bind; [apply A|q]).
Qed.
Lemma quiet_validate (o : options D) : matching o -> quiet (validate_settings o).
Proof.
  intros HM. unfold validate_settings, matching, validate_activity in *.
  destruct (opt_model o), (opt_settings o); try contradiction; cbn [get_degroot get_activity_driven get_inertial get_deffuant bind]; q.
Qed.
Lemma quiet_print (o : options D) : matching o -> quiet (print_settings o).
Proof.
  intros HM. unfold print_settings, matching in *.
  destruct (opt_model o), (opt_settings o); try contradiction; cbn [get_degroot get_activity_driven get_inertial get_deffuant bind]; q.
Qed.

Lemma parsed_matching root seed (o : options D) : parse_config (w_trunc w) root seed = Ok o -> matching o.
Proof.
  intros E. destruct (parse_inv _ _ _ _ E) as (name & k & st & E1 & E2 & E3 & E4 & E5 & E6).
  unfold matching. rewrite E5, E6. clear - E3. destruct k; cbn [parse_model_settings] in E3.
  - injection E3 as <-. exact I.
  - destruct (parse_activity_settings _ _ _ _); try discriminate. injection E3 as <-. exact I.
  - destruct (parse_activity_settings _ _ _ _); try discriminate. injection E3 as <-. exact I.
  - injection E3 as <-. exact I.
Qed.

(** Whatever the configuration, the input files and the random numbers: the program never stops with
    "Incompatible agent and model type!" or with std::bad_variant_access. *)
Theorem C53_never_incompatible fuel root seed network_file agent_file :
  main w fuel root seed network_file agent_file <> Throw ExIncompatible /\
  main w fuel root seed network_file agent_file <> Throw ExBadVariant.
Proof using Hstod Hread.
  change (quiet (main w fuel root seed network_file agent_file)). unfold main.
  pose proof (quiet_parse root seed) as QP.
  destruct (parse_config (w_trunc w) root seed) as [o|e|u|] eqn:E; cbn [bind].
  - pose proof (parsed_matching root seed o E) as HM.
    apply quiet_bind; [now apply quiet_validate|]. intros _. apply quiet_bind; [now apply quiet_print|]. intros _.
    apply quiet_bind; [now apply quiet_main_simulation|]. intros [x s]. apply quiet_run.
  - destruct QP as [Q1 Q2]. split; congruence.
  - apply quiet_ub.
  - apply quiet_nofuel.
Qed.
End Pairing.

Section Pairing2.
Context {a : Arith} (w : world a).
Notation D := (F a).

Lemma put_agents_runs_as (o : options D) (x : model (a:=a)) l : runs_as o x -> runs_as o (put_agents x l).
Proof. unfold runs_as. destruct (opt_settings o), x; cbn [put_agents]; auto. Qed.
Lemma put_agents_base (x : model (a:=a)) l : base_of (put_agents x l) = base_of x /\ kind_of (put_agents x l) = kind_of x.
Proof. destruct x; split; reflexivity. Qed.

Lemma deffuant_ctor_params (A : Type) (dd : A) mx (t m0 : D) u nt y : deffuant_ctor dd mx t m0 u nt = Ok y ->
  use_network y = u /\ homophily_threshold y = t /\ mu y = m0 /\ df_base y = base_ctor mx.
Proof.
  unfold deffuant_ctor. destruct u; [|intros [= <-]; auto]. cbv zeta. destruct (negb _); [discriminate|].
  destruct (generate_square_lattice _ _ _); try discriminate. cbn [bind]. intros [= <-]. auto.
Qed.

(** What creation gives, before a possible agent file is read. *)
Lemma create_model_inv k (net : network (agent_of D k) D) (o : options D) af s x s' : matching o -> needs o k ->
  create_model w k net o af s = Ok (x, s') ->
  exists x0, create_model w k net o None s = Ok (x0, s') /\ runs_as o x0 /\ kind_of x0 = k /\ n_iterations x0 = 0%Z /\
    max_iterations (base_of x0) = option_map to_size_t (configured_limit o) /\
    match af with
    | None => x = x0
    | Some f => exists contents l, w_read w f = Ok contents /\ read_agents w (kind_of x0) contents = Ok l /\ x = put_agents x0 l
    end.
Proof.
  intros HM HK E. unfold create_model in *.
  match type of E with bind ?m _ = _ => destruct m as [[x0 s0]| | |] eqn:E0; try discriminate end. cbn [bind] in E |- *.
  exists x0.
  assert (s0 = s' /\ match af with None => x = x0 | Some f => exists contents l, w_read w f = Ok contents /\ read_agents w (kind_of x0) contents = Ok l /\ x = put_agents x0 l end) as [-> HA].
  { destruct af as [f|]; [|injection E as <- <-; auto].
    destruct (w_read w f) as [c| | |]; try discriminate. cbn [bind] in E.
    destruct (read_agents w (kind_of x0) c) as [l| | |] eqn:EL; try discriminate. cbn [bind] in E. injection E as <- <-. split; auto. exists c, l. auto. }
  split; [reflexivity|]. clear E.
  assert (G : runs_as o x0 /\ kind_of x0 = k /\ base_of x0 = base_ctor (configured_limit o)).
  { unfold matching, needs, runs_as, configured_limit in *. destruct (opt_model o), (opt_settings o) as [d|st|st|d]; try contradiction.
    - subst k. cbn [create_model_degroot get_degroot bind] in E0. unfold degroot_ctor in E0.
      match type of E0 with context [@MTarjan.strongly_connected_components ?A ?B ?q] => destruct (@MTarjan.strongly_connected_components A B q); try discriminate end.
      cbn [bind] in E0. rewrite spread_ok in E0. cbn [bind] in E0. injection E0 as <- <-. auto.
    - subst k. cbn [create_model_activity_driven get_activity_driven bind] in E0. unfold ad_ctor in E0. cbv zeta in E0.
      destruct (get_agents_from_power_law _ _ _ _ _ _) as [[l s1]| | |]; try discriminate. cbn [bind] in E0.
      destruct (mean_weights st); [destruct (generate_fully_connected _ _ _); try discriminate|]; cbn [bind] in E0; injection E0 as <- <-; auto.
    - subst k. cbn [create_model_activity_driven_inertial get_inertial bind] in E0. unfold inertial_ctor, ad_ctor in E0. cbv zeta in E0.
      destruct (get_agents_from_power_law _ _ _ _ _ _) as [[l s1]| | |]; try discriminate. cbn [bind] in E0.
      destruct (mean_weights (in_activity st)); [destruct (generate_fully_connected _ _ _); try discriminate|]; cbn [bind] in E0; injection E0 as <- <-; auto.
    - cbn [get_deffuant bind] in E0. destruct (df_use_binary_vector d); subst k.
      + cbn [create_model_deffuant_vector get_deffuant bind] in E0.
        destruct (deffuant_ctor _ _ _ _ _ _) as [y| | |] eqn:EC; try discriminate. cbn [bind] in E0. apply deffuant_ctor_params in EC as (P1 & P2 & P3 & P4).
        destruct (initialize_agents_vector _ _ _ _) as [[l s1]| | |]; try discriminate. cbn [bind put_agents] in E0. injection E0 as <- <-. auto 6.
      + cbn [create_model_deffuant get_deffuant bind] in E0.
        destruct (deffuant_ctor _ _ _ _ _ _) as [y| | |] eqn:EC; try discriminate. cbn [bind] in E0. apply deffuant_ctor_params in EC as (P1 & P2 & P3 & P4).
        destruct (initialize_agents_simple _) as [l| | |]; try discriminate. cbn [bind put_agents] in E0. injection E0 as <- <-. auto 6. }
  destruct G as (G1 & G2 & G3). split; auto. split; auto. unfold n_iterations. rewrite G3. split; [reflexivity|]. split; [reflexivity|exact HA].
Qed.

(** The simulation that main creates is of the model the configuration names, with the configured
    parameters, whether or not input files are given. *)
Theorem C53_right_model root seed (o : options D) network_file agent_file x s :
  parse_config (w_trunc w) root seed = Ok o ->
  main_simulation w o network_file agent_file = Ok (x, s) ->
  runs_as o x /\ needs o (kind_of x) /\
  max_iterations (base_of x) = option_map (fun limit => (limit mod 2 ^ 64)%Z) (configured_limit o).
Proof.
  intros EP E. pose proof (parsed_matching w root seed o EP) as HM.
  destruct (main_simulation_needs w o network_file agent_file HM) as (k & HK & EQ). rewrite EQ in E. unfold simulation_ctor in E. cbv zeta in E.
  destruct (create_network _ _ _ _ _) as [[net s0]| | |]; try discriminate. cbn [bind] in E.
  destruct (create_model_inv _ _ _ _ _ _ _ HM HK E) as (x0 & _ & R & K & I & M & HA).
  destruct agent_file as [f|].
  - destruct HA as (c & l & _ & _ & ->). destruct (put_agents_base x0 l) as [B K']. rewrite B, K', K. split; [now apply put_agents_runs_as|]. auto.
  - subst x0. rewrite K. auto.
Qed.

(** A simulation of another agent type is refused. *)
Theorem C53_wrong_agent_type_refused k (o : options D) network_file agent_file net s :
  matching o -> ~ needs o k ->
  create_network w k o network_file (w_seed w (opt_rng_seed o)) = Ok (net, s) ->
  simulation_ctor w k o network_file agent_file = Throw ExIncompatible.
Proof.
  intros HM HK E. unfold simulation_ctor. cbv zeta. rewrite E. cbn [bind]. unfold create_model, matching, needs in *.
  destruct (opt_model o), (opt_settings o) as [d|st|st|d]; try contradiction.
  - destruct k; try reflexivity. congruence.
  - destruct k; try reflexivity. congruence.
  - destruct k; try reflexivity. congruence.
  - cbn [get_deffuant bind]. destruct (df_use_binary_vector d); destruct k; try reflexivity; congruence.
Qed.
End Pairing2.

(** ** C54 *)
Section Output.
Context {a : Arith} (w : world a).
Notation state := (model (a:=a) * rst (w_gen w))%type.

(** The files of a run, in order, are exactly those of the schedule, and each shows the state it
    belongs to. *)
Theorem C54_schedule fuel os (x : model (a:=a)) s x' s' files :
  (0 <= start_numbering_from os)%Z -> (Z.of_nat fuel + start_numbering_from os < 2 ^ 64)%Z ->
  run w fuel os x s = Ok (x', s', files) ->
  exists k st, st 0 = (model_initialize_iterations x, s) /\ st k = (x', s') /\ trajectory w st k /\
    n_iterations x' = Z.of_nat k /\
    Forall2 (shows w) (schedule w os x st k) files.
Proof.
  intros H1 H2 E. destruct (run_spec w fuel os x s x' s' files H1 H2 E) as (k & st & _ & K1 & K2 & K3 & _ & K4 & K5). exists k, st. auto.
Qed.

Lemma fmt_Z_inj m n : (0 <= m)%Z -> (0 <= n)%Z -> fmt_Z m = fmt_Z n -> m = n.
Proof.
  intros Hm Hn. unfold fmt_Z. destruct (Z.ltb_spec m 0); [lia|]. destruct (Z.ltb_spec n 0); [lia|]. intros E.
  destruct (fmt_N_ok (Z.to_N m)) as (_ & _ & A). destruct (fmt_N_ok (Z.to_N n)) as (_ & _ & B). rewrite E in A. lia.
Qed.
Lemma opinions_inj m n : (0 <= m)%Z -> (0 <= n)%Z -> opinions_name m = opinions_name n -> m = n.
Proof. intros Hm Hn E. unfold opinions_name in E. apply app_inv_head in E. apply app_inv_tail in E. now apply fmt_Z_inj. Qed.
Lemma network_inj m n : (0 <= m)%Z -> (0 <= n)%Z -> network_name m = network_name n -> m = n.
Proof. intros Hm Hn E. unfold network_name in E. apply app_inv_head in E. apply app_inv_tail in E. now apply fmt_Z_inj. Qed.
Lemma names_differ m n : opinions_name m <> network_name n.
Proof. unfold opinions_name, network_name. cbn. discriminate. Qed.

Definition plan_name (p : planned (a:=a)) : text :=
  match p with (OpinionsFile, n, _) => opinions_name n | (NetworkFile, n, _) => network_name n end.
Lemma shows_name p f : shows w p f -> fst f = plan_name p.
Proof. destruct p as [[[] n] x]; intros [E _]; exact E. Qed.
Lemma names_of_plan ps fs : Forall2 (shows w) ps fs -> map fst fs = map plan_name ps.
Proof. induction 1 as [|p f ps fs H _ IH]; [reflexivity|]. cbn. rewrite (shows_name _ _ H), IH. reflexivity. Qed.

Lemma due_iff every start i : is_due every start i = true <->
  exists k, every = Some k /\ (start <= Z.of_nat i)%Z /\ (Z.of_nat i mod k = 0)%Z.
Proof.
  unfold is_due. destruct every as [k|].
  - rewrite andb_true_iff, Z.leb_le, Z.eqb_eq. split; [intros [? ?]; eauto|]. intros (k' & [= <-] & ? & ?). auto.
  - split; [discriminate|]. intros (k & ? & _). discriminate.
Qed.

Lemma in_schedule os x (st : nat -> state) k p : In p (schedule w os x st k) <->
  (output_initial os = true /\ (p = (NetworkFile, start_numbering_from os, x) \/ p = (OpinionsFile, start_numbering_from os, x))) \/
  exists i, 1 <= i <= k /\
    ((p = (OpinionsFile, (Z.of_nat i + start_numbering_from os)%Z, fst (st i)) /\ is_due (n_output_agents os) (start_output os) i = true) \/
     (p = (NetworkFile, (Z.of_nat i + start_numbering_from os)%Z, fst (st i)) /\ is_due (n_output_network os) (start_output os) i = true)).
Proof.
  unfold schedule. rewrite in_app_iff, in_flat_map.
  split.
  - intros [H|(i & Hi & H)].
    + left. destruct (output_initial os); [|destruct H]. cbn in H. split; auto. destruct H as [<-|[<-|[]]]; auto.
    + right. apply in_seq in Hi. exists i. split; [lia|]. apply in_app_iff in H as [H|H].
      * left. destruct (is_due (n_output_agents os) _ i); [|destruct H]. destruct H as [<-|[]]; auto.
      * right. destruct (is_due (n_output_network os) _ i); [|destruct H]. destruct H as [<-|[]]; auto.
  - intros [(-> & H)|(i & Hi & H)].
    + left. cbn. destruct H as [->| ->]; auto.
    + right. exists i. split; [apply in_seq; lia|]. apply in_app_iff. destruct H as [(-> & ->)|(-> & ->)]; [left|right]; now left.
Qed.

(** Which opinions files exist after a run of k iterations ... *)
Theorem C54_opinions_files fuel os (x : model (a:=a)) s x' s' files number :
  (0 <= start_numbering_from os)%Z -> (Z.of_nat fuel + start_numbering_from os < 2 ^ 64)%Z ->
  run w fuel os x s = Ok (x', s', files) -> (0 <= number)%Z ->
  (In (opinions_name number) (map fst files) <->
   (output_initial os = true /\ number = start_numbering_from os) \/
   exists i every, (1 <= i <= n_iterations x')%Z /\ number = (i + start_numbering_from os)%Z /\
     (start_output os <= i)%Z /\ n_output_agents os = Some every /\ (i mod every = 0)%Z).
Proof.
  intros H1 H2 E HN. destruct (run_spec w fuel os x s x' s' files H1 H2 E) as (k & st & _ & _ & _ & _ & _ & K4 & K5).
  rewrite (names_of_plan _ _ K5), in_map_iff, K4. split.
  - intros ([[kd n] y] & E1 & Hin). apply in_schedule in Hin as [(HO & Hp)|(i & Hi & [(Hp & Hd)|(Hp & Hd)])].
    + left. split; auto. destruct Hp as [[= -> -> ->]|[= -> -> ->]]; cbn in E1; [now destruct (names_differ number (start_numbering_from os))|].
      symmetry. apply opinions_inj in E1; auto.
    + injection Hp as -> -> ->. right. apply due_iff in Hd as (e & D1 & D2 & D3). exists (Z.of_nat i), e. cbn in E1. apply opinions_inj in E1; auto; try lia. split; [lia|]. split; [lia|]. auto.
    + injection Hp as -> -> ->. cbn in E1. exfalso. exact (names_differ _ _ (eq_sym E1)).
  - intros [(HO & ->)|(i & e & Hi & -> & D1 & D2 & D3)].
    + exists (OpinionsFile, start_numbering_from os, x). split; [reflexivity|]. apply in_schedule. left. auto.
    + exists (OpinionsFile, (i + start_numbering_from os)%Z, fst (st (Z.to_nat i))). split; [reflexivity|]. apply in_schedule. right.
      exists (Z.to_nat i). split; [lia|]. left. rewrite Z2Nat.id by lia. split; auto. apply due_iff. exists e. rewrite Z2Nat.id by lia. auto.
Qed.
(** ... and which network files. *)
Theorem C54_network_files fuel os (x : model (a:=a)) s x' s' files number :
  (0 <= start_numbering_from os)%Z -> (Z.of_nat fuel + start_numbering_from os < 2 ^ 64)%Z ->
  run w fuel os x s = Ok (x', s', files) -> (0 <= number)%Z ->
  (In (network_name number) (map fst files) <->
   (output_initial os = true /\ number = start_numbering_from os) \/
   exists i every, (1 <= i <= n_iterations x')%Z /\ number = (i + start_numbering_from os)%Z /\
     (start_output os <= i)%Z /\ n_output_network os = Some every /\ (i mod every = 0)%Z).
Proof.
  intros H1 H2 E HN. destruct (run_spec w fuel os x s x' s' files H1 H2 E) as (k & st & _ & _ & _ & _ & _ & K4 & K5).
  rewrite (names_of_plan _ _ K5), in_map_iff, K4. split.
  - intros ([[kd n] y] & E1 & Hin). apply in_schedule in Hin as [(HO & Hp)|(i & Hi & [(Hp & Hd)|(Hp & Hd)])].
    + left. split; auto. destruct Hp as [[= -> -> ->]|[= -> -> ->]]; cbn in E1; [|now destruct (names_differ (start_numbering_from os) number)].
      symmetry. apply network_inj in E1; auto.
    + injection Hp as -> -> ->. cbn in E1. exfalso. exact (names_differ _ _ E1).
    + injection Hp as -> -> ->. right. apply due_iff in Hd as (e & D1 & D2 & D3). exists (Z.of_nat i), e. cbn in E1. apply network_inj in E1; auto; try lia. split; [lia|]. split; [lia|]. auto.
  - intros [(HO & ->)|(i & e & Hi & -> & D1 & D2 & D3)].
    + exists (NetworkFile, start_numbering_from os, x). split; [reflexivity|]. apply in_schedule. left. auto.
    + exists (NetworkFile, (i + start_numbering_from os)%Z, fst (st (Z.to_nat i))). split; [reflexivity|]. apply in_schedule. right.
      exists (Z.to_nat i). split; [lia|]. right. rewrite Z2Nat.id by lia. split; auto. apply due_iff. exists e. rewrite Z2Nat.id by lia. auto.
Qed.

(** No file is written twice. *)
Lemma nodup_app {X} (l1 l2 : list X) : NoDup l1 -> NoDup l2 -> (forall y, In y l1 -> In y l2 -> False) -> NoDup (l1 ++ l2).
Proof.
  induction 1 as [|y l1 Hy _ IH]; intros H2 HD; cbn; auto. constructor.
  - rewrite in_app_iff. intros [H|H]; [auto|]. apply (HD y); [now left|auto].
  - apply IH; auto. intros z Hz. apply HD. now right.
Qed.
Theorem C54_no_file_twice fuel os (x : model (a:=a)) s x' s' files :
  (0 <= start_numbering_from os)%Z -> (Z.of_nat fuel + start_numbering_from os < 2 ^ 64)%Z ->
  run w fuel os x s = Ok (x', s', files) -> NoDup (map fst files).
Proof.
  intros H1 H2 E. destruct (run_spec w fuel os x s x' s' files H1 H2 E) as (k & st & _ & _ & _ & _ & _ & _ & K5).
  rewrite (names_of_plan _ _ K5). unfold schedule. rewrite map_app. apply nodup_app.
  - destruct (output_initial os); cbn; repeat constructor; cbn; try tauto. intros [H|[]]. exact (names_differ _ _ H).
  - assert (G : forall n i0, 1 <= i0 -> NoDup (map plan_name (flat_map (fun i => let n := (Z.of_nat i + start_numbering_from os)%Z in
       (if is_due (n_output_agents os) (start_output os) i then [(OpinionsFile, n, fst (st i))] else []) ++
       (if is_due (n_output_network os) (start_output os) i then [(NetworkFile, n, fst (st i))] else [])) (seq i0 n)))).
    { induction n as [|n IH]; intros i0 Hi; cbn [seq flat_map map]; [constructor|]. rewrite map_app. apply nodup_app; [|apply IH; lia|].
      - cbv zeta. destruct (is_due (n_output_agents os) _ i0), (is_due (n_output_network os) _ i0); cbn; repeat constructor; cbn; try tauto.
        intros [H|[]]. exact (names_differ _ _ (eq_sym H)).
      - intros y Hy Hy2. apply in_map_iff in Hy as (p & <- & Hp). apply in_map_iff in Hy2 as (p2 & E2 & Hp2).
        apply in_flat_map in Hp2 as (j & Hj & Hp2). apply in_seq in Hj. cbv zeta in *. apply in_app_iff in Hp, Hp2.
        destruct Hp as [Hp|Hp], Hp2 as [Hp2|Hp2];
        repeat match goal with H : In _ (if ?b then _ else _) |- _ => destruct b; [destruct H as [<-|[]]|destruct H] end; cbn in E2.
        + apply opinions_inj in E2; lia.
        + exact (names_differ _ _ (eq_sym E2)).
        + exact (names_differ _ _ E2).
        + apply network_inj in E2; lia. }
    apply (G k 1); lia.
  - intros y Hy Hy2. apply in_map_iff in Hy2 as (p2 & E2 & Hp2). apply in_flat_map in Hp2 as (j & Hj & Hp2). apply in_seq in Hj. cbv zeta in *.
    destruct (output_initial os); [|destruct Hy]. cbn in Hy. apply in_app_iff in Hp2.
    destruct Hp2 as [Hp2|Hp2];
      repeat match goal with H : In _ (if ?b then _ else _) |- _ => destruct b; [destruct H as [<-|[]]|destruct H] end; cbn in E2.
    + destruct Hy as [Hy|[Hy|[]]]; [exact (names_differ _ _ (eq_trans E2 (eq_sym Hy)))|]. pose proof (eq_trans E2 (eq_sym Hy)) as E3. apply opinions_inj in E3; lia.
    + destruct Hy as [Hy|[Hy|[]]]; [|exact (names_differ _ _ (eq_trans Hy (eq_sym E2)))]. pose proof (eq_trans E2 (eq_sym Hy)) as E3. apply network_inj in E3; lia.
Qed.

(** An output interval of 0 is accepted by the program, but a run that reaches start_output then
    takes a number modulo 0: it cannot end normally. *)
Theorem C54_zero_interval fuel os (x : model (a:=a)) s x' s' files :
  n_output_agents os = Some 0%Z \/ n_output_network os = Some 0%Z ->
  (0 <= start_numbering_from os)%Z -> (Z.of_nat fuel + start_numbering_from os < 2 ^ 64)%Z ->
  run w fuel os x s = Ok (x', s', files) -> (n_iterations x' < Z.max 1 (start_output os))%Z.
Proof.
  intros HZ H1 H2 E. unfold run in E.
  match type of E with (log <- ?m ;; _) = _ => destruct m as [log0| | |] eqn:EL; try discriminate end. cbn [bind] in E.
  pose proof (proj1 (init_iterations x)) as HN. revert E HN. generalize (model_initialize_iterations x). clear x EL. intros x E HN.
  assert (G : forall fuel j x s log, n_iterations x = Z.of_nat j -> (Z.of_nat (j + fuel) + start_numbering_from os < 2 ^ 64)%Z ->
    (Z.of_nat j < Z.max 1 (start_output os))%Z ->
    run_loop w fuel os x s log = Ok (x', s', files) -> (n_iterations x' < Z.max 1 (start_output os))%Z).
  { clear - HZ H1. induction fuel as [|fuel IH]; intros j x s log HN HB Hj E; cbn [run_loop] in E; [discriminate|].
    destruct (model_finished x); [injection E as <- <- <-; lia|].
    destruct (model_iteration w x s) as [[x1 s1]| | |] eqn:EI; try discriminate. cbn [bind] in E.
    destruct (iteration_base _ _ _ _ _ EI) as [B1 _].
    assert (J1 : n_iterations x1 = Z.of_nat (j + 1)).
    { unfold n_iterations in *. rewrite B1. cbn [base_iteration iterations]. rewrite HN. unfold to_size_t. rewrite Z.mod_small; lia. }
    rewrite J1 in E.
    destruct (due (n_output_agents os) (start_output os) (Z.of_nat (j + 1))) as [b1| | |] eqn:D1; try discriminate. cbn [bind] in E.
    match type of E with (log <- ?m ;; _) = _ => destruct m as [log1| | |]; try discriminate end. cbn [bind] in E.
    destruct (due (n_output_network os) (start_output os) (Z.of_nat (j + 1))) as [b2| | |] eqn:D2; try discriminate. cbn [bind] in E.
    match type of E with (log <- ?m ;; _) = _ => destruct m as [log2| | |]; try discriminate end. cbn [bind] in E.
    assert ((Z.of_nat (j + 1) < start_output os)%Z).
    { unfold due in D1, D2. destruct HZ as [HZ|HZ]; rewrite HZ in *.
      - destruct (Z.leb_spec (start_output os) (Z.of_nat (j + 1))); [discriminate|lia].
      - destruct (Z.leb_spec (start_output os) (Z.of_nat (j + 1))); [discriminate|lia]. }
    apply (IH (j + 1) x1 s1 log2 J1); auto; lia. }
  apply (G fuel 0 x s log0); auto; lia.
Qed.
End Output.

(** ** C55 *)
Section Length.
Context {a : Arith} (w : world a).
Notation state := (model (a:=a) * rst (w_gen w))%type.

Theorem C55_exactly_the_limit fuel os (x : model (a:=a)) s x' s' files limit :
  (0 <= start_numbering_from os)%Z -> (Z.of_nat fuel + start_numbering_from os < 2 ^ 64)%Z ->
  counts_only x -> max_iterations (base_of x) = Some limit -> (0 <= limit)%Z ->
  run w fuel os x s = Ok (x', s', files) ->
  exists st, st 0 = (model_initialize_iterations x, s) /\ st (Z.to_nat limit) = (x', s') /\
    trajectory w st (Z.to_nat limit) /\ n_iterations x' = limit /\
    max_iterations (base_of x') = Some limit /\ counts_only x'.
Proof.
  intros H1 H2 HC HM HL E. destruct (run_spec w fuel os x s x' s' files H1 H2 E) as (k & st & K0 & K1 & K2 & K3 & K5 & K4 & _).
  destruct (init_iterations x) as (I1 & I2 & I3).
  assert (C : forall i, i <= k -> counts_only (fst (st i))).
  { apply (counts_only_trajectory w st k K3). rewrite K1. now apply counts_only_init. }
  assert (T := trajectory_counts w st k K3). rewrite K1 in T. specialize (T I1 ltac:(lia)). cbn [fst] in T. rewrite I2, HM in T.
  assert (HK : Z.of_nat k = limit).
  { destruct (T k (le_n k)) as (T1 & T2 & _). rewrite K2 in T1, T2. cbn [fst] in T1, T2.
    assert (CK := C k (le_n k)). rewrite K2 in CK. cbn [fst] in CK. rewrite (finished_counts_only x' CK) in K5.
    apply base_finished_spec in K5 as (m0 & E1 & E2). rewrite T2 in E1. injection E1 as <-. unfold n_iterations in K4. rewrite K4 in E2.
    destruct k as [|k]; [lia|]. destruct (K3 k ltac:(lia)) as [NF _]. rewrite (finished_counts_only _ (C k ltac:(lia))) in NF.
    destruct (T k ltac:(lia)) as (T3 & T4 & _). unfold n_iterations in T3. unfold base_finished in NF. rewrite T4, T3 in NF. apply Z.leb_gt in NF. lia. }
  exists st. rewrite <- HK, Nat2Z.id. split; auto. split; auto. split; auto. split; [lia|].
  destruct (T k (le_n k)) as (_ & T2 & _). rewrite K2 in T2. cbn [fst] in T2. rewrite HK. split; auto.
  pose proof (C k (le_n k)) as CK. rewrite K2 in CK. exact CK.
Qed.

(** Running again starts counting afresh: another [limit] iterations. *)
Theorem C55_run_again fuel fuel' os os' (x : model (a:=a)) s x1 s1 files1 x2 s2 files2 limit :
  (0 <= start_numbering_from os)%Z -> (Z.of_nat fuel + start_numbering_from os < 2 ^ 64)%Z ->
  (0 <= start_numbering_from os')%Z -> (Z.of_nat fuel' + start_numbering_from os' < 2 ^ 64)%Z ->
  counts_only x -> max_iterations (base_of x) = Some limit -> (0 <= limit)%Z ->
  run w fuel os x s = Ok (x1, s1, files1) -> run w fuel' os' x1 s1 = Ok (x2, s2, files2) ->
  exists st, st 0 = (model_initialize_iterations x1, s1) /\ st (Z.to_nat limit) = (x2, s2) /\
    trajectory w st (Z.to_nat limit) /\ n_iterations x2 = limit.
Proof.
  intros A1 A2 B1 B2 HC HM HL E1 E2.
  destruct (C55_exactly_the_limit fuel os x s x1 s1 files1 limit A1 A2 HC HM HL E1) as (_ & _ & _ & _ & _ & M1 & C1).
  destruct (C55_exactly_the_limit fuel' os' x1 s1 x2 s2 files2 limit B1 B2 C1 M1 HL E2) as (st & S1 & S2 & S3 & S4 & _). exists st. auto.
Qed.

(** Without a limit these models never finish, whatever the number of iterations. *)
Theorem C55_no_limit_never_stops fuel os (x : model (a:=a)) s r :
  counts_only x -> max_iterations (base_of x) = None -> run w fuel os x s <> Ok r.
Proof.
  intros HC HM E. unfold run in E.
  match type of E with (log <- ?m ;; _) = _ => destruct m as [log0| | |]; try discriminate end. cbn [bind] in E.
  destruct (init_iterations x) as (_ & I2 & _). rewrite HM in I2. apply counts_only_init in HC.
  revert E HC I2. generalize (model_initialize_iterations x). clear x HM. intros x. revert x s log0.
  induction fuel as [|fuel IH]; intros x s log0 E HC HM; cbn [run_loop] in E; [discriminate|].
  rewrite (finished_counts_only x HC) in E. unfold base_finished in E. rewrite HM in E.
  destruct (model_iteration w x s) as [[x1 s1]| | |] eqn:EI; try discriminate. cbn [bind] in E.
  destruct (iteration_base _ _ _ _ _ EI) as [B1 _].
  destruct (due _ _ _) as [b1| | |]; try discriminate. cbn [bind] in E.
  match type of E with (log <- ?m ;; _) = _ => destruct m as [log1| | |]; try discriminate end. cbn [bind] in E.
  destruct (due _ _ _) as [b2| | |]; try discriminate. cbn [bind] in E.
  match type of E with (log <- ?m ;; _) = _ => destruct m as [log2| | |]; try discriminate end. cbn [bind] in E.
  apply (IH x1 s1 log2 E); [eapply counts_only_next; eauto|]. rewrite B1. exact HM.
Qed.

(** DeGroot stops at the limit at the latest; if it stops before, its convergence criterion holds. *)
Theorem C55_degroot_at_most_the_limit fuel os (d : degroot a) s x' s' files limit :
  (0 <= start_numbering_from os)%Z -> (Z.of_nat fuel + start_numbering_from os < 2 ^ 64)%Z ->
  max_iterations (dg_base d) = Some limit -> (0 <= limit)%Z ->
  run w fuel os (MDeGroot d) s = Ok (x', s', files) ->
  (0 <= n_iterations x' <= limit)%Z /\
  ((n_iterations x' < limit)%Z -> exists d' diff, x' = MDeGroot d' /\ max_opinion_diff d' = Some diff /\ flt a diff (convergence_tol d') = true).
Proof.
  intros H1 H2 HM HL E. destruct (run_spec w fuel os _ s x' s' files H1 H2 E) as (k & st & K0 & K1 & K2 & K3 & K5 & K4 & _).
  destruct (init_iterations (MDeGroot d)) as (I1 & I2 & I3).
  assert (T := trajectory_counts w st k K3). rewrite K1 in T. specialize (T I1 ltac:(lia)). cbn [fst] in T. rewrite I2 in T. cbn [base_of] in T. rewrite HM in T.
  split.
  - split; [lia|]. destruct k as [|k]; [lia|]. destruct (K3 k ltac:(lia)) as [NF _].
    destruct (T k ltac:(lia)) as (T3 & T4 & _).
    destruct (base_finished (base_of (fst (st k)))) eqn:EB; [apply finished_limit in EB; congruence|].
    unfold n_iterations in T3. unfold base_finished in EB. rewrite T4, T3 in EB. apply Z.leb_gt in EB. lia.
  - intros HLt. assert (exists d', x' = MDeGroot d') as (d' & ->).
    { assert (Q : forall i, i <= k -> exists d', fst (st i) = MDeGroot d').
      { induction i as [|i IH]; intros Hi; [rewrite K1; cbn; eauto|]. destruct (IH ltac:(lia)) as (d1 & Ed). destruct (K3 i ltac:(lia)) as [_ EI].
        rewrite Ed in EI. cbn [model_iteration] in EI. destruct (degroot_iteration d1); try discriminate. cbn [bind] in EI. injection EI as EI. rewrite <- EI. cbn. eauto. }
      specialize (Q k (le_n k)). rewrite K2 in Q. exact Q. }
    exists d'. cbn [model_finished] in K5. unfold degroot_finished in K5. apply orb_true_iff in K5 as [K5|K5].
    + apply base_finished_spec in K5 as (m0 & M1 & M2). destruct (T k (le_n k)) as (_ & T2 & _). rewrite K2 in T2. cbn [fst base_of] in T2.
      rewrite T2 in M1. injection M1 as <-. unfold n_iterations in HLt. cbn [base_of] in HLt. lia.
    + destruct (max_opinion_diff d') as [diff|]; [|discriminate]. eauto.
Qed.

(** DeGroot keeps the last change of the previous run: a model that has converged does nothing when
    it is run again, although the iteration count restarts and the opinions may have been replaced. *)
Theorem C55_degroot_run_again_refuted fuel os (d : degroot a) s diff : 0 < fuel ->
  output_initial os = false -> max_opinion_diff d = Some diff -> flt a diff (convergence_tol d) = true ->
  run w fuel os (MDeGroot d) s = Ok (model_initialize_iterations (MDeGroot d), s, []).
Proof.
  intros HF HO HD HT. unfold run. rewrite HO. cbn [bind]. destruct fuel; [lia|]. cbn [run_loop model_initialize_iterations model_finished].
  unfold degroot_finished. cbn [max_opinion_diff convergence_tol dg_base]. rewrite HD, HT. now rewrite orb_true_r.
Qed.
End Length.

(** ** C59: configurations whose sizes fit run to the end *)
Section Complete.
Context {a : Arith} (w : world a).
Hypothesis (HS : sample_ok (w_gen w)) (HI : SRandom.int_ok (w_gen w)) (HQ : pq_bag (w_pq w)).

Theorem C59_runs_to_the_end root seed (o : options (F a)) limit fuel :
  parse_config (w_trunc w) root seed = Ok o -> validate_settings o = Ok tt ->
  sizes_fit o -> configured_limit o = Some limit -> (0 <= limit)%Z -> (limit < Z.of_nat fuel)%Z ->
  n_output_agents (opt_output o) <> Some 0%Z -> n_output_network (opt_output o) <> Some 0%Z ->
  (limit < 2 ^ 31)%Z ->
  exists x s files, main w fuel root seed None None = Ok (x, s, files) /\ runs_as o x /\
    Z.of_nat (n_agents (net_of x)) = net_n_agents (opt_network o) /\ wf (net_of x).
Proof using HS HI HQ.
  intros EP EV HF HL H0 HB Z1 Z2 H31. unfold main. rewrite EP. cbn [bind]. rewrite EV. cbn [bind].
  pose proof (parsed_matching w root seed o EP) as HM.
  assert (EPr : print_settings o = Ok tt).
  { unfold print_settings, matching in *. destruct (opt_model o), (opt_settings o); try contradiction; reflexivity. }
  rewrite EPr. cbn [bind].
  destruct (main_simulation_ok w HS HI o HF HM) as (x & s & E & R & RA & I & M & N). rewrite E. cbn [bind].
  rewrite HL in M. cbn [option_map] in M.
  assert (EL : to_size_t limit = Z.of_nat (Z.to_nat limit)) by (unfold to_size_t; rewrite Z.mod_small; lia). rewrite EL in M.
  destruct (run_total w HS HI HQ (opt_output o) (Z.to_nat limit) x s fuel Z1 Z2 R M ltac:(lia) ltac:(lia)) as (x' & s' & files & ER & R' & N' & RA').
  exists x', s', files. split; [exact ER|]. split; [auto|]. split; [lia|apply R'].
Qed.
End Complete.
