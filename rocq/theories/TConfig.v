(** Property theorems C51, C52: configuration files and validation. *)
From Verif Require Import Base BaseFacts Arith64 MNetwork MText MActivity MConfig SConfig PConfig.
From Coq Require Import Reals Lra.
From Flocq Require Import IEEE754.BinarySingleNaN.

(** C51. Validation accepts exactly the options in range (doubles: NaN is never in range). *)
Theorem C51_validated_iff_in_range (o : options Arith64.float) :
  matching o -> (0 <= start_numbering_from (opt_output o))%Z ->
  (validate_settings (a:=FA) o = Ok tt <-> options_in_range o) /\
  (validate_settings (a:=FA) o = Throw ExRuntime <-> ~ options_in_range o).
Proof.
  intros HM HN. destruct (validate_verdict o HM HN) as [[E H]|[E H]]; rewrite E; split; split; auto; try congruence; tauto.
Qed.

(** Consequences spelled out: no double among the checked ones is a NaN. *)
Theorem C51_no_nan (o : options Arith64.float) st :
  matching o -> (0 <= start_numbering_from (opt_output o))%Z ->
  validate_settings (a:=FA) o = Ok tt ->
  opt_settings o = ActivityDrivenSettings st ->
  is_nan (dt st) = false /\ is_nan (eps st) = false /\ is_nan (gamma st) = false /\ is_nan (alpha st) = false /\
  is_nan (reciprocity st) = false /\ is_nan (reluctance_mean st) = false /\ is_nan (reluctance_sigma st) = false /\
  is_nan (reluctance_eps st) = false /\ is_finite (covariance_factor st) = true.
Proof.
  intros HM HN E ES. apply C51_validated_iff_in_range in E as [_ E]; auto. rewrite ES in E. cbn [settings_in_range] in E.
  destruct E as (H1 & _ & H2 & H3 & H4 & H5 & H6 & H7 & H8 & H9 & H10 & _).
  repeat split; try (match goal with H : above ?x _ |- is_nan ?x = _ => now destruct x | H : at_least ?x _ |- is_nan ?x = _ => now destruct x end).
  destruct (covariance_factor st); cbn in *; congruence || tauto.
Qed.

(** homophily and K are not checked at all, and neither is the relation between the bots or m and the
    number of agents: a validated option record may still be unusable (see C42, C38). *)
Definition nan_options : options Arith64.float :=
  mkOptions ActivityDriven (lit "ActivityDriven") 1 default_output
    (ActivityDrivenSettings
       (mkADS None (flit FA 1 100) 10 (flit FA 1 100) (flit FA 21 10) (fofZ FA 3) B754_nan (flit FA 1 2) B754_nan
        false false 3 [10; 10; -1]%Z (repeat (fofZ FA 1) 3) (repeat (f0 FA) 3) (repeat B754_nan 3)
        false (fofZ FA 1) (flit FA 1 4) (flit FA 1 100) (f0 FA)))
    (mkNS None 2 10).
Theorem C51_validated_is_usable_refuted :
  validate_settings (a:=FA) nan_options = Ok tt /\
  exists st, opt_settings nan_options = ActivityDrivenSettings st /\
    is_nan (homophily st) = true /\ is_nan (K st) = true /\
    (net_n_agents (opt_network nan_options) < Z.of_nat (n_bots st))%Z /\
    (net_n_agents (opt_network nan_options) < m st)%Z /\
    exists i, (i < n_bots st)%nat /\ (nth i (bot_m st) 0 < 0)%Z.
Proof.
  split; [vm_compute; reflexivity|]. eexists. split; [reflexivity|]. cbn. repeat split; try lia.
  exists 2%nat. split; [lia|]. cbn. lia.
Qed.

(** The default settings of every model are valid. *)
Theorem C51_defaults_valid k name seed nt :
  exists s, matching (mkOptions k name seed default_output s nt) /\
    validate_settings (a:=FA) (mkOptions k name seed default_output s nt) = Ok tt /\
    match k with
    | DeGroot => s = DeGrootSettings default_degroot
    | ActivityDriven => s = ActivityDrivenSettings default_activity
    | ActivityDrivenInertial => s = ActivityDrivenInertialSettings default_inertial
    | Deffuant => s = DeffuantSettings default_deffuant
    end.
Proof. destruct k; eexists; (split; [|split; [|reflexivity]]); [exact I| |exact I| |exact I| |exact I|]; vm_compute; reflexivity. Qed.

Print Assumptions C51_validated_iff_in_range.
Print Assumptions C51_no_nan.
Print Assumptions C51_validated_is_usable_refuted.
Print Assumptions C51_defaults_valid.

(** C52. *)
Section Parse.
Context {a : Arith} (trunc : F a -> option Z).
Notation D := (F a).
Notation file := (list (text * toml D)).

(** The integers of a TOML file are 64-bit. *)
Definition ints64 (root : file) : Prop := forall s k z, entry root s k (TInt z) -> (z < 2 ^ 63)%Z.
Lemma ints64_node root s k : ints64 root -> int64_node (at_key (at_key (Some (TTable root)) s) k).
Proof. intros H z E. apply at_key_entry in E. eauto. Qed.

Ltac spec_field := first
  [ apply specified_intro; intros; apply value_double_spec
  | apply specified_intro; intros; apply value_bool_spec
  | apply (specified_intro _ _ _ (value_int trunc)); intros; apply value_int_spec
  | apply (specified_intro _ _ _ (value_size trunc)); intros; apply value_size_spec; apply ints64_node; assumption
  | apply (specified_opt_intro _ _ _ (value_int trunc)); intros; apply value_int_spec
  | apply (specified_opt_intro _ _ _ (value_size trunc)); intros; apply value_size_spec; apply ints64_node; assumption ].

Lemma parse_inv root seed o : parse_config trunc root seed = Ok o ->
  exists name k st, value_string (at_key (at_key (Some (TTable root)) (lit "simulation")) (lit "model")) = Some name /\
    model_string_to_enum name = Ok k /\ parse_model_settings trunc k name (Some (TTable root)) = Ok st /\
    opt_model_string o = name /\ opt_model o = k /\ opt_settings o = st.
Proof.
  unfold parse_config. intros E. destruct (value_string _) as [name|]; [|discriminate].
  destruct (model_string_to_enum name) as [k| | |] eqn:Ek; try discriminate. cbn [bind] in E.
  destruct (parse_model_settings _ _ _ _) as [st| | |] eqn:Es; try discriminate. cbn [bind] in E. injection E as <-.
  exists name, k, st. auto 10.
Qed.

Lemma model_enum_name name k : model_string_to_enum name = Ok k <-> model_name name k.
Proof.
  unfold model_string_to_enum. split.
  - repeat (match goal with |- context [text_eqb name ?x] => destruct (text_eqb name x) eqn:?E end;
      [match goal with H : text_eqb _ _ = true |- _ => apply text_eqb_spec in H; subst name end;
       intros [= <-]; constructor|]). discriminate.
  - intros []; reflexivity.
Qed.
Lemma model_enum_throws name : (forall k, ~ model_name name k) -> model_string_to_enum name = Throw ExRuntime.
Proof.
  intros H. destruct (model_string_to_enum name) as [k|e|u|] eqn:E.
  - destruct (H k). now apply model_enum_name.
  - unfold model_string_to_enum in E. repeat (destruct (text_eqb name _); [discriminate|]). congruence.
  - unfold model_string_to_enum in E. repeat (destruct (text_eqb name _); [discriminate|]). congruence.
  - unfold model_string_to_enum in E. repeat (destruct (text_eqb name _); [discriminate|]). congruence.
Qed.

Lemma value_string_entry (root : file) s k t :
  value_string (at_key (at_key (Some (TTable root)) s) k) = Some t <-> entry root s k (TString t).
Proof.
  rewrite <- at_key_entry. destruct (at_key (at_key (Some (TTable root)) s) k) as [[]|]; cbn; split; congruence.
Qed.

(** The options shared by all models. *)
Theorem C52_common root seed o : ints64 root -> parse_config trunc root seed = Ok o ->
  (exists name, entry root (lit "simulation") (lit "model") (TString name) /\
     opt_model_string o = name /\ model_name name (opt_model o)) /\
  matching o /\
  specified root (lit "simulation") (lit "rng_seed") (as_int trunc) seed (opt_rng_seed o) /\
  specified_opt root (lit "io") (lit "n_output_agents") (as_size trunc) (n_output_agents (opt_output o)) /\
  specified_opt root (lit "io") (lit "n_output_network") (as_size trunc) (n_output_network (opt_output o)) /\
  specified root (lit "io") (lit "print_progress") as_bool false (print_progress (opt_output o)) /\
  specified root (lit "io") (lit "output_initial") as_bool true (output_initial (opt_output o)) /\
  specified root (lit "io") (lit "start_output") (as_size trunc) 1%Z (start_output (opt_output o)) /\
  specified root (lit "io") (lit "start_numbering_from") (as_size trunc) 0%Z (start_numbering_from (opt_output o)) /\
  net_file (opt_network o) = None /\
  specified root (lit "network") (lit "number_of_agents") (as_size trunc) 200%Z (net_n_agents (opt_network o)) /\
  specified root (lit "network") (lit "connections_per_agent") (as_size trunc) 10%Z (net_n_connections (opt_network o)).
Proof.
  intros H64 E. destruct (parse_inv _ _ _ E) as (name & k & st & E1 & E2 & E3 & E4 & E5 & E6).
  split; [|split].
  - exists name. split; [now apply value_string_entry|]. split; auto. rewrite E5. now apply model_enum_name.
  - unfold matching. rewrite E5, E6. clear - E3. destruct k; cbn [parse_model_settings] in E3.
    + injection E3 as <-. exact I.
    + destruct (parse_activity_settings _ _ _ _); try discriminate. injection E3 as <-. exact I.
    + destruct (parse_activity_settings _ _ _ _); try discriminate. injection E3 as <-. exact I.
    + injection E3 as <-. exact I.
  - unfold parse_config in E. rewrite E1 in E. rewrite E2 in E. cbn [bind] in E. rewrite E3 in E. cbn [bind] in E.
    injection E as <-. cbn [opt_rng_seed opt_output opt_network n_output_agents n_output_network print_progress output_initial start_output start_numbering_from net_file net_n_agents net_n_connections].
    repeat match goal with |- _ /\ _ => split end; try reflexivity; spec_field.
Qed.

Theorem C52_degroot root seed o d : parse_config trunc root seed = Ok o -> opt_settings o = DeGrootSettings d ->
  specified_opt root (lit "model") (lit "max_iterations") (as_int trunc) (dg_max_iterations d) /\
  specified root (lit "DeGroot") (lit "convergence") as_double (f0 a) (dg_convergence_tol d).
Proof.
  intros E ES. destruct (parse_inv _ _ _ E) as (name & k & st & E1 & E2 & E3 & E4 & E5 & E6). rewrite ES in E6. subst st.
  apply model_enum_name in E2. clear - E2 E3. destruct E2; cbn [parse_model_settings] in E3;
    try (destruct (parse_activity_settings _ _ _ _); discriminate); try discriminate.
  injection E3 as <-. cbn [dg_max_iterations dg_convergence_tol]. split; spec_field.
Qed.

Theorem C52_deffuant root seed o d : ints64 root -> parse_config trunc root seed = Ok o -> opt_settings o = DeffuantSettings d ->
  specified_opt root (lit "model") (lit "max_iterations") (as_int trunc) (df_max_iterations d) /\
  specified root (lit "Deffuant") (lit "homophily_threshold") as_double (flit a 1 5) (df_homophily_threshold d) /\
  specified root (lit "Deffuant") (lit "mu") as_double (flit a 1 2) (df_mu d) /\
  specified root (lit "Deffuant") (lit "use_network") as_bool false (df_use_network d) /\
  specified root (lit "Deffuant") (lit "binary_vector") as_bool false (df_use_binary_vector d) /\
  specified root (lit "Deffuant") (lit "dim") (as_size trunc) 1%Z (df_dim d).
Proof.
  intros H64 E ES. destruct (parse_inv _ _ _ E) as (name & k & st & E1 & E2 & E3 & E4 & E5 & E6). rewrite ES in E6. subst st.
  apply model_enum_name in E2. clear - E2 E3 H64. destruct E2; cbn [parse_model_settings] in E3;
    try (destruct (parse_activity_settings _ _ _ _); discriminate); try discriminate.
  injection E3 as <-. cbn [df_max_iterations df_homophily_threshold df_mu df_use_network df_use_binary_vector df_dim].
  repeat match goal with |- _ /\ _ => split end; spec_field.
Qed.

(** The settings that the activity-driven models share; [sec] is the section of the model. *)
Definition activity_specified (root : file) (sec : text) (st : ad_settings D) : Prop :=
  specified_opt root (lit "model") (lit "max_iterations") (as_int trunc) (ad_max_iterations st) /\
  specified root sec (lit "dt") as_double (flit a 1 100) (dt st) /\
  specified root sec (lit "m") (as_int trunc) 10%Z (m st) /\
  specified root sec (lit "eps") as_double (flit a 1 100) (eps st) /\
  specified root sec (lit "gamma") as_double (flit a 21 10) (gamma st) /\
  specified root sec (lit "alpha") as_double (fofZ a 3) (alpha st) /\
  specified root sec (lit "homophily") as_double (flit a 1 2) (homophily st) /\
  specified root sec (lit "reciprocity") as_double (flit a 1 2) (reciprocity st) /\
  specified root sec (lit "K") as_double (fofZ a 3) (K st) /\
  specified root sec (lit "mean_activities") as_bool false (mean_activities st) /\
  specified root sec (lit "mean_weights") as_bool false (mean_weights st) /\
  specified root sec (lit "reluctances") as_bool false (use_reluctances st) /\
  specified root sec (lit "reluctance_mean") as_double (fofZ a 1) (reluctance_mean st) /\
  specified root sec (lit "reluctance_sigma") as_double (flit a 1 4) (reluctance_sigma st) /\
  specified root sec (lit "reluctance_eps") as_double (flit a 1 100) (reluctance_eps st) /\
  specified root sec (lit "covariance_factor") as_double (f0 a) (covariance_factor st) /\
  specified root sec (lit "n_bots") (as_size trunc) 0%Z (Z.of_nat (n_bots st)) /\
  bot_list root sec (lit "bot_m") (fun z => ((z + 2 ^ 31) mod 2 ^ 32 - 2 ^ 31)%Z) (truncates trunc) (n_bots st) (m st) (bot_m st) /\
  bot_list root sec (lit "bot_opinion") (fofZ a) eq (n_bots st) (f0 a) (bot_opinion st) /\
  bot_list root sec (lit "bot_activity") (fofZ a) eq (n_bots st) (fofZ a 1) (bot_activity st) /\
  bot_list root sec (lit "bot_homophily") (fofZ a) eq (n_bots st) (homophily st) (bot_homophily st).

Lemma int_of_double_truncates x v : int_of_double trunc x = Ok v -> truncates trunc x v.
Proof.
  unfold int_of_double, truncates, MConfig.in_int. destruct (trunc x) as [z|]; [|discriminate].
  destruct (_ && _) eqn:E; [|discriminate]. rewrite andb_true_iff, !Z.leb_le in E. intros [= ->]. split; [auto|lia].
Qed.

Lemma as_size_nonneg v z : as_size trunc v z -> (0 <= z)%Z.
Proof. intros [[_ H]|[(x & _ & _ & H)|[[_ ->]|[_ ->]]]]; lia. Qed.

Lemma parse_activity_specified root sec st : ints64 root ->
  parse_activity_settings trunc default_activity (at_key (Some (TTable root)) sec) (Some (TTable root)) = Ok st ->
  activity_specified root sec st.
Proof.
  intros H64 E. unfold parse_activity_settings in E.
  cbv zeta in E. cbn [bot_m bot_opinion bot_activity bot_homophily default_activity n_bots m homophily] in E.
  set (nb := set_if_specified 0%nat _) in E.
  destruct (push_back_bot_array int_of_int64 _ _ _ _ _) as [bm| | |] eqn:Em in E; try discriminate. cbn [bind] in E.
  destruct (push_back_bot_array _ _ (at_key _ (lit "bot_opinion")) _ _ _) as [bo| | |] eqn:Eo in E; try discriminate. cbn [bind] in E.
  destruct (push_back_bot_array _ _ (at_key _ (lit "bot_activity")) _ _ _) as [ba| | |] eqn:Ea in E; try discriminate. cbn [bind] in E.
  destruct (push_back_bot_array _ _ (at_key _ (lit "bot_homophily")) _ _ _) as [bh| | |] eqn:Eh in E; try discriminate. cbn [bind] in E.
  injection E as <-. unfold activity_specified.
  cbn [ad_max_iterations dt m eps gamma alpha homophily reciprocity K mean_activities mean_weights n_bots bot_m bot_activity bot_opinion bot_homophily use_reluctances reluctance_mean reluctance_sigma reluctance_eps covariance_factor default_activity].
  do 16 (split; [spec_field|]).
  split.
  { assert (SS : specified root sec (lit "n_bots") (as_size trunc) 0%Z
        (set_if_specified 0%Z (value_size trunc (at_key (at_key (Some (TTable root)) sec) (lit "n_bots"))))) by spec_field.
    replace (Z.of_nat nb) with (set_if_specified 0%Z (value_size trunc (at_key (at_key (Some (TTable root)) sec) (lit "n_bots")))); auto.
    unfold nb, set_if_specified. destruct (value_size _ _) as [z|] eqn:Ez; auto. cbn [option_map].
    apply value_size_spec in Ez as (v & _ & Hv); [|apply ints64_node; auto]. apply as_size_nonneg in Hv. lia. }
  split; [|split; [|split]].
  - eapply push_back_spec; [|exact Em]. apply int_of_double_truncates.
  - eapply push_back_spec; [|exact Eo]. now intros x v [= ->].
  - eapply push_back_spec; [|exact Ea]. now intros x v [= ->].
  - eapply push_back_spec; [|exact Eh]. now intros x v [= ->].
Qed.

Theorem C52_activity root seed o st : ints64 root -> parse_config trunc root seed = Ok o ->
  opt_settings o = ActivityDrivenSettings st -> activity_specified root (lit "ActivityDriven") st.
Proof.
  intros H64 E ES. destruct (parse_inv _ _ _ E) as (name & k & s & E1 & E2 & E3 & E4 & E5 & E6). rewrite ES in E6. subst s.
  apply model_enum_name in E2. clear - E2 E3 H64. destruct E2; cbn [parse_model_settings] in E3; try discriminate.
  - destruct (parse_activity_settings _ _ _ _) eqn:Ep; try discriminate. injection E3 as <-. now apply parse_activity_specified.
  - destruct (parse_activity_settings _ _ _ _) eqn:Ep; try discriminate.
Qed.

Theorem C52_inertial root seed o i : ints64 root -> parse_config trunc root seed = Ok o ->
  opt_settings o = ActivityDrivenInertialSettings i ->
  activity_specified root (lit "ActivityDrivenInertial") (in_activity i) /\
  specified root (lit "ActivityDrivenInertial") (lit "friction_coefficient") as_double (fofZ a 1) (in_friction i).
Proof.
  intros H64 E ES. destruct (parse_inv _ _ _ E) as (name & k & s & E1 & E2 & E3 & E4 & E5 & E6). rewrite ES in E6. subst s.
  apply model_enum_name in E2. clear - E2 E3 H64. destruct E2; cbn [parse_model_settings] in E3; try discriminate.
  - destruct (parse_activity_settings _ _ _ _) eqn:Ep; try discriminate.
  - destruct (parse_activity_settings _ _ _ _) eqn:Ep; try discriminate. injection E3 as <-.
    cbn [in_activity in_friction]. split; [now apply parse_activity_specified|]. spec_field.
Qed.

(** Which files are accepted: those that name a known model. (A float in bot_m that does not fit an
    int is undefined behaviour.) *)
Lemma push_back_total {T} (of_int : Z -> T) (of_float : D -> res T) node acc n d :
  (forall l x, node = Some (TArray l) -> In (TFloat x) l -> exists v, of_float x = Ok v) ->
  exists r, push_back_bot_array of_int of_float node acc n d = Ok r.
Proof.
  intros H. unfold push_back_bot_array. destruct node as [[z|x|b|t|l|l|]|]; eauto.
  specialize (H l). revert acc. induction l as [|e l IH]; intros acc; cbn [for_each]; eauto.
  assert (H' : forall x, Some (TArray l) = Some (TArray l) -> In (TFloat x) l -> exists v, of_float x = Ok v).
  { intros x _ Hx. apply H; auto. now right. }
  destruct e as [z|x|b|t|l'|l'|]; cbn [bind]; try (apply IH; exact H').
  destruct (H x eq_refl (or_introl eq_refl)) as (v & Ev). rewrite Ev. cbn [bind]. apply IH; exact H'.
Qed.

Theorem C52_accepted root seed name k :
  entry root (lit "simulation") (lit "model") (TString name) -> model_name name k ->
  (forall l x, entry root name (lit "bot_m") (TArray l) -> In (TFloat x) l -> exists v, truncates trunc x v) ->
  exists o, parse_config trunc root seed = Ok o.
Proof.
  intros HE HN HB. unfold parse_config. apply value_string_entry in HE. rewrite HE.
  rewrite (proj2 (model_enum_name name k) HN). cbn [bind].
  assert (P : exists st, parse_model_settings trunc k name (Some (TTable root)) = Ok st).
  { assert (Q : forall st, exists st', parse_activity_settings trunc st (at_key (Some (TTable root)) name) (Some (TTable root)) = Ok st').
    { intros st. unfold parse_activity_settings. cbv zeta.
      match goal with |- exists _, (bm <- ?p ;; _) = _ => destruct (push_back_total (T:=Z) int_of_int64 (int_of_double trunc)
        (at_key (at_key (Some (TTable root)) name) (lit "bot_m")) (bot_m st)
        (set_if_specified (n_bots st) (option_map Z.to_nat (value_size trunc (at_key (at_key (Some (TTable root)) name) (lit "n_bots")))))
        (set_if_specified (m st) (value_int trunc (at_key (at_key (Some (TTable root)) name) (lit "m"))))) as (bm & Em) end.
      { intros l x El Hx. apply at_key_entry in El. destruct (HB l x El Hx) as (v & T1 & T2). exists v.
        unfold int_of_double. rewrite T1. unfold MConfig.in_int.
        destruct (_ && _) eqn:E; auto. apply andb_false_iff in E. rewrite !Z.leb_gt in E. lia. }
      rewrite Em. cbn [bind].
      repeat (match goal with |- context [push_back_bot_array ?p ?q ?n ?ac ?k ?d] =>
        destruct (push_back_total p q n ac k d) as (? & ->); [now eauto|]; cbn [bind] end). eauto. }
    destruct k; cbn [parse_model_settings]; eauto.
    - destruct (Q default_activity) as (st & ->). cbn [bind]. eauto.
    - cbn [in_activity default_inertial]. destruct (Q default_activity) as (st & ->). cbn [bind]. eauto. }
  destruct P as (st & ->). cbn [bind]. eauto.
Qed.

Theorem C52_rejected root seed :
  (forall name k, entry root (lit "simulation") (lit "model") (TString name) -> ~ model_name name k) ->
  parse_config trunc root seed = Throw ExRuntime.
Proof.
  intros H. unfold parse_config.
  destruct (value_string (at_key (at_key (Some (TTable root)) (lit "simulation")) (lit "model"))) as [name|] eqn:E; auto.
  apply value_string_entry in E. rewrite model_enum_throws; [reflexivity|]. intros k. now apply H.
Qed.

(** No other entry matters. *)
Definition common_keys : list (text * text) :=
  [(lit "simulation", lit "rng_seed"); (lit "simulation", lit "model");
   (lit "io", lit "n_output_agents"); (lit "io", lit "n_output_network"); (lit "io", lit "print_progress");
   (lit "io", lit "output_initial"); (lit "io", lit "start_output"); (lit "io", lit "start_numbering_from");
   (lit "model", lit "max_iterations"); (lit "network", lit "number_of_agents");
   (lit "network", lit "connections_per_agent")].
Definition activity_keys : list text :=
  [lit "dt"; lit "m"; lit "eps"; lit "gamma"; lit "homophily"; lit "reciprocity"; lit "alpha"; lit "K";
   lit "mean_activities"; lit "mean_weights"; lit "covariance_factor"; lit "reluctances"; lit "reluctance_mean";
   lit "reluctance_sigma"; lit "reluctance_eps"; lit "n_bots"; lit "bot_m"; lit "bot_opinion"; lit "bot_activity";
   lit "bot_homophily"].
Definition model_keys (k : model_kind) : list text :=
  match k with
  | DeGroot => [lit "convergence"]
  | Deffuant => [lit "homophily_threshold"; lit "mu"; lit "use_network"; lit "binary_vector"; lit "dim"]
  | ActivityDriven => activity_keys
  | ActivityDrivenInertial => lit "friction_coefficient" :: activity_keys
  end.
Definition known (section key : text) : Prop :=
  In (section, key) common_keys \/ exists k, model_name section k /\ In key (model_keys k).

Theorem C52_other_entries_ignored root root' seed :
  (forall section key, known section key -> forall v, entry root section key v <-> entry root' section key v) ->
  parse_config trunc root seed = parse_config trunc root' seed.
Proof.
  intros H.
  assert (K : forall s k, known s k ->
     at_key (at_key (Some (TTable root)) s) k = at_key (at_key (Some (TTable root')) s) k).
  { intros s k Hk. specialize (H s k Hk). setoid_rewrite <- at_key_entry in H.
    destruct (at_key (at_key (Some (TTable root)) s) k) as [v|], (at_key (at_key (Some (TTable root')) s) k) as [v'|]; auto.
    - now rewrite (proj1 (H v) eq_refl).
    - discriminate (proj1 (H v) eq_refl).
    - discriminate (proj2 (H v') eq_refl). }
  assert (KC : forall s k, In (s, k) common_keys ->
     at_key (at_key (Some (TTable root)) s) k = at_key (at_key (Some (TTable root')) s) k) by (intros; apply K; now left).
  unfold parse_config. cbv zeta.
  rewrite (KC (lit "simulation") (lit "model")) by (cbn; auto).
  destruct (value_string _) as [name|]; auto.
  destruct (model_string_to_enum name) as [k| | |] eqn:Ek; auto. cbn [bind].
  apply model_enum_name in Ek.
  assert (KM : forall key, In key (model_keys k) ->
     at_key (at_key (Some (TTable root)) name) key = at_key (at_key (Some (TTable root')) name) key) by (intros; apply K; right; eauto).
  assert (EM : parse_model_settings trunc k name (Some (TTable root)) = parse_model_settings trunc k name (Some (TTable root'))).
  { clear - KC KM. assert (KX := KC (lit "model") (lit "max_iterations") ltac:(cbn; auto 20)).
    assert (EA : forall st, (forall key, In key activity_keys -> In key (model_keys k)) ->
      parse_activity_settings trunc st (at_key (Some (TTable root)) name) (Some (TTable root)) =
      parse_activity_settings trunc st (at_key (Some (TTable root')) name) (Some (TTable root'))).
    { intros st HA. unfold parse_activity_settings. cbv zeta. rewrite KX.
      repeat (match goal with |- context [at_key (at_key (Some (TTable root)) name) ?key] =>
        rewrite (KM key) by (apply HA; unfold activity_keys; cbn [In]; auto 30) end). reflexivity. }
    destruct k; cbn [parse_model_settings]; rewrite ?KX.
    - rewrite KM by (cbn; auto). reflexivity.
    - rewrite EA by auto. reflexivity.
    - rewrite EA by (intros; right; auto). rewrite (KM (lit "friction_coefficient")) by (cbn; auto). reflexivity.
    - repeat (match goal with |- context [at_key (at_key (Some (TTable root)) name) ?key] =>
        rewrite (KM key) by (cbn [In model_keys]; auto 30) end). reflexivity. }
  rewrite EM.
  repeat (match goal with |- context [at_key (at_key (Some (TTable root)) ?s) ?key] =>
    rewrite (KC s key) by (unfold common_keys; cbn [In]; auto 30) end). reflexivity.
Qed.
End Parse.

(** Truncation of binary64. *)
Definition trunc64 (x : Arith64.float) : option Z := if is_finite x then Some (Btrunc x) else None.

(** A configuration in the style of examples/ActivityDrivenBot/conf.toml. *)
Definition bot_conf : list (text * toml Arith64.float) :=
  [(lit "simulation", TTable [(lit "model", TString (lit "ActivityDriven")); (lit "rng_seed", TInt 120)]);
   (lit "io", TTable [(lit "n_output_network", TInt 20); (lit "n_output_agents", TInt 1); (lit "print_progress", TBool true)]);
   (lit "model", TTable [(lit "max_iterations", TInt 1000)]);
   (lit "ActivityDriven", TTable [(lit "dt", TFloat (flit FA 1 100)); (lit "m", TFloat (fofZ FA 5)); (lit "unknown", TInt 3);
      (lit "n_bots", TInt 2); (lit "bot_m", TArray [TInt 300; TFloat (flit FA 301 2); TString []]); (lit "bot_opinion", TArray [TInt (-2); TInt 2])]);
   (lit "network", TTable [(lit "number_of_agents", TInt 1000); (lit "connections_per_agent", TInt (-5))])].
Example C52_instance : exists o st, parse_config (a:=FA) trunc64 bot_conf 7 = Ok o /\ opt_settings o = ActivityDrivenSettings st /\
  opt_rng_seed o = 120%Z /\ n_output_network (opt_output o) = Some 20%Z /\ start_output (opt_output o) = 1%Z /\
  m st = 5%Z /\ bot_m st = [300; 150]%Z /\ n_bots st = 2%nat /\ length (bot_activity st) = 2%nat /\
  ad_max_iterations st = Some 1000%Z /\ net_n_agents (opt_network o) = 1000%Z /\ net_n_connections (opt_network o) = 10%Z /\
  validate_settings (a:=FA) o = Ok tt.
Proof.
  set (summary := fun r : res (options Arith64.float) => match r with
    | Ok o => match opt_settings o with
              | ActivityDrivenSettings st => Some (opt_rng_seed o, n_output_network (opt_output o), start_output (opt_output o),
                  m st, bot_m st, n_bots st, length (bot_activity st), ad_max_iterations st, net_n_agents (opt_network o),
                  net_n_connections (opt_network o), validate_settings (a:=FA) o)
              | _ => None
              end
    | _ => None
    end).
  assert (E : summary (parse_config (a:=FA) trunc64 bot_conf 7) =
    Some (120, Some 20, 1, 5, [300; 150], 2%nat, 2%nat, Some 1000, 1000, 10, Ok tt)%Z) by (vm_compute; reflexivity).
  destruct (parse_config (a:=FA) trunc64 bot_conf 7) as [o| | |] eqn:Eo; unfold summary in E; try discriminate E.
  destruct (opt_settings o) as [?|st|?|?] eqn:Es;
    try (exfalso; change (F FA) with Arith64.float in *; rewrite Es in E; discriminate E).
  change (F FA) with Arith64.float in *.
  rewrite Es in E. injection E as E1 E2 E3 E4 E5 E6 E7 E8 E9 E10 E11.
  exists o, st. repeat match goal with |- _ /\ _ => split end; auto.
Qed.
Example C52_instance_files : ints64 (a:=FA) bot_conf.
Proof.
  intros s k z (t & Ht & Hk). apply lookup_assoc in Ht, Hk. unfold bot_conf in Ht. cbn [lookup] in Ht.
  repeat (match type of Ht with context [text_eqb ?x s] => destruct (text_eqb x s) end;
    [injection Ht as <-; cbn [lookup] in Hk;
     repeat (match type of Hk with context [text_eqb ?x k] => destruct (text_eqb x k) end;
       [try discriminate Hk; injection Hk as <-; lia|]); discriminate Hk|]). discriminate Ht.
Qed.
Example C52_instance_rejected : parse_config (a:=FA) trunc64 [(lit "simulation", TTable [(lit "model", TString (lit "degroot"))])] 7 = Throw ExRuntime.
Proof. vm_compute. reflexivity. Qed.
Print Assumptions C52_common.
Print Assumptions C52_degroot.
Print Assumptions C52_deffuant.
Print Assumptions C52_activity.
Print Assumptions C52_inertial.
Print Assumptions C52_accepted.
Print Assumptions C52_rejected.
Print Assumptions C52_other_entries_ignored.
