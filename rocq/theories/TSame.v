(** Property theorems C94 (what is written does not influence what is computed), C95 (a longer run extends a
    shorter one), C96 (reproducibility). *)
From Verif Require Import Base BaseFacts Arith64 MRandom MNetwork MTarjan MNetGen MText MNetFile MAgents MDeGroot MDeffuant MActivity MConfig MSimulation
  SSimulation PSimulation TSimulation TSimulation2 PConfig SSame PSame.

Section Main.
Context {a : Arith} (w : world a).
Notation D := (F a).

(** ** C94 *)
Lemma validate_output (o : options D) os : validate_settings o = Ok tt -> (0 < start_output os)%Z -> (0 <= start_numbering_from os)%Z ->
  validate_settings (with_output o os) = Ok tt.
Proof.
  unfold validate_settings, with_output. cbn [opt_output opt_model opt_settings]. intros E H1 H2.
  assert (C : forall b, check b = Ok tt \/ check b = Throw ExRuntime) by (intros []; auto).
  destruct (C (0 <? start_output (opt_output o))%Z) as [E1|E1]; rewrite E1 in E; [|discriminate E]. cbn [bind] in E.
  destruct (C (0 <=? start_numbering_from (opt_output o))%Z) as [E2|E2]; rewrite E2 in E; [|discriminate E]. cbn [bind] in E.
  replace (0 <? start_output os)%Z with true by (symmetry; now apply Z.ltb_lt). replace (0 <=? start_numbering_from os)%Z with true by (symmetry; now apply Z.leb_le).
  exact E.
Qed.
Lemma main_inv fuel root seed nf af x s files : main w fuel root seed nf af = Ok (x, s, files) ->
  exists o x0 s0, parse_config (w_trunc w) root seed = Ok o /\ validate_settings o = Ok tt /\ print_settings o = Ok tt /\
    main_simulation w o nf af = Ok (x0, s0) /\ run w fuel (opt_output o) x0 s0 = Ok (x, s, files).
Proof.
  unfold main. intros E. destruct (parse_config _ _ _) as [o|?|?|]; cbn [bind] in E; try discriminate E.
  destruct (validate_settings o) as [[]|?|?|] eqn:E1; cbn [bind] in E; try discriminate E. destruct (print_settings o) as [[]|?|?|] eqn:E2; cbn [bind] in E; try discriminate E.
  destruct (main_simulation w o nf af) as [[x0 s0]|?|?|] eqn:E3; cbn [bind] in E; try discriminate E. exists o, x0, s0. auto.
Qed.
Lemma run_silent fuel os os' x s x' s' files : writes_nothing os' -> run w fuel os x s = Ok (x', s', files) -> run w fuel os' x s = Ok (x', s', []).
Proof.
  intros (H1 & H2 & H3) E. unfold run in *. rewrite H3. cbn [bind]. destruct (if output_initial os then _ else _) as [log|?|?|]; cbn [bind] in E; try discriminate E.
  eapply loop_silent; eauto.
Qed.

(** Two configurations that differ in section [io] only end in the same state of the model and of the generator. *)
Theorem C94_same_result fuel fuel' root root' seed nf af x s files x' s' files' : same_except (lit "io") root root' ->
  main w fuel root seed nf af = Ok (x, s, files) -> main w fuel' root' seed nf af = Ok (x', s', files') -> x = x' /\ s = s'.
Proof.
  intros HS E E'. apply main_inv in E as (o & x0 & s0 & P1 & _ & _ & P2 & P3). apply main_inv in E' as (o' & x0' & s0' & Q1 & _ & _ & Q2 & Q3).
  destruct (parse_io w root root' seed o HS P1) as (os & Q1'). rewrite Q1 in Q1'. injection Q1' as ->.
  change (main_simulation w (with_output o os) nf af) with (main_simulation w o nf af) in Q2. rewrite P2 in Q2. injection Q2 as <- <-.
  set (quiet := mkOutput None None false false 1 0).
  pose proof (run_silent _ _ quiet _ _ _ _ _ ltac:(repeat split) P3) as R1. pose proof (run_silent _ _ quiet _ _ _ _ _ ltac:(repeat split) Q3) as R2.
  unfold run in R1, R2. cbn [output_initial quiet bind] in R1, R2. pose proof (loop_unique w _ _ _ _ _ _ _ _ R1 R2) as R. now injection R as <- <-.
Qed.
(** If in addition both number their files from the same start, files of the same name have the same contents. *)
Theorem C94_same_files fuel fuel' root root' seed nf af x s files x' s' files' o o' : same_except (lit "io") root root' ->
  main w fuel root seed nf af = Ok (x, s, files) -> main w fuel' root' seed nf af = Ok (x', s', files') ->
  parse_config (w_trunc w) root seed = Ok o -> parse_config (w_trunc w) root' seed = Ok o' ->
  start_numbering_from (opt_output o) = start_numbering_from (opt_output o') ->
  (Z.of_nat fuel + start_numbering_from (opt_output o) < 2 ^ 64)%Z -> (Z.of_nat fuel' + start_numbering_from (opt_output o) < 2 ^ 64)%Z ->
  forall name contents contents', In (name, contents) files -> In (name, contents') files' -> contents = contents'.
Proof.
  intros HS E E' P0 Q0 HN B B' name c c' Hin Hin'. apply main_inv in E as (o1 & x0 & s0 & P1 & V1 & _ & P2 & P3). apply main_inv in E' as (o1' & x0' & s0' & Q1 & _ & _ & Q2 & Q3).
  rewrite P0 in P1. injection P1 as <-. rewrite Q0 in Q1. injection Q1 as <-.
  destruct (parse_io w root root' seed o HS P0) as (os & Q1'). rewrite Q0 in Q1'. injection Q1' as ->. cbn [with_output opt_output] in *.
  change (main_simulation w (with_output o os) nf af) with (main_simulation w o nf af) in Q2. rewrite P2 in Q2. injection Q2 as <- <-.
  assert (H0 : (0 <= start_numbering_from (opt_output o))%Z).
  { unfold validate_settings in V1. destruct (check (0 <? _)%Z) as [[]|?|?|]; try discriminate V1. cbn [bind] in V1.
    unfold check in V1. destruct (Z.leb_spec 0 (start_numbering_from (opt_output o))); auto; discriminate V1. }
  destruct (run_spec w _ _ _ _ _ _ _ H0 B P3) as (k & st & _ & K1 & _ & K2 & _ & K3 & K4).
  destruct (run_spec w _ _ _ _ _ _ _ ltac:(rewrite <- HN; exact H0) ltac:(rewrite <- HN; exact B') Q3) as (k' & st' & _ & L1 & _ & L2 & _ & L3 & L4).
  assert (T : forall i, i <= k -> i <= k' -> st i = st' i).
  { induction i as [|i IH]; intros Hi Hi'; [now rewrite K1, L1|]. destruct (K2 i ltac:(lia)) as (_ & S1). destruct (L2 i ltac:(lia)) as (_ & S2).
    rewrite <- (IH ltac:(lia) ltac:(lia)) in S2. congruence. }
  assert (F2 : forall ps fs f, Forall2 (shows w) ps fs -> In f fs -> exists p, In p ps /\ shows w p f).
  { induction 1 as [|p f0 ps fs H1 _ IH]; intros [].
    - subst. exists p. split; [now left|auto].
    - destruct (IH H) as (q & ? & ?). exists q. split; [now right|auto]. }
  destruct (F2 _ _ _ K4 Hin) as (p & Hp & Sp). destruct (F2 _ _ _ L4 Hin') as (p' & Hp' & Sp').
  rewrite in_schedule in Hp, Hp'. rewrite <- HN in Hp'. set (n0 := start_numbering_from (opt_output o)) in *.
  assert (Same : p = p' -> c = c').
  { intros <-. destruct p as [[[] n] y]; destruct Sp as (_ & W1), Sp' as (_ & W2); cbn [snd] in W1, W2; congruence. }
  apply Same. clear Same.
  assert (ND : forall m n, lit "opinions_" ++ fmt_Z m ++ lit ".txt" = lit "network_" ++ fmt_Z n ++ lit ".txt" -> False) by (intros m n; exact (names_differ m n)).
  destruct Hp as [(_ & [->| ->])|(i & Hi & [(-> & _)|(-> & _)])]; destruct Hp' as [(_ & [->| ->])|(j & Hj & [(-> & _)|(-> & _)])]; auto;
    destruct Sp as (N1 & _), Sp' as (N2 & _); cbn [fst] in N1, N2; rewrite N1 in N2;
    try (exfalso; first [exact (ND _ _ N2)|exact (ND _ _ (eq_sym N2))]);
    (apply (opinions_inj _ _) in N2 || apply (network_inj _ _) in N2); try lia; assert (i = j) by lia; subst j; now rewrite (T i) by lia.
Qed.
(** A valid configuration that asks for no files computes the same and writes nothing: in particular, it does not fail. *)
Theorem C94_writing_nothing fuel root root' seed nf af x s files o' : same_except (lit "io") root root' ->
  main w fuel root seed nf af = Ok (x, s, files) -> parse_config (w_trunc w) root' seed = Ok o' -> writes_nothing (opt_output o') ->
  (0 < start_output (opt_output o'))%Z -> (0 <= start_numbering_from (opt_output o'))%Z -> main w fuel root' seed nf af = Ok (x, s, []).
Proof.
  intros HS E Q1 HW H1 H2. apply main_inv in E as (o & x0 & s0 & P1 & V1 & V2 & P2 & P3).
  destruct (parse_io w root root' seed o HS P1) as (os & Q1'). rewrite Q1 in Q1'. injection Q1' as ->. cbn [with_output opt_output] in *.
  unfold main. rewrite Q1. cbn [bind]. rewrite (validate_output o os V1 H1 H2). cbn [bind].
  change (print_settings (with_output o os)) with (print_settings o). rewrite V2. cbn [bind].
  change (main_simulation w (with_output o os) nf af) with (main_simulation w o nf af). rewrite P2. cbn [bind opt_output with_output]. eapply run_silent; eauto.
Qed.

(** ** C95 *)
Lemma ctor_limit {A} (ops : agent_ops D A) (d : A) st net s L : ad_ctor (w_lm w) (w_gen w) ops d (st_limit L st) net s =
  res_map (fun p => (ad_limit L (fst p), snd p)) (ad_ctor (w_lm w) (w_gen w) ops d st net s).
Proof.
  unfold ad_ctor, res_map.
  change (get_agents_from_power_law (w_lm w) (w_gen w) ops (st_limit L st)) with (get_agents_from_power_law (w_lm w) (w_gen w) ops st).
  destruct (get_agents_from_power_law _ _ _ _ _ _) as [[l t]|?|?|]; cbn [bind]; try reflexivity.
  change (mean_weights (st_limit L st)) with (mean_weights st). destruct (mean_weights st); cbn [bind]; [|reflexivity].
  destruct (generate_fully_connected _ _ _) as [fc|?|?|]; cbn [bind]; reflexivity.
Qed.
Lemma agent_file_limit L x af (s : rst (w_gen w)) :
  match af with
  | Some f => contents <- w_read w f ;; l <- read_agents w (kind_of (set_limit L x)) contents ;; Ok (put_agents (set_limit L x) l, s)
  | None => Ok (set_limit L x, s)
  end = res_map (fun p => (set_limit L (fst p), snd p))
   (match af with
    | Some f => contents <- w_read w f ;; l <- read_agents w (kind_of x) contents ;; Ok (put_agents x l, s)
    | None => Ok (x, s)
    end).
Proof.
  destruct af as [f|]; [|reflexivity]. unfold res_map. destruct (w_read w f) as [c|?|?|]; cbn [bind]; try reflexivity.
  destruct x; cbn [set_limit kind_of]; destruct (read_agents w _ c) as [l|?|?|]; cbn [bind]; reflexivity.
Qed.
Lemma create_model_limit L k net (o : options D) af s : create_model w k net (with_limit L o) af s =
  res_map (fun p => (set_limit L (fst p), snd p)) (create_model w k net o af s).
Proof.
  unfold create_model. cbn [with_limit opt_model opt_settings].
  set (made v := match opt_model o with
     | DeGroot => x <- create_model_degroot (a:=a) k net v ;; Ok (x, s)
     | ActivityDriven => create_model_activity_driven w k net v s
     | ActivityDrivenInertial => create_model_activity_driven_inertial w k net v s
     | Deffuant => st <- get_deffuant v ;; if df_use_binary_vector st then create_model_deffuant_vector w k net v s else create_model_deffuant w k net v s
     end).
  fold (made (opt_settings o)). fold (made (settings_limit L (opt_settings o))).
  assert (M : made (settings_limit L (opt_settings o)) = res_map (fun p => (set_limit L (fst p), snd p)) (made (opt_settings o))).
  { unfold made, res_map. destruct (opt_model o); destruct (opt_settings o) as [v|v|v|v]; cbn [settings_limit]; destruct k; try reflexivity;
    cbn [create_model_degroot create_model_activity_driven create_model_activity_driven_inertial get_degroot get_activity_driven get_inertial get_deffuant bind dg_max_iterations dg_convergence_tol df_use_binary_vector in_activity in_friction];
    try (destruct (df_use_binary_vector v); try reflexivity); cbn [agent_of] in net.
    - unfold degroot_ctor. destruct (strongly_connected_components net) as [c|?|?|]; cbn [bind]; try reflexivity.
      destruct (spread_opinions (agents net)) as [l|?|?|]; cbn [bind]; reflexivity.
    - rewrite ctor_limit. unfold res_map. destruct (ad_ctor _ _ _ _ _ _ _) as [[y t]|?|?|]; cbn [bind]; reflexivity.
    - unfold inertial_ctor. rewrite ctor_limit. unfold res_map. destruct (ad_ctor _ _ _ _ _ _ _) as [[y t]|?|?|]; cbn [bind]; reflexivity.
    - cbn [create_model_deffuant get_deffuant bind]. unfold deffuant_ctor.
      cbn [df_max_iterations df_homophily_threshold df_mu df_use_network df_dim]. destruct (df_use_network v).
      + destruct (negb _); cbn [bind]; [reflexivity|]. destruct (generate_square_lattice _ _ _) as [nw|?|?|]; cbn [bind df_net]; try reflexivity.
        destruct (initialize_agents_simple _) as [l|?|?|]; cbn [bind]; reflexivity.
      + cbn [bind df_net]. destruct (initialize_agents_simple _) as [l|?|?|]; cbn [bind]; reflexivity.
    - cbn [create_model_deffuant_vector get_deffuant bind]. unfold deffuant_ctor.
      cbn [df_max_iterations df_homophily_threshold df_mu df_use_network df_dim]. destruct (df_use_network v).
      + destruct (negb _); cbn [bind]; [reflexivity|]. destruct (generate_square_lattice _ _ _) as [nw|?|?|]; cbn [bind df_net]; try reflexivity.
        destruct (initialize_agents_vector _ _ _ _) as [[l t]|?|?|]; cbn [bind]; reflexivity.
      + cbn [bind df_net]. destruct (initialize_agents_vector _ _ _ _) as [[l t]|?|?|]; cbn [bind]; reflexivity. }
  rewrite M. unfold res_map at 1. destruct (made (opt_settings o)) as [[y t]|?|?|]; cbn [bind fst snd]; try reflexivity. apply agent_file_limit.
Qed.
Lemma simulation_limit L (o : options D) nf af : main_simulation w (with_limit L o) nf af =
  res_map (fun p => (set_limit L (fst p), snd p)) (main_simulation w o nf af).
Proof.
  assert (C : forall k, simulation_ctor w k (with_limit L o) nf af = res_map (fun p => (set_limit L (fst p), snd p)) (simulation_ctor w k o nf af)).
  { intros k. unfold simulation_ctor. change (create_network w k (with_limit L o) nf) with (create_network w k o nf). cbn [with_limit opt_rng_seed].
    unfold res_map. destruct (create_network w k o nf _) as [[net t]|?|?|]; cbn [bind]; try reflexivity. apply create_model_limit. }
  unfold main_simulation. cbn [with_limit opt_model opt_settings]. destruct (opt_model o); try apply C.
  destruct (opt_settings o) as [v|v|v|v]; cbn [settings_limit get_deffuant bind]; try reflexivity. cbn [df_use_binary_vector]. destruct (df_use_binary_vector v); apply C.
Qed.
Lemma validate_limit L (o : options D) : validate_settings (with_limit L o) = validate_settings o.
Proof.
  unfold validate_settings. cbn [with_limit opt_output opt_model opt_settings]. destruct (check _) as [?|?|?|]; cbn [bind]; try reflexivity. destruct (check _) as [?|?|?|]; cbn [bind]; try reflexivity.
  destruct (opt_model o); destruct (opt_settings o); reflexivity.
Qed.
Lemma print_limit L (o : options D) : print_settings (with_limit L o) = print_settings o.
Proof. unfold print_settings. cbn [with_limit opt_model opt_settings]. destruct (opt_model o); destruct (opt_settings o); reflexivity. Qed.

Lemma int_limit root n : limit_of (w_trunc w) root = Some n -> (n < 2 ^ 31)%Z.
Proof.
  unfold limit_of, value_int. destruct (at_key _ _) as [[z|y|b|t|l|l|]|]; try discriminate.
  - destruct (in_int z) eqn:E; [|discriminate]. intros [= <-]. unfold in_int in E. apply andb_true_iff in E as (_ & E). apply Z.leb_le in E. lia.
  - destruct (whole (w_trunc w) y) as [z|]; [|discriminate]. destruct (in_int z) eqn:E; [|discriminate]. intros [= <-]. unfold in_int in E. apply andb_true_iff in E as (_ & E). apply Z.leb_le in E. lia.
  - intros [= <-]. destruct b; lia.
Qed.

(** Two configurations that differ in section [model] only (it holds only max_iterations): if the longer run succeeds,
    so does the shorter one, the files of the shorter one being the first files of the longer one. *)
Theorem C95_longer_run_extends fuel root root' seed nf af x' s' files' : same_except (lit "model") root root' ->
  shorter (limit_of (w_trunc w) root) (limit_of (w_trunc w) root') ->
  main w fuel root' seed nf af = Ok (x', s', files') ->
  exists x s files rest, main w fuel root seed nf af = Ok (x, s, files) /\ files' = files ++ rest.
Proof.
  intros HS HL E. pose proof (int_limit root) as B. pose proof (int_limit root') as B'. set (L := limit_of (w_trunc w) root) in *. set (L' := limit_of (w_trunc w) root') in *.
  assert (LE : limit_le L L').
  { unfold limit_le, shorter in *. destruct L as [n|], L' as [n'|]; cbn [option_map]; auto.
    specialize (B n eq_refl). specialize (B' n' eq_refl). unfold to_size_t. rewrite !Z.mod_small by lia. lia. }
  apply main_inv in E as (o' & x0' & s0' & Q1 & V1 & V2 & Q2 & Q3).
  destruct (parse_limit w root' root seed o' ltac:(intros k Hk; symmetry; now apply HS) Q1) as (P1 & Eo). fold L in P1. fold L' in Eo.
  unfold main. rewrite P1. cbn [bind]. rewrite validate_limit, V1. cbn [bind]. rewrite print_limit, V2. cbn [bind].
  rewrite simulation_limit. rewrite Eo in Q2. rewrite simulation_limit in Q2. unfold res_map in *. 
  destruct (main_simulation w o' nf af) as [[y t]|?|?|]; cbn [bind fst snd] in *; try discriminate Q2. injection Q2 as <- <-.
  cbn [with_limit opt_output]. unfold run in *. rewrite !network_limit, !opinions_limit, initialize_limit in *.
  destruct (if output_initial (opt_output o') then _ else _) as [log|?|?|]; cbn [bind] in *; try discriminate Q3.
  destruct (loop_prefix w (opt_output o') L L' LE fuel fuel _ _ log log _ _ _ Q3 ltac:(lia)) as (z & tz & d & rest & R1 & R2 & _).
  rewrite R1. exists (set_limit L z), tz, (log ++ d), rest. split; [reflexivity|]. now rewrite R2, app_assoc.
Qed.
(** The same for any two runs that end. *)
Theorem C95_files_agree fuel fuel' root root' seed nf af x s files x' s' files' : same_except (lit "model") root root' ->
  shorter (limit_of (w_trunc w) root) (limit_of (w_trunc w) root') ->
  main w fuel root seed nf af = Ok (x, s, files) -> main w fuel' root' seed nf af = Ok (x', s', files') -> exists rest, files' = files ++ rest.
Proof.
  intros HS HL E E'. destruct (C95_longer_run_extends fuel' root root' seed nf af x' s' files' HS HL E') as (x1 & s1 & f1 & rest & E1 & E2).
  apply main_inv in E as (o & x0 & s0 & P1 & _ & _ & P2 & P3). apply main_inv in E1 as (o1 & x1' & s1' & Q1 & _ & _ & Q2 & Q3).
  rewrite P1 in Q1. injection Q1 as <-. rewrite P2 in Q2. injection Q2 as <- <-. unfold run in *.
  destruct (if output_initial (opt_output o) then _ else _) as [log|?|?|]; cbn [bind] in *; try discriminate P3.
  pose proof (loop_unique w _ _ _ _ _ _ _ _ P3 Q3) as R. injection R as <- <- <-. eauto.
Qed.

(** ** C96 *)
(** With rng_seed in the configuration, what std::random_device gives is irrelevant. *)
Lemma parse_seed root seed seed' z : value_int (w_trunc w) (at_key (section root (lit "simulation")) (lit "rng_seed")) = Some z ->
  parse_config (w_trunc w) root seed = parse_config (w_trunc w) root seed'.
Proof. intros Hz. unfold parse_config. fold (section root (lit "simulation")). rewrite Hz. reflexivity. Qed.
Theorem C96_seed_given fuel root seed seed' nf af z : value_int (w_trunc w) (at_key (section root (lit "simulation")) (lit "rng_seed")) = Some z ->
  main w fuel root seed nf af = main w fuel root seed' nf af.
Proof.
  intros Hz. unfold main. assert (P : parse_config (w_trunc w) root seed = parse_config (w_trunc w) root seed'); [|now rewrite P].
  exact (parse_seed _ _ _ _ Hz).
Qed.
(** A DeGroot run from a network file is the same for all seeds; the final state of the generator is the initial one. *)
Lemma degroot_loop os fuel d (s : rst (w_gen w)) s' log : run_loop w fuel os (MDeGroot d) s' log =
  res_map (fun p => (fst (fst p), s', snd p)) (run_loop w fuel os (MDeGroot d) s log).
Proof.
  revert d log. induction fuel as [|fuel IH]; intros d log; [reflexivity|]. rewrite !loop_unfold. unfold res_map. destruct (model_finished (MDeGroot d)); [reflexivity|].
  cbn [model_iteration]. destruct (degroot_iteration d) as [d1|?|?|]; cbn [bind]; try reflexivity. destruct (step_files w os (MDeGroot d1)) as [fs|?|?|]; cbn [bind]; try reflexivity.
  rewrite IH. reflexivity.
Qed.
Theorem C96_degroot_deterministic fuel root root' seed seed' nf af x s files o o' :
  main w fuel root seed (Some nf) af = Ok (x, s, files) -> parse_config (w_trunc w) root seed = Ok o -> opt_model o = DeGroot ->
  parse_config (w_trunc w) root' seed' = Ok o' -> same_but_seed o o' ->
  exists s', main w fuel root' seed' (Some nf) af = Ok (x, s', files).
Proof.
  intros E P0 HM Q0 HO. apply main_inv in E as (o1 & x0 & s0 & P1 & V1 & V2 & P2 & P3). rewrite P0 in P1. injection P1 as <-.
  destruct HO as (O1 & O3 & O4 & O5). unfold main. rewrite Q0. cbn [bind].
  assert (V1' : validate_settings o' = Ok tt) by (unfold validate_settings in *; rewrite <- O1, <- O3, <- O4; exact V1).
  assert (V2' : print_settings o' = Ok tt) by (unfold print_settings in *; rewrite <- O1, <- O4; exact V2).
  rewrite V1', V2'. cbn [bind]. unfold main_simulation in *. rewrite <- O1, HM. rewrite HM in P2. unfold simulation_ctor, create_network in *.
  destruct (w_read w nf) as [c|?|?|]; cbn [bind] in *; try discriminate P2. destruct (generate_from_file _ _ c) as [net|?|?|]; cbn [bind] in *; try discriminate P2.
  unfold create_model in *. rewrite <- O1, HM, <- O4. rewrite HM in P2.
  destruct (create_model_degroot Simple net (opt_settings o)) as [y|?|?|] eqn:Ey; cbn [bind] in *; try discriminate P2.
  assert (HY : exists d, y = MDeGroot d).
  { cbn [create_model_degroot] in Ey. destruct (get_degroot _) as [g|?|?|]; cbn [bind] in Ey; try discriminate Ey.
    destruct (degroot_ctor _ _ _) as [[d wn]|?|?|]; cbn [bind] in Ey; try discriminate Ey. injection Ey as <-. eauto. }
  destruct HY as (d & ->).
  assert (R : forall d2 t t' xx tt ff, run w fuel (opt_output o) (MDeGroot d2) t = Ok (xx, tt, ff) -> run w fuel (opt_output o) (MDeGroot d2) t' = Ok (xx, t', ff)).
  { intros d2 t t' xx tt ff H. clear P3. unfold run in *. destruct (if output_initial (opt_output o) then _ else _) as [log|?|?|]; cbn [bind] in *; try discriminate H.
    cbn [model_initialize_iterations] in *. rewrite (degroot_loop _ _ _ t t'), H. reflexivity. }
  destruct af as [f|].
  - destruct (w_read w f) as [cc|?|?|]; cbn [bind] in *; try discriminate P2. cbn [kind_of put_agents] in *. destruct (read_agents w Simple cc) as [l|?|?|]; cbn [bind] in *; try discriminate P2.
    injection P2 as <- <-. rewrite <- O3. eexists. eapply R. exact P3.
  - cbn [bind] in *. injection P2 as <- <-. rewrite <- O3. eexists. eapply R. exact P3.
Qed.

(** ** C97 *)
(** Only the sections simulation, io, model, network and the one named after the model are read. *)
Theorem C97_other_sections fuel root root' seed nf af :
  (forall k, k = lit "simulation" \/ k = lit "io" \/ k = lit "model" \/ k = lit "network" \/
     value_string (at_key (section root (lit "simulation")) (lit "model")) = Some k -> section root k = section root' k) ->
  main w fuel root seed nf af = main w fuel root' seed nf af.
Proof.
  intros H. unfold main. assert (P : parse_config (w_trunc w) root seed = parse_config (w_trunc w) root' seed); [|now rewrite P].
  unfold parse_config. fold (section root (lit "simulation")) (section root (lit "io")) (section root (lit "network")).
  fold (section root' (lit "simulation")) (section root' (lit "io")) (section root' (lit "network")).
  destruct (value_string (at_key (section root (lit "simulation")) (lit "model"))) as [ms|] eqn:Em.
  - rewrite (H (lit "simulation")) in Em by auto. rewrite Em. rewrite (H (lit "simulation")), (H (lit "io")), (H (lit "network")) by auto.
    destruct (model_string_to_enum ms) as [k|?|?|]; cbn [bind]; try reflexivity.
    assert (EM : parse_model_settings (w_trunc w) k ms (Some (TTable root)) = parse_model_settings (w_trunc w) k ms (Some (TTable root'))); [|now rewrite EM].
    unfold parse_model_settings, parse_activity_settings. fold (section root ms) (section root (lit "model")). rewrite (H ms), (H (lit "model")) by auto 6. reflexivity.
  - rewrite (H (lit "simulation")) in Em by auto. now rewrite Em.
Qed.
(** In particular the table of another model may be there. *)
Theorem C97_other_model_ignored fuel root root' seed nf af name : same_except name root root' ->
  value_string (at_key (section root (lit "simulation")) (lit "model")) <> Some name ->
  ~ In name [lit "simulation"; lit "io"; lit "model"; lit "network"] ->
  main w fuel root seed nf af = main w fuel root' seed nf af.
Proof.
  intros HS HM HN. apply C97_other_sections. intros k Hk. apply HS. intros ->. destruct Hk as [->|[->|[->|[->|Hk]]]]; try (apply HN; cbn; tauto); contradiction.
Qed.
End Main.

(** ** Concrete configurations *)
Lemma text_refl (k : text) : text_eqb k k = true. Proof. now apply text_eqb_spec. Qed.
Lemma conf_io name io io' md sec n k : same_except (lit "io") (conf name io md sec n k) (conf name io' md sec n k).
Proof.
  intros q Hq. unfold section, conf, at_key. cbn [lookup]. destruct (text_eqb (lit "simulation") q); auto.
  destruct (text_eqb (lit "io") q) eqn:E; auto. apply text_eqb_spec in E. congruence.
Qed.
Lemma conf_model name io md md' sec n k : same_except (lit "model") (conf name io md sec n k) (conf name io md' sec n k).
Proof.
  intros q Hq. unfold section, conf, at_key. cbn [lookup]. destruct (text_eqb (lit "simulation") q); auto. destruct (text_eqb (lit "io") q); auto.
  destruct (text_eqb (lit "model") q) eqn:E; auto. apply text_eqb_spec in E. congruence.
Qed.
(** A run with files every second iteration and one that writes the last state only, of the activity-driven model. *)
Definition conf_activity_last := conf (lit "ActivityDriven") [(lit "n_output_agents", TInt 4); (lit "output_initial", TBool false); (lit "start_numbering_from", TInt 10)]
  [(lit "max_iterations", TInt 4)] [(lit "m", TInt 2); (lit "n_bots", TInt 1)] 5 2.
Example C94_instance : same_except (lit "io") conf_activity conf_activity_last /\
  summary (main demo_world 10 conf_activity 7 None None) =
    Some (4%Z, 5, [lit "network_10.txt"; lit "opinions_10.txt"; lit "opinions_12.txt"; lit "network_13.txt"; lit "opinions_14.txt"]) /\
  summary (main demo_world 10 conf_activity_last 7 None None) = Some (4%Z, 5, [lit "opinions_14.txt"]).
Proof. split; [apply conf_io|]. split; [exact C54_instance|vm_compute; reflexivity]. Qed.
Definition conf_activity_short := conf (lit "ActivityDriven") io2 [(lit "max_iterations", TInt 3)] [(lit "m", TInt 2); (lit "n_bots", TInt 1)] 5 2.
Lemma extends_summary (r r' : res (model (a:=FA) * rst (w_gen demo_world) * list output)) k n l k' n' l' :
  (forall x' s' files', r' = Ok (x', s', files') -> exists x s files rest, r = Ok (x, s, files) /\ files' = files ++ rest) ->
  summary r = Some (k, n, l) -> summary r' = Some (k', n', l') ->
  exists x s files rest x' s', r = Ok (x, s, files) /\ r' = Ok (x', s', files ++ rest) /\ length files = length l /\ length files + length rest = length l'.
Proof.
  intros H E E'. destruct r' as [[[x' s'] files']|?|?|]; try discriminate E'. destruct (H x' s' files' eq_refl) as (x & s & files & rest & -> & ->).
  exists x, s, files, rest, x', s'. split; [reflexivity|]. split; [reflexivity|]. unfold summary in E, E'. injection E as _ _ E. injection E' as _ _ E'.
  rewrite <- E, <- E', !map_length, app_length. auto.
Qed.
Example C95_instance : exists x s files rest x' s', main demo_world 10 conf_activity_short 7 None None = Ok (x, s, files) /\
  main demo_world 10 conf_activity 7 None None = Ok (x', s', files ++ rest) /\ length files = 4 /\ length files + length rest = 5.
Proof.
  apply (extends_summary _ _ 3 5 [lit "network_10.txt"; lit "opinions_10.txt"; lit "opinions_12.txt"; lit "network_13.txt"] 4 5
    [lit "network_10.txt"; lit "opinions_10.txt"; lit "opinions_12.txt"; lit "network_13.txt"; lit "opinions_14.txt"]); [|vm_compute; reflexivity|exact C54_instance].
  intros x' s' files'. apply C95_longer_run_extends; [apply conf_model|]. vm_compute. split; discriminate.
Qed.
Example C96_instance : value_int (w_trunc demo_world) (at_key (section conf_activity (lit "simulation")) (lit "rng_seed")) = Some 120%Z.
Proof. reflexivity. Qed.
(** The degroot run of the two files of the demo world. *)
Lemma degroot_case (r r' : res (model (a:=FA) * rst (w_gen demo_world) * list output)) : summary r = Some (4%Z, 3, [lit "network_10.txt"; lit "opinions_10.txt"; lit "opinions_12.txt"; lit "network_13.txt"; lit "opinions_14.txt"]) ->
  (forall x s files, r = Ok (x, s, files) -> exists s', r' = Ok (x, s', files)) ->
  exists x s files s', r = Ok (x, s, files) /\ length files = 5 /\ r' = Ok (x, s', files).
Proof.
  intros E H. destruct r as [[[x s] files]|?|?|]; try discriminate E. destruct (H x s files eq_refl) as (s' & H'). exists x, s, files, s'. split; [reflexivity|]. split; [|exact H'].
  unfold summary in E. injection E as _ _ E. apply (f_equal (@length _)) in E. rewrite map_length in E. exact E.
Qed.
Lemma degroot_parsed (r : res (options (F FA))) : (match r with Ok o => match opt_model o with DeGroot => true | _ => false end | _ => false end) = true ->
  exists o, r = Ok o /\ opt_model o = DeGroot.
Proof. destruct r as [o|?|?|]; try discriminate. intros H. exists o. split; auto. destruct (opt_model o); auto; discriminate H. Qed.
Example C96_degroot_instance : exists x s files s', main demo_world 10 conf_degroot 7 (Some (lit "net")) (Some (lit "agents")) = Ok (x, s, files) /\ length files = 5 /\
  main demo_world 10 conf_degroot 8 (Some (lit "net")) (Some (lit "agents")) = Ok (x, s', files).
Proof.
  apply degroot_case; [vm_compute; reflexivity|]. intros x s files E.
  destruct (degroot_parsed (parse_config (w_trunc demo_world) conf_degroot 7)) as (o & E1 & E2); [vm_compute; reflexivity|].
  apply (C96_degroot_deterministic demo_world 10 conf_degroot conf_degroot 7 8 _ _ x s files o o E E1 E2); [|repeat split].
  rewrite <- E1. symmetry. exact (parse_seed demo_world conf_degroot 7 8 120 eq_refl).
Qed.
(** Settings of the inertial model in a configuration of the activity-driven model. *)
Example C97_instance : main demo_world 10 ((lit "ActivityDrivenInertial", TTable [(lit "friction_coefficient", TInt 1)]) :: conf_activity) 7 None None =
  main demo_world 10 conf_activity 7 None None.
Proof.
  apply C97_other_model_ignored with (lit "ActivityDrivenInertial").
  - intros k Hk. unfold section, at_key. cbn [lookup]. destruct (text_eqb (lit "ActivityDrivenInertial") k) eqn:E; auto. apply text_eqb_spec in E. congruence.
  - vm_compute. discriminate.
  - cbn. intros [H|[H|[H|[H|[]]]]]; discriminate H.
Qed.

Print Assumptions C94_same_result.
Print Assumptions C94_same_files.
Print Assumptions C94_writing_nothing.
Print Assumptions C95_longer_run_extends.
Print Assumptions C95_files_agree.
Print Assumptions C96_seed_given.
Print Assumptions C96_degroot_deterministic.
Print Assumptions C97_other_sections.
Print Assumptions C97_other_model_ignored.
