(** How the results depend on the sections [io] and [model] and on the seed. *)
From Verif Require Import Base BaseFacts Arith64 MRandom MNetwork MNetGen MText MNetFile MAgents MDeGroot MDeffuant MActivity MConfig MSimulation
  SSimulation PSimulation TSimulation SSame.

Section Same.
Context {a : Arith} (w : world a).
Notation D := (F a).

(** ** The limit of the number of iterations *)
Definition st_limit (L : option Z) (st : ad_settings D) : ad_settings D :=
  mkADS L (dt st) (m st) (eps st) (gamma st) (alpha st) (homophily st) (reciprocity st) (K st)
    (mean_activities st) (mean_weights st) (n_bots st) (bot_m st) (bot_activity st) (bot_opinion st) (bot_homophily st)
    (use_reluctances st) (reluctance_mean st) (reluctance_sigma st) (reluctance_eps st) (covariance_factor st).
Definition base_limit (L : option Z) (b : base) : base := mkBase (option_map to_size_t L) (iterations b).
Definition ad_limit {A} (L : option Z) (x : ad_model (a:=a) A) : ad_model (a:=a) A :=
  mkAD (base_limit L (ad_base x)) (st_limit L (ad_set x)) (ad_net x) (contact_prob_list x).
Definition df_limit {A} (L : option Z) (x : deffuant (a:=a) A) : deffuant (a:=a) A :=
  mkDeffuant (base_limit L (df_base x)) (homophily_threshold x) (mu x) (use_network x) (df_net x).
Definition set_limit (L : option Z) (x : model (a:=a)) : model (a:=a) :=
  match x with
  | MDeGroot d => MDeGroot (mkDeGroot (base_limit L (dg_base d)) (convergence_tol d) (max_opinion_diff d) (dg_net d) (agents_current_copy d))
  | MDeffuant d => MDeffuant (df_limit L d)
  | MVector d => MVector (df_limit L d)
  | MActivity d => MActivity (ad_limit L d)
  | MInertial d => MInertial (mkIM (ad_limit L (im_ad d)) (friction_coefficient d))
  end.
Definition res_map {X Y} (f : X -> Y) (r : res X) : res Y := x <- r ;; Ok (f x).


Lemma activity_limit L x s : activity_iteration (w_lm w) (w_gen w) (w_pq w) (ad_limit L x) s =
  res_map (fun p => (ad_limit L (fst p), snd p)) (activity_iteration (w_lm w) (w_gen w) (w_pq w) x s).
Proof.
  unfold activity_iteration, ad_limit, res_map. cbn [ad_base ad_set ad_net contact_prob_list]. destruct x as [b st net cpl]. cbn [ad_base ad_set ad_net contact_prob_list].
  change (update_network (w_lm w) (w_gen w) (w_pq w) (activity_ops D) (st_limit L st)) with (update_network (w_lm w) (w_gen w) (w_pq w) (activity_ops D) st).
  destruct (update_network _ _ _ _ _ _ _ _) as [[[n2 c2] s2]|?|?|]; cbn [bind]; try reflexivity.
  change (rk4_slopes (w_lm w) (st_limit L st)) with (rk4_slopes (w_lm w) st).
  destruct (rk4_slopes _ _ _) as [ks|?|?|]; cbn [bind]; try reflexivity.
  change (rk4_update (st_limit L st)) with (rk4_update (a:=a) st).
  destruct (rk4_update _ _ _) as [l|?|?|]; cbn [bind]; try reflexivity.
  change (reset_bots (activity_ops D) (st_limit L st)) with (reset_bots (a:=a) (activity_ops D) st).
  destruct (reset_bots _ _ _) as [l2|?|?|]; cbn [bind]; try reflexivity.
Qed.
Lemma inertial_limit L x s : inertial_iteration (w_lm w) (w_gen w) (w_pq w) (mkIM (ad_limit L (im_ad x)) (friction_coefficient x)) s =
  res_map (fun p => (mkIM (ad_limit L (im_ad (fst p))) (friction_coefficient (fst p)), snd p)) (inertial_iteration (w_lm w) (w_gen w) (w_pq w) x s).
Proof.
  unfold inertial_iteration, ad_limit, res_map. destruct x as [[b st net cpl] fr]. cbn [im_ad friction_coefficient ad_base ad_set ad_net contact_prob_list].
  change (update_network (w_lm w) (w_gen w) (w_pq w) (inertial_ops D) (st_limit L st)) with (update_network (w_lm w) (w_gen w) (w_pq w) (inertial_ops D) st).
  destruct (update_network _ _ _ _ _ _ _ _) as [[[n2 c2] s2]|?|?|]; cbn [bind]; try reflexivity.
  change (calc_position (w_lm w) (st_limit L st)) with (calc_position (w_lm w) st).
  destruct (calc_position _ _ _ _) as [[dr l]|?|?|]; cbn [bind]; try reflexivity.
  change (calc_velocity (w_lm w) (st_limit L st)) with (calc_velocity (w_lm w) st).
  destruct (calc_velocity _ _ _ _ _) as [l1|?|?|]; cbn [bind]; try reflexivity.
  change (reset_bots (inertial_ops D) (st_limit L st)) with (reset_bots (a:=a) (inertial_ops D) st).
  destruct (reset_bots _ _ _) as [l2|?|?|]; cbn [bind]; try reflexivity.
Qed.
Lemma deffuant_limit {A} (rule : MDeffuant.rule (a:=a) (w_gen w) (A:=A)) L (x : deffuant (a:=a) A) s :
  deffuant_iteration (w_gen w) rule (df_limit L x) s = res_map (fun p => (df_limit L (fst p), snd p)) (deffuant_iteration (w_gen w) rule x s).
Proof.
  unfold deffuant_iteration, df_limit, res_map. destruct x as [b th mm un net]. cbn [df_base homophily_threshold mu use_network df_net].
  destruct (for_n _ _ _) as [[l s1]|?|?|]; cbn [bind]; reflexivity.
Qed.
Lemma iteration_limit L x s : model_iteration w (set_limit L x) s = res_map (fun p => (set_limit L (fst p), snd p)) (model_iteration w x s).
Proof.
  destruct x as [d|d|d|d|d]; cbn [model_iteration set_limit].
  - unfold degroot_iteration. cbn [dg_base convergence_tol max_opinion_diff dg_net agents_current_copy].
    destruct (degroot_average _ _) as [c|?|?|]; cbn [bind]; try reflexivity. destruct (degroot_update _ _) as [[df l]|?|?|]; cbn [bind]; reflexivity.
  - unfold simple_iteration. change (homophily_threshold (df_limit L d)) with (homophily_threshold d). change (mu (df_limit L d)) with (mu d).
    rewrite deffuant_limit. destruct (deffuant_iteration _ _ _ _) as [[y t]|?|?|]; reflexivity.
  - unfold vector_iteration. change (homophily_threshold (df_limit L d)) with (homophily_threshold d). change (mu (df_limit L d)) with (mu d).
    rewrite deffuant_limit. destruct (deffuant_iteration _ _ _ _) as [[y t]|?|?|]; reflexivity.
  - rewrite activity_limit. destruct (activity_iteration _ _ _ _ _) as [[y t]|?|?|]; reflexivity.
  - rewrite inertial_limit. destruct (inertial_iteration _ _ _ _ _) as [[y t]|?|?|]; reflexivity.
Qed.
Lemma initialize_limit L x : model_initialize_iterations (set_limit L x) = set_limit L (model_initialize_iterations x).
Proof. destruct x; reflexivity. Qed.
Lemma iterations_limit L x : n_iterations (set_limit L x) = n_iterations x.
Proof. destruct x; reflexivity. Qed.
Lemma opinions_limit L x n : write_opinions w (set_limit L x) n = write_opinions w x n.
Proof. destruct x; reflexivity. Qed.
Lemma network_limit L x n : write_network w (set_limit L x) n = write_network w x n.
Proof. destruct x; reflexivity. Qed.

(** Limits in the order in which they end a run. *)
Definition limit_le (L L' : option Z) : Prop :=
  match option_map to_size_t L, option_map to_size_t L' with
  | _, None => True
  | None, Some _ => False
  | Some n, Some n' => (n <= n')%Z
  end.
Lemma finished_limit L L' x : limit_le L L' -> model_finished (set_limit L' x) = true -> model_finished (set_limit L x) = true.
Proof.
  unfold limit_le. intros H. assert (B : forall b, base_finished (base_limit L' b) = true -> base_finished (base_limit L b) = true).
  { intros b. unfold base_finished, base_limit. cbn [max_iterations iterations]. destruct (option_map to_size_t L') as [n'|]; [|discriminate].
    destruct (option_map to_size_t L) as [n|]; [|destruct H]. rewrite !Z.leb_le. lia. }
  destruct x as [d|d|d|d|d]; cbn [model_finished set_limit]; try apply B.
  unfold degroot_finished. cbn [dg_base convergence_tol max_opinion_diff]. rewrite !orb_true_iff. intros [E|E]; auto.
Qed.

(** What an iteration of the loop writes. *)
Definition step_files (os : output_settings) (x : model (a:=a)) : res (list output) :=
  b <- due (n_output_agents os) (start_output os) (n_iterations x) ;;
  l1 <- (if b : bool then f <- write_opinions w x (to_size_t (n_iterations x + start_numbering_from os)) ;; Ok [f] else Ok []) ;;
  b <- due (n_output_network os) (start_output os) (n_iterations x) ;;
  l2 <- (if b : bool then f <- write_network w x (to_size_t (n_iterations x + start_numbering_from os)) ;; Ok [f] else Ok []) ;;
  Ok (l1 ++ l2).
Lemma loop_unfold fuel os x s log : run_loop w (S fuel) os x s log =
  if model_finished x then Ok (x, s, log)
  else '(x, s) <- model_iteration w x s ;; fs <- step_files os x ;; run_loop w fuel os x s (log ++ fs).
Proof.
  cbn [run_loop]. destruct (model_finished x); auto. destruct (model_iteration w x s) as [[y t]|?|?|]; cbn [bind]; auto. unfold step_files.
  destruct (due _ _ _) as [b|?|?|]; cbn [bind]; auto. destruct b.
  - destruct (write_opinions _ _ _) as [f|?|?|]; cbn [bind]; auto. destruct (due _ _ _) as [b|?|?|]; cbn [bind]; auto. destruct b; cbn [bind app]; auto.
    destruct (write_network _ _ _) as [f2|?|?|]; cbn [bind]; auto. cbn [app]. now rewrite <- app_assoc.
  - cbn [bind]. destruct (due _ _ _) as [b|?|?|]; cbn [bind]; auto. destruct b; cbn [bind app]; auto.
    + destruct (write_network _ _ _) as [f2|?|?|]; cbn [bind]; auto.
    + now rewrite app_nil_r.
Qed.
Lemma step_files_limit os L x : step_files os (set_limit L x) = step_files os x.
Proof. unfold step_files. rewrite iterations_limit. now rewrite opinions_limit, network_limit. Qed.

(** The longer run continues where the shorter one ends. *)
Lemma loop_prefix os L L' : limit_le L L' -> forall fuel' fuel x s log log' x' s' files',
  run_loop w fuel' os (set_limit L' x) s log' = Ok (x', s', files') -> fuel' <= fuel ->
  exists y t d rest, run_loop w fuel os (set_limit L x) s log = Ok (set_limit L y, t, log ++ d) /\
    files' = log' ++ d ++ rest /\ run_loop w fuel' os (set_limit L' y) t (log' ++ d) = Ok (x', s', files').
Proof.
  intros HL. induction fuel' as [|fuel' IH]; intros fuel x s log log' x' s' files' E Hf; [discriminate E|].
  destruct fuel as [|fuel]; [lia|]. rewrite loop_unfold in E. rewrite loop_unfold. destruct (model_finished (set_limit L x)) eqn:Fx.
  - exists x, s, []. destruct (model_finished (set_limit L' x)) eqn:Fx'.
    + injection E as <- <- <-. exists []. rewrite !app_nil_r. cbn [app]. rewrite ?app_nil_r, loop_unfold, Fx'. auto.
    + rewrite !app_nil_r. pose proof E as E0. rewrite iteration_limit in E. unfold res_map in E. destruct (model_iteration w x s) as [[y t]|?|?|]; cbn [bind] in E; try discriminate E.
      cbn [fst snd] in E. rewrite step_files_limit in E. destruct (step_files os y) as [fs|?|?|] eqn:Ef; cbn [bind] in E; try discriminate E.
      assert (P : exists rest, files' = log' ++ rest).
      { destruct (IH fuel' y t log (log' ++ fs) x' s' files' E ltac:(lia)) as (_ & _ & d & rest & _ & -> & _). rewrite <- app_assoc. eauto. }
      destruct P as (rest & ->). exists rest. split; [reflexivity|]. split; [reflexivity|]. rewrite loop_unfold, Fx'. exact E0.
  - destruct (model_finished (set_limit L' x)) eqn:Fx'; [pose proof (finished_limit L L' x HL Fx'); congruence|].
    rewrite iteration_limit in *. unfold res_map in *. destruct (model_iteration w x s) as [[y t]|?|?|]; cbn [bind] in *; try discriminate E.
    cbn [fst snd] in *. rewrite step_files_limit in *. destruct (step_files os y) as [fs|?|?|] eqn:Ef; cbn [bind] in *; try discriminate E.
    destruct (IH fuel y t (log ++ fs) (log' ++ fs) x' s' files' E ltac:(lia)) as (z & tz & d & rest & E1 & E2 & E3).
    exists z, tz, (fs ++ d), rest. rewrite !app_assoc. split; [exact E1|]. split; [now rewrite E2, !app_assoc|].
    clear -E3. revert E3. generalize (set_limit L' z). intros zz E3.
    assert (M : forall f os x s log r, run_loop w f os x s log = Ok r -> run_loop w (S f) os x s log = Ok r).
    { clear. induction f as [|f IH]; intros os x s log r E; [discriminate E|]. rewrite loop_unfold in *. destruct (model_finished x); auto.
      destruct (model_iteration w x s) as [[y t]|?|?|]; cbn [bind] in *; try discriminate E. destruct (step_files os y); cbn [bind] in *; try discriminate E. now apply IH. }
    now apply M.
Qed.
Lemma loop_fuel f f' os x s log r : run_loop w f os x s log = Ok r -> f <= f' -> run_loop w f' os x s log = Ok r.
Proof.
  revert f' x s log. induction f as [|f IH]; intros f' x s log E H; [discriminate E|]. destruct f' as [|f']; [lia|]. rewrite loop_unfold in *.
  destruct (model_finished x); auto. destruct (model_iteration w x s) as [[y t]|?|?|]; cbn [bind] in *; try discriminate E.
  destruct (step_files os y); cbn [bind] in *; try discriminate E. apply IH; auto. lia.
Qed.
Lemma loop_unique f f' os x s log r r' : run_loop w f os x s log = Ok r -> run_loop w f' os x s log = Ok r' -> r = r'.
Proof.
  intros E E'. pose proof (loop_fuel f (max f f') _ _ _ _ _ E ltac:(lia)) as H. rewrite (loop_fuel f' (max f f') _ _ _ _ _ E' ltac:(lia)) in H. congruence.
Qed.
(** What is written has no influence. *)
Lemma loop_silent os os' : n_output_agents os' = None -> n_output_network os' = None -> forall fuel x s log log' x' s' files,
  run_loop w fuel os x s log = Ok (x', s', files) -> run_loop w fuel os' x s log' = Ok (x', s', log').
Proof.
  intros H1 H2. induction fuel as [|fuel IH]; intros x s log log' x' s' files E; [discriminate E|]. rewrite loop_unfold in *.
  destruct (model_finished x); [now injection E as <- <- <-|]. destruct (model_iteration w x s) as [[y t]|?|?|]; cbn [bind] in *; try discriminate E.
  destruct (step_files os y) as [fs|?|?|]; cbn [bind] in E; try discriminate E.
  assert (S0 : step_files os' y = Ok []) by (unfold step_files; rewrite H1, H2; reflexivity). rewrite S0. cbn [bind]. rewrite app_nil_r. eapply IH; eauto.
Qed.

(** ** Configurations *)
Definition with_output (o : options D) (os : output_settings) : options D :=
  mkOptions (opt_model o) (opt_model_string o) (opt_rng_seed o) os (opt_settings o) (opt_network o).
Definition settings_limit (L : option Z) (v : model_settings D) : model_settings D :=
  match v with
  | DeGrootSettings s => DeGrootSettings (mkDGS L (dg_convergence_tol s))
  | DeffuantSettings s => DeffuantSettings (mkDFS L (df_homophily_threshold s) (df_mu s) (df_use_network s) (df_use_binary_vector s) (df_dim s))
  | ActivityDrivenSettings s => ActivityDrivenSettings (st_limit L s)
  | ActivityDrivenInertialSettings s => ActivityDrivenInertialSettings (mkINS (st_limit L (in_activity s)) (in_friction s))
  end.
Definition with_limit (L : option Z) (o : options D) : options D :=
  mkOptions (opt_model o) (opt_model_string o) (opt_rng_seed o) (opt_output o) (settings_limit L (opt_settings o)) (opt_network o).

Lemma model_names s k : model_string_to_enum s = Ok k -> s <> lit "io" /\ s <> lit "model" /\ s <> lit "simulation" /\ s <> lit "network".
Proof. intros E. repeat split; intros ->; discriminate E. Qed.

Lemma parse_io root root' seed o : same_except (lit "io") root root' -> parse_config (w_trunc w) root seed = Ok o ->
  exists os, parse_config (w_trunc w) root' seed = Ok (with_output o os).
Proof.
  intros HS. unfold parse_config. fold (section root (lit "simulation")) (section root (lit "io")) (section root (lit "network")).
  fold (section root' (lit "simulation")) (section root' (lit "io")) (section root' (lit "network")).
  rewrite (HS (lit "simulation")), (HS (lit "network")) by discriminate.
  destruct (value_string _) as [ms|]; [|discriminate]. destruct (model_string_to_enum ms) as [k|?|?|] eqn:Ek; cbn [bind]; try discriminate.
  destruct (model_names ms k Ek) as (N1 & _).
  assert (EM : parse_model_settings (w_trunc w) k ms (Some (TTable root)) = parse_model_settings (w_trunc w) k ms (Some (TTable root'))).
  { unfold parse_model_settings, parse_activity_settings. fold (section root ms) (section root (lit "model")). rewrite (HS ms N1), (HS (lit "model")) by discriminate. reflexivity. }
  rewrite EM. clear EM. destruct (parse_model_settings _ _ _ _) as [v|?|?|]; cbn [bind]; try discriminate. intros E. injection E as <-. eexists. reflexivity.
Qed.
Lemma parse_limit root root' seed o : same_except (lit "model") root root' -> parse_config (w_trunc w) root seed = Ok o ->
  parse_config (w_trunc w) root' seed = Ok (with_limit (limit_of (w_trunc w) root') o) /\ o = with_limit (limit_of (w_trunc w) root) o.
Proof.
  intros HS. unfold parse_config. fold (section root (lit "simulation")) (section root (lit "io")) (section root (lit "network")).
  fold (section root' (lit "simulation")) (section root' (lit "io")) (section root' (lit "network")).
  rewrite (HS (lit "simulation")), (HS (lit "network")), (HS (lit "io")) by discriminate.
  destruct (value_string _) as [ms|]; [|discriminate]. destruct (model_string_to_enum ms) as [k|?|?|] eqn:Ek; cbn [bind]; try discriminate.
  destruct (model_names ms k Ek) as (_ & N1 & _).
  unfold parse_model_settings, parse_activity_settings. fold (section root ms) (section root' ms) (section root (lit "model")) (section root' (lit "model")). rewrite (HS ms N1).
  fold (limit_of (w_trunc w) root) (limit_of (w_trunc w) root').
  destruct k; cbn [bind];
  repeat match goal with |- context[push_back_bot_array ?u ?v ?x ?y ?z ?t] => destruct (push_back_bot_array u v x y z t) as [?l|?|?|]; cbn [bind]; try discriminate end;
  intros E; injection E as <-; split; reflexivity.
Qed.
End Same.
