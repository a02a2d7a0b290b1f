(** Property theorems C73: continuing a run of a deterministic model from the files it has written. *)
From Verif Require Import Base BaseFacts Arith64 MRandom SRandom WRandom MNetwork SNetwork PNetwork2 MText SText PText MNetFile MAgents TFiles MDeGroot MDeffuant MDist MActivity SActivity MConfig SConfig PConfig TConfig
  MSimulation SSimulation PSimulation PSimulation2 TSimulation TSimulation2 SRestart PRestart PRestart2.

Section Continue.
Context {a : Arith} (w : world a).
Notation D := (F a).
Notation state := (model (a:=a) * rst (w_gen w))%type.
Hypothesis (HS : sample_ok (w_gen w)) (HI : SRandom.int_ok (w_gen w)) (HQ : pq_bag (w_pq w)).

(** The state a file belongs to. *)
Lemma in_files os x s (st : nat -> state) k files f : st 0 = (model_initialize_iterations x, s) ->
  Forall2 (shows w) (schedule w os x st k) files -> In f files -> (0 <= start_numbering_from os)%Z ->
  exists i, i <= k /\ let n := (Z.of_nat i + start_numbering_from os)%Z in let y := fst (st i) in
    (fst f = opinions_name n /\ write_agents w (kind_of y) (agents (net_of y)) = Ok (snd f)) \/
    (fst f = network_name n /\ network_to_file (w_fmt w) (net_of y) = Ok (snd f)).
Proof using.
  intros H0 H Hin Hs. 
  assert (exists p, In p (schedule w os x st k) /\ shows w p f) as (p & Hp & HSh).
  { clear - H Hin. induction H as [|p f0 ps fs Hpf _ IH]; [destruct Hin|]. destruct Hin as [->|Hin].
    - exists p. split; [now left|exact Hpf].
    - destruct (IH Hin) as (p' & A & B). exists p'. split; [now right|exact B]. }
  apply in_schedule in Hp as [(_ & Hp)|(i & Hi & Hp)].
  - exists 0. split; [lia|]. cbv zeta. cbn [Z.of_nat Z.add]. rewrite H0. cbn [fst].
    destruct Hp as [-> | ->]; destruct HSh as [A B]; [right|left]; (split; [exact A|]); clear - B; destruct x; exact B.
  - exists i. split; [lia|]. destruct Hp as [[-> _]|[-> _]]; destruct HSh as [A B]; [left|right]; split; auto.
Qed.
Lemma in_opinions os x s (st : nat -> state) k files n c : st 0 = (model_initialize_iterations x, s) ->
  Forall2 (shows w) (schedule w os x st k) files -> In (opinions_name n, c) files -> (0 <= start_numbering_from os)%Z -> (0 <= n)%Z ->
  exists i, i <= k /\ n = (Z.of_nat i + start_numbering_from os)%Z /\ write_agents w (kind_of (fst (st i))) (agents (net_of (fst (st i)))) = Ok c.
Proof using.
  intros H0 H Hin Hs Hn. destruct (in_files os x s st k files _ H0 H Hin Hs) as (i & Hi & [[A B]|[A B]]); cbn [fst snd] in A, B.
  - exists i. split; auto. split; auto. apply opinions_inj; auto. lia.
  - exfalso. exact (names_differ _ _ A).
Qed.
Lemma in_network os x s (st : nat -> state) k files n c : st 0 = (model_initialize_iterations x, s) ->
  Forall2 (shows w) (schedule w os x st k) files -> In (network_name n, c) files -> (0 <= start_numbering_from os)%Z -> (0 <= n)%Z ->
  exists i, i <= k /\ n = (Z.of_nat i + start_numbering_from os)%Z /\ network_to_file (w_fmt w) (net_of (fst (st i))) = Ok c.
Proof using.
  intros H0 H Hin Hs Hn. destruct (in_files os x s st k files _ H0 H Hin Hs) as (i & Hi & [[A B]|[A B]]); cbn [fst snd] in A, B.
  - exfalso. exact (names_differ _ _ (eq_sym A)).
  - exists i. split; auto. split; auto. apply network_inj; auto. lia.
Qed.

Lemma main_parts fuel root seed nf af (o : options D) x s files : parse_config (w_trunc w) root seed = Ok o ->
  main w fuel root seed nf af = Ok (x, s, files) ->
  exists x0 s0, main_simulation w o nf af = Ok (x0, s0) /\ run w fuel (opt_output o) x0 s0 = Ok (x, s, files).
Proof using.
  intros EP E. unfold main in E. rewrite EP in E. cbn [bind] in E.
  destruct (validate_settings o); try discriminate. destruct (print_settings o); try discriminate. cbn [bind] in E.
  destruct (main_simulation w o nf af) as [[x0 s0]| | |]; try discriminate. cbn [bind] in E. eauto.
Qed.

Lemma traj_count o o' (st : nat -> state) k : trajectory w st k -> restartable o o' (fst (st 0)) -> forall i, i <= k -> n_agents (net_of (fst (st i))) = n_agents (net_of (fst (st 0))).
Proof using HS HI HQ.
  intros T H0. induction i as [|i IH]; intros Hi; [reflexivity|]. destruct (T i ltac:(lia)) as [_ E].
  destruct (restartable_traj w HS HI HQ o o' st k T H0 i ltac:(lia)) as (R & _).
  destruct (iteration_ready w HS HI HQ _ (snd (st i)) R) as (x1 & s1 & E1 & _ & N & _). rewrite E in E1. injection E1 as E1. rewrite E1. cbn [fst]. rewrite N. apply IH. lia.
Qed.

Lemma saved_state fuel root seed (o o' : options D) x s files N cn ca :
  parse_config (w_trunc w) root seed = Ok o -> sizes_fit o -> same_deterministic_model o o' ->
  (0 <= start_numbering_from (opt_output o))%Z -> (Z.of_nat fuel + start_numbering_from (opt_output o) < 2 ^ 64)%Z ->
  main w fuel root seed None None = Ok (x, s, files) -> (0 <= N)%Z ->
  In (network_name N, cn) files -> In (opinions_name N, ca) files ->
  exists x0 s0 k (st : nat -> state) i, st 0 = (model_initialize_iterations x0, s0) /\ trajectory w st k /\
    Forall2 (shows w) (schedule w (opt_output o) x0 st k) files /\
    i <= k /\ N = (Z.of_nat i + start_numbering_from (opt_output o))%Z /\
    restartable o o' (fst (st i)) /\ network_to_file (w_fmt w) (net_of (fst (st i))) = Ok cn /\
    write_agents w (kind_of (fst (st i))) (agents (net_of (fst (st i)))) = Ok ca /\
    n_agents (net_of (fst (st i))) = n_agents (net_of x).
Proof using HS HI HQ.
  intros EP HF HD Hs HB E HN In1 In2. pose proof (parsed_matching w root seed o EP) as HM.
  destruct (main_parts fuel root seed None None o x s files EP E) as (x0 & s0 & E0 & ER).
  destruct (run_spec w fuel (opt_output o) x0 s0 x s files Hs HB ER) as (k & st & _ & K1 & K2 & K3 & _ & _ & K5).
  destruct (restartable_first w HS HI HQ o o' HM HF HD) as (x1 & s1 & E1 & R). rewrite E0 in E1. injection E1 as <- <-.
  destruct (in_network _ x0 s0 st k files N cn K1 K5 In1 Hs HN) as (i & Hi & A1 & A2).
  destruct (in_opinions _ x0 s0 st k files N ca K1 K5 In2 Hs HN) as (i2 & Hi2 & B1 & B2).
  assert (i2 = i) as -> by lia.
  exists x0, s0, k, st, i. split; auto. split; auto. split; auto. split; auto. split; auto. 
  assert (R0 : restartable o o' (fst (st 0))) by (rewrite K1; cbn [fst]; now apply restartable_init).
  split; [apply (restartable_traj w HS HI HQ o o' st k K3); auto|]. split; auto. split; auto.
  rewrite (traj_count o o' st k K3 R0 i Hi). rewrite <- (traj_count o o' st k K3 R0 k (le_n k)), K2. reflexivity.
Qed.

(** A run has written network_N.txt and opinions_N.txt. The program is started again on these two
    files, with a configuration of the same model, numbering its output from N. Then every file that
    both runs write has the same contents in both: opinions_n.txt for every n, network_n.txt for every
    n > N, and for the DeGroot model also n = N. *)
Theorem C73_restart_continues fuel fuel' root root' seed seed' (o o' : options D) x s files x' s' files' N fn fa cn ca :
  parse_config (w_trunc w) root seed = Ok o -> sizes_fit o ->
  parse_config (w_trunc w) root' seed' = Ok o' -> same_deterministic_model o o' ->
  (0 <= start_numbering_from (opt_output o))%Z -> (Z.of_nat fuel + start_numbering_from (opt_output o) < 2 ^ 64)%Z ->
  main w fuel root seed None None = Ok (x, s, files) ->
  (0 <= N)%Z -> In (network_name N, cn) files -> In (opinions_name N, ca) files ->
  fits cn -> readable w cn -> readable w ca -> w_read w fn = Ok cn -> w_read w fa = Ok ca ->
  start_numbering_from (opt_output o') = N -> (Z.of_nat fuel' + N < 2 ^ 64)%Z ->
  main w fuel' root' seed' (Some fn) (Some fa) = Ok (x', s', files') ->
  forall n c c', (0 <= n)%Z ->
    (In (opinions_name n, c) files -> In (opinions_name n, c') files' -> c' = c) /\
    (n <> N \/ opt_model o = DeGroot -> In (network_name n, c) files -> In (network_name n, c') files' -> c' = c).
Proof using HS HI HQ.
  intros EP HF EP' HD Hs HB E HN In1 In2 Fit Rcn Rca Rn Ra HN' HB' E' n c c' Hn.
  destruct (saved_state fuel root seed o o' x s files N cn ca EP HF HD Hs HB E HN In1 In2) as (x0 & s0 & k & st & i & K1 & K2 & K3 & Hi & EI & (R1 & R2 & R3 & R4) & En & Ea & EC).
  pose proof (parsed_matching w root' seed' o' EP') as HM'.
  destruct (restart_state w o' (fst (st i)) fn fa cn ca HM' Rcn Rca R1 R2 R3 R4 En Fit Ea Rn Ra) as (y & t & EY & AG & _ & GR & _).
  destruct (main_parts fuel' root' seed' (Some fn) (Some fa) o' x' s' files' EP' E') as (y0 & t0 & EY' & ER'). rewrite EY in EY'. injection EY' as <- <-.
  destruct (run_spec w fuel' (opt_output o') y t x' s' files' ltac:(lia) ltac:(lia) ER') as (k' & st' & _ & L1 & _ & L3 & _ & _ & L5).
  assert (A0 : agree (fst (st i)) (fst (st' 0))).
  { rewrite L1. cbn [fst]. destruct (fst (st i)), y; exact AG. }
  assert (T : forall j, j <= k' -> i + j <= k -> agree (fst (st (i + j))) (fst (st' j)) /\ (0 < j -> agree_graph (fst (st (i + j))) (fst (st' j)))).
  { apply (agree_traj w HQ st st' k k' i); auto. }
  split.
  - intros H1 H2. destruct (in_opinions _ x0 s0 st k files n c K1 K3 H1 Hs Hn) as (i1 & Hi1 & A1 & A2).
    destruct (in_opinions _ y t st' k' files' n c' L1 L5 H2 ltac:(lia) Hn) as (j & Hj & B1 & B2).
    assert (i1 = i + j) as -> by lia. destruct (T j Hj ltac:(lia)) as [AJ _].
    rewrite (agree_agents w _ _ AJ) in A2. congruence.
  - intros Hx H1 H2. destruct (in_network _ x0 s0 st k files n c K1 K3 H1 Hs Hn) as (i1 & Hi1 & A1 & A2).
    destruct (in_network _ y t st' k' files' n c' L1 L5 H2 ltac:(lia) Hn) as (j & Hj & B1 & B2).
    assert (i1 = i + j) as -> by lia. destruct (T j Hj ltac:(lia)) as [AJ GJ].
    assert (GG : agree_graph (fst (st (i + j))) (fst (st' j))).
    { destruct (Nat.eq_dec j 0) as [->|]; [|apply GJ; lia]. rewrite Nat.add_0_r, L1. cbn [fst].
      assert (KD : kind_of (fst (st i)) = Simple).
      { destruct Hx as [Hx|Hx]; [lia|]. unfold continues, same_deterministic_model in R4, HD.
        pose proof (parsed_matching w root seed o EP) as HM. unfold matching in HM. rewrite Hx in HM.
        destruct (opt_settings o) as [d|d|d|d]; try contradiction. destruct (opt_settings o') as [d'|d'|d'|d']; try contradiction.
        destruct (fst (st i)); try contradiction. reflexivity. }
      specialize (GR KD). unfold agree_graph in *. destruct y; exact GR. }
    rewrite (agree_network w _ _ AJ GG) in A2. congruence.
Qed.

(** The program started again runs to its end, if its configuration is valid, sets a limit and has no
    output interval of 0. *)
Theorem C73_restart_runs fuel fuel' root root' seed seed' (o o' : options D) x s files N fn fa cn ca limit :
  parse_config (w_trunc w) root seed = Ok o -> sizes_fit o ->
  parse_config (w_trunc w) root' seed' = Ok o' -> validate_settings o' = Ok tt -> same_deterministic_model o o' ->
  (0 <= start_numbering_from (opt_output o))%Z -> (Z.of_nat fuel + start_numbering_from (opt_output o) < 2 ^ 64)%Z ->
  main w fuel root seed None None = Ok (x, s, files) ->
  (0 <= N)%Z -> In (network_name N, cn) files -> In (opinions_name N, ca) files ->
  fits cn -> readable w cn -> readable w ca -> w_read w fn = Ok cn -> w_read w fa = Ok ca ->
  configured_limit o' = Some limit -> (0 <= limit < 2 ^ 31)%Z -> (limit < Z.of_nat fuel')%Z ->
  n_output_agents (opt_output o') <> Some 0%Z -> n_output_network (opt_output o') <> Some 0%Z ->
  exists x' s' files', main w fuel' root' seed' (Some fn) (Some fa) = Ok (x', s', files') /\
    n_agents (net_of x') = n_agents (net_of x).
Proof using HS HI HQ.
  intros EP HF EP' EV' HD Hs HB E HN In1 In2 Fit Rcn Rca Rn Ra HL H0 HB' Z1 Z2.
  destruct (saved_state fuel root seed o o' x s files N cn ca EP HF HD Hs HB E HN In1 In2) as (x0 & s0 & k & st & i & K1 & K2 & K3 & Hi & EI & (R1 & R2 & R3 & R4) & En & Ea & EC).
  pose proof (parsed_matching w root' seed' o' EP') as HM'.
  destruct (restart_state w o' (fst (st i)) fn fa cn ca HM' Rcn Rca R1 R2 R3 R4 En Fit Ea Rn Ra) as (y & t & EY & AG & RY & _ & M).
  unfold main. rewrite EP'. cbn [bind]. rewrite EV'. cbn [bind].
  assert (EPr : print_settings o' = Ok tt).
  { unfold print_settings, matching in *. destruct (opt_model o'), (opt_settings o'); try contradiction; reflexivity. }
  rewrite EPr. cbn [bind]. rewrite EY. cbn [bind]. rewrite HL in M. cbn [option_map] in M.
  assert (EL : to_size_t limit = Z.of_nat (Z.to_nat limit)) by (unfold to_size_t; rewrite Z.mod_small; lia). rewrite EL in M.
  destruct (run_total w HS HI HQ (opt_output o') (Z.to_nat limit) y t fuel' Z1 Z2 RY M ltac:(lia) ltac:(lia)) as (x' & s' & files' & ER & R' & N' & RA').
  exists x', s', files'. split; [exact ER|]. rewrite N'. rewrite <- (agree_count _ _ AG). exact EC.
Qed.
End Continue.

(** ** Concrete cases: two complete runs over binary64, a DeGroot model and an activity-driven model in
    the mean-field approximation. *)
From Verif Require Import WText64 TActivity.
Definition io_save (from : Z) : list (text * toml Arith64.float) :=
  [(lit "n_output_agents", TInt 1); (lit "n_output_network", TInt 1); (lit "start_numbering_from", TInt from)].
Definition save_degroot from limit := conf (lit "DeGroot") (io_save from) [(lit "max_iterations", TInt limit)] [] 3 1.
Definition save_activity from limit := conf (lit "ActivityDriven") (io_save from) [(lit "max_iterations", TInt limit)]
  [(lit "m", TInt 1); (lit "mean_weights", TBool true); (lit "n_bots", TInt 1)] 3 1.
Definition world_reading (read : text -> res text) : world FA :=
  mkWorld FA (zero_libm FA) (const_rng (a:=FA) (flit FA 1 2) (f0 FA)) (list_pq FA) (fun _ => tt) text64 stod64 trunc64 read.
(** The directory with the files of the first run. *)
Definition written (conf : list (text * toml Arith64.float)) : list output :=
  match main (world_reading (fun _ => Throw ExRuntime)) 10 conf 7 None None with Ok (_, _, files) => files | _ => [] end.
Definition look_up (files : list output) (name : text) : res text :=
  match find (fun f => text_eqb (fst f) name) files with Some f => Ok (snd f) | None => Throw ExRuntime end.
Definition restart_world (conf : list (text * toml Arith64.float)) : world FA := world_reading (look_up (written conf)).

Lemma readable64 read c : readable (world_reading read) c.
Proof. intros y _. split; [apply text64_printable|apply text64_length]. Qed.

Lemma read_gen read : sample_ok (w_gen (world_reading read)) /\ SRandom.int_ok (w_gen (world_reading read)) /\ pq_bag (w_pq (world_reading read)).
Proof. split; [|split]; [apply (const_rng_sample_ok FA)|apply (const_rng_int_ok FA)|apply (list_pq_bag FA)]. Qed.

(** What the configurations parse to. *)
Definition out_of (from : Z) : output_settings := mkOutput (Some 1%Z) (Some 1%Z) false true 1 from.
Definition parsed (read : text -> res text) conf (o : options (F FA)) limit from : Prop :=
  parse_config (w_trunc (world_reading read)) conf 7 = Ok o /\ sizes_fit (D:=F FA) o /\
  validate_settings (a:=FA) o = Ok tt /\ configured_limit o = Some limit /\ opt_output o = out_of from.
Lemma degroot_facts read : exists o o', parsed read (save_degroot 10 4) o 4 10 /\ parsed read (save_degroot 12 3) o' 3 12 /\
  opt_model o = DeGroot /\ same_deterministic_model o o'.
Proof.
  eexists _, _. split; [split; [reflexivity|]|split; [split; [reflexivity|]|split; [reflexivity|exact I]]].
  - split; [|split; [vm_compute; reflexivity|split; reflexivity]]. split; [reflexivity|]. split; [split; [intros H; discriminate H|reflexivity]|]. split; [reflexivity|exact I].
  - split; [|split; [vm_compute; reflexivity|split; reflexivity]]. split; [reflexivity|]. split; [split; [intros H; discriminate H|reflexivity]|]. split; [reflexivity|exact I].
Qed.
Lemma activity_parse_limit (D0 : Arith) trunc (st : ad_settings (F D0)) sec tbl tbl' x y :
  parse_activity_settings trunc st sec tbl = Ok x -> parse_activity_settings trunc st sec tbl' = Ok y -> with_limit None x = with_limit None y.
Proof.
  unfold parse_activity_settings. cbv zeta. intros E1 E2.
  repeat (match type of E1 with bind ?m _ = _ => destruct m; try discriminate E1; cbn [bind] in E1, E2 end).
  injection E1 as <-. injection E2 as <-. reflexivity.
Qed.
Lemma activity_facts read : exists o o', parsed read (save_activity 10 4) o 4 10 /\ parsed read (save_activity 12 3) o' 3 12 /\
  opt_model o = ActivityDriven /\ same_deterministic_model o o'.
Proof.
  set (sm := fun r : res (options (F FA)) => match r with
    | Ok o => match opt_settings o with
              | ActivityDrivenSettings st => Some (validate_settings (a:=FA) o, fits_b o, net_n_agents (opt_network o), m st, n_bots st, length (bot_m st), length (bot_homophily st),
                  length (bot_opinion st), length (bot_activity st), nth 0 (bot_m st) 0%Z, configured_limit o, opt_output o, mean_weights st, opt_model o)
              | _ => None end
    | _ => None end).
  set (tr := w_trunc (world_reading read)).
  assert (G : forall conf limit from, sm (parse_config (a:=FA) trunc64 conf 7) = Some (Ok tt, true, 3%Z, 1%Z, 1, 1, 1, 1, 1, 1%Z, Some limit, out_of from, true, ActivityDriven) ->
    exists o st, parsed read conf o limit from /\ opt_settings o = ActivityDrivenSettings st /\ mean_weights st = true /\ opt_model o = ActivityDriven).
  { intros cf limit from E. unfold parsed. change (w_trunc (world_reading read)) with trunc64.
    destruct (parse_config (a:=FA) trunc64 cf 7) as [o| | |]; try discriminate E. unfold sm in E. cbv beta iota in E.
    match type of E with context [@opt_settings ?T o] => destruct (@opt_settings T o) as [|st| |] eqn:ES; try discriminate E end. cbv beta iota in E. injection E as E1 E2 E3 E4 E5 E6 E7 E8 E9 E10 E11 E12 E13 E14.
    exists o, st. split; [|auto]. split; [reflexivity|]. split; [|auto].
    apply fits_b_spec in E2. exact (fit_activity o st 3 1 1 1 ES E2 E3 E4 E5 E6 E7 E8 E9 E10 ltac:(lia)). }
  destruct (G (save_activity 10 4) 4%Z 10%Z ltac:(vm_compute; reflexivity)) as (o & st & P & S1 & M1 & K1).
  destruct (G (save_activity 12 3) 3%Z 12%Z ltac:(vm_compute; reflexivity)) as (o' & st' & P' & S1' & M1' & K1').
  exists o, o'. split; auto. split; auto. split; auto. unfold same_deterministic_model. rewrite S1, S1'. split; auto.
  destruct P as [P _]. destruct P' as [P' _]. 
  destruct (parse_inv _ _ _ _ P) as (name & k & s0 & A1 & A2 & A3 & A4 & A5 & A6).
  destruct (parse_inv _ _ _ _ P') as (name' & k' & s0' & B1 & B2 & B3 & B4 & B5 & B6).
  assert (name = lit "ActivityDriven") as -> by (injection A1 as <-; reflexivity).
  assert (name' = lit "ActivityDriven") as -> by (injection B1 as <-; reflexivity).
  rewrite K1 in A5. rewrite K1' in B5. subst k k'. cbn [parse_model_settings] in A3, B3.
  destruct (parse_activity_settings _ _ _ _) as [u| | |] eqn:EU; try discriminate A3.
  match type of B3 with bind ?q _ = _ => destruct q as [v| | |] eqn:EV; try discriminate B3 end.
  cbn [bind] in A3, B3. injection A3 as <-. injection B3 as <-. rewrite S1 in A6. rewrite S1' in B6. injection A6 as ->. injection B6 as ->.
  exact (activity_parse_limit FA _ _ _ _ _ u v EU EV).
Qed.

Lemma in_written (files : list output) name c : existsb (fun p => text_eqb (fst p) name && text_eqb (snd p) c) files = true -> In (name, c) files.
Proof.
  intros H. apply existsb_exists in H as ([a b] & Hin & H). apply andb_true_iff in H as [H1 H2]. cbn [fst snd] in H1, H2.
  apply text_eqb_spec in H1, H2. subst. exact Hin.
Qed.
(** In the directory with the files of the first run, the first run writes these files (again), and the
    second run starts from network_12.txt and opinions_12.txt. *)
Definition saved_b (save : Z -> Z -> list (text * toml Arith64.float)) : bool :=
  let conf := save 10%Z 4%Z in
  match look_up (written conf) (network_name 12), look_up (written conf) (opinions_name 12) with
  | Ok cn, Ok ca =>
      (Z.of_nat (length cn) <? 4611686018427387904)%Z &&
      match main (restart_world conf) 10 conf 7 None None with
      | Ok (_, _, files) => existsb (fun p => text_eqb (fst p) (network_name 12) && text_eqb (snd p) cn) files &&
          existsb (fun p => text_eqb (fst p) (opinions_name 12) && text_eqb (snd p) ca) files &&
          existsb (fun p => text_eqb (fst p) (network_name 14)) files && existsb (fun p => text_eqb (fst p) (opinions_name 14)) files
      | _ => false
      end &&
      match main (restart_world conf) 10 (save 12 3)%Z 7 (Some (network_name 12)) (Some (opinions_name 12)) with
      | Ok (_, _, files) => existsb (fun p => text_eqb (fst p) (network_name 14)) files && existsb (fun p => text_eqb (fst p) (opinions_name 14)) files
      | _ => false
      end
  | _, _ => false
  end.
Definition restart_case (save : Z -> Z -> list (text * toml Arith64.float)) : Prop :=
  let w := restart_world (save 10 4)%Z in
  exists (o o' : options (F FA)) x s files x' s' files' cn ca c1 c2,
    sample_ok (w_gen w) /\ SRandom.int_ok (w_gen w) /\ pq_bag (w_pq w) /\
    parse_config (w_trunc w) (save 10 4)%Z 7 = Ok o /\ sizes_fit (D:=F FA) o /\
    parse_config (w_trunc w) (save 12 3)%Z 7 = Ok o' /\ same_deterministic_model o o' /\
    start_numbering_from (opt_output o) = 10%Z /\ start_numbering_from (opt_output o') = 12%Z /\
    main w 10 (save 10 4)%Z 7 None None = Ok (x, s, files) /\
    In (network_name 12, cn) files /\ In (opinions_name 12, ca) files /\ fits cn /\ readable w cn /\ readable w ca /\
    w_read w (network_name 12) = Ok cn /\ w_read w (opinions_name 12) = Ok ca /\
    main w 10 (save 12 3)%Z 7 (Some (network_name 12)) (Some (opinions_name 12)) = Ok (x', s', files') /\
    In (network_name 14, c1) files /\ In (network_name 14, c1) files' /\ In (opinions_name 14, c2) files /\ In (opinions_name 14, c2) files'.
Lemma saved_case save o o' : saved_b save = true ->
  parsed (look_up (written (save 10 4)%Z)) (save 10 4)%Z o 4 10 -> parsed (look_up (written (save 10 4)%Z)) (save 12 3)%Z o' 3 12 -> same_deterministic_model o o' ->
  restart_case save.
Proof.
  intros HB (P1 & P2 & P3 & P4 & P5) (Q1 & Q2 & Q3 & Q4 & Q5) HD. unfold restart_case. set (w := restart_world (save 10 4)%Z) in *. cbv zeta.
  destruct (read_gen (look_up (written (save 10 4)%Z))) as (G1 & G2 & G3).
  change (parse_config (w_trunc w) (save 10 4)%Z 7 = Ok o) in P1. change (parse_config (w_trunc w) (save 12 3)%Z 7 = Ok o') in Q1.
  unfold saved_b in HB. cbv zeta in HB. change (restart_world (save 10 4)%Z) with w in HB.
  destruct (look_up (written (save 10 4)%Z) (network_name 12)) as [cn| | |] eqn:Rn; try discriminate HB.
  destruct (look_up (written (save 10 4)%Z) (opinions_name 12)) as [ca| | |] eqn:Ra; try discriminate HB.
  rewrite !andb_true_iff in HB. destruct HB as [[HB1 HB2] HB3]. apply Z.ltb_lt in HB1.
  destruct (main w 10 (save 10 4)%Z 7 None None) as [[[x s] files]| | |] eqn:EM; try discriminate HB2.
  rewrite !andb_true_iff in HB2. destruct HB2 as (((B1 & B2) & B3) & B4). apply in_written in B1, B2.
  change (w_read w (network_name 12) = Ok cn) in Rn. change (w_read w (opinions_name 12) = Ok ca) in Ra.
  assert (S1 : start_numbering_from (opt_output o) = 10%Z) by (rewrite P5; reflexivity).
  assert (S2 : start_numbering_from (opt_output o') = 12%Z) by (rewrite Q5; reflexivity).
  assert (RC : readable w cn) by apply readable64. assert (RC' : readable w ca) by apply readable64.
  destruct (C73_restart_runs w G1 G2 G3 10 10 (save 10 4)%Z (save 12 3)%Z 7 7 o o' x s files 12 (network_name 12) (opinions_name 12) cn ca 3) as (x' & s' & files' & E' & _);
    auto; try lia; try (rewrite Q5; discriminate).
  exists o, o', x, s, files, x', s', files', cn, ca.
  apply existsb_exists in B3 as ([n1 c1] & I1 & B3). apply text_eqb_spec in B3. cbn [fst] in B3. subst n1.
  apply existsb_exists in B4 as ([n2 c2] & I2 & B4). apply text_eqb_spec in B4. cbn [fst] in B4. subst n2.
  pose proof (C73_restart_continues w G1 G2 G3 10 10 (save 10 4)%Z (save 12 3)%Z 7 7 o o' x s files x' s' files' 12 (network_name 12) (opinions_name 12) cn ca
    P1 P2 Q1 HD ltac:(lia) ltac:(rewrite S1; reflexivity) EM ltac:(lia) B1 B2 HB1 RC RC' Rn Ra S2 ltac:(reflexivity) E') as T.
  rewrite E' in HB3. rewrite andb_true_iff in HB3. destruct HB3 as [D3 D4].
  apply existsb_exists in D3 as ([n1 d1] & J1 & D3). apply text_eqb_spec in D3. cbn [fst] in D3. subst n1.
  apply existsb_exists in D4 as ([n2 d2] & J2 & D4). apply text_eqb_spec in D4. cbn [fst] in D4. subst n2.
  assert (Z14 : (0 <= 14)%Z) by lia. assert (N14 : (14 <> 12)%Z) by lia.
  destruct (T 14%Z c1 d1 Z14) as [_ T1]. specialize (T1 (or_introl N14)). specialize (T1 I1). specialize (T1 J1).
  destruct (T 14%Z c2 d2 Z14) as [T2 _]. specialize (T2 I2). specialize (T2 J2). subst d1 d2.
  exists c1, c2. change (fits cn) in HB1. repeat (split; [first [assumption|reflexivity]|]). assumption.
Qed.
Example C73_instance_degroot : restart_case save_degroot.
Proof.
  destruct (degroot_facts (look_up (written (save_degroot 10 4)))) as (o & o' & P & P' & _ & HD).
  refine (saved_case save_degroot o o' _ P P' HD). vm_compute. reflexivity.
Qed.
Example C73_instance_activity : restart_case save_activity.
Proof.
  destruct (activity_facts (look_up (written (save_activity 10 4)))) as (o & o' & P & P' & _ & HD).
  refine (saved_case save_activity o o' _ P P' HD). vm_compute. reflexivity.
Qed.
Lemma rewritten_case {X : Type} (r r' : res (X * list output)) (rd : res text) name :
  match r, r', rd with
    | Ok (_, files), Ok (_, files'), Ok c =>
        existsb (fun p => text_eqb (fst p) name && text_eqb (snd p) c) files &&
        existsb (fun p => text_eqb (fst p) name && negb (text_eqb (snd p) c)) files'
    | _, _, _ => false end = true ->
  exists x files x' files' c c', r = Ok (x, files) /\ r' = Ok (x', files') /\ rd = Ok c /\ In (name, c) files /\ In (name, c') files' /\ c' <> c.
Proof.
  intros E. destruct r as [[x files]| | |]; try discriminate E. destruct r' as [[x' files']| | |]; try discriminate E. destruct rd as [c| | |]; try discriminate E.
  apply andb_true_iff in E as [E1 E2]. apply in_written in E1. apply existsb_exists in E2 as ([n1 c'] & I1 & E2).
  apply andb_true_iff in E2 as [E2 E3]. cbn [fst snd] in E2, E3. apply text_eqb_spec in E2. subst n1.
  exists x, files, x', files', c, c'. split; [reflexivity|]. split; [reflexivity|]. split; [reflexivity|]. split; [exact E1|]. split; [exact I1|].
  intros ->. rewrite (proj2 (text_eqb_spec c c) eq_refl) in E3. discriminate E3.
Qed.
(** The exception n = N is necessary: in the mean-field case the second run does not keep the network of
    the file it reads, and writes another network_12.txt over it. *)
Theorem C73_network_kept_refuted :
  exists x files x' files' c c', main (restart_world (save_activity 10 4)) 10 (save_activity 10 4) 7 None None = Ok (x, files) /\
    main (restart_world (save_activity 10 4)) 10 (save_activity 12 3) 7 (Some (network_name 12)) (Some (opinions_name 12)) = Ok (x', files') /\
    w_read (restart_world (save_activity 10 4)) (network_name 12) = Ok c /\
    In (network_name 12, c) files /\ In (network_name 12, c') files' /\ c' <> c.
Proof.
  refine (rewritten_case (main (restart_world (save_activity 10 4)) 10 (save_activity 10 4) 7 None None)
    (main (restart_world (save_activity 10 4)) 10 (save_activity 12 3) 7 (Some (network_name 12)) (Some (opinions_name 12)))
    (w_read (restart_world (save_activity 10 4)) (network_name 12)) (network_name 12) _).
  vm_compute. reflexivity.
Qed.
Print Assumptions C73_restart_continues.
Print Assumptions C73_restart_runs.
Print Assumptions C73_network_kept_refuted.
