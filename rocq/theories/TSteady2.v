(** Property theorem C74, for the whole program: a DeGroot simulation on a generated network ends. *)
From Verif Require Import Base BaseFacts Arith64 RFacts MRandom SRandom WRandom MNetwork SNetwork PNetwork2 MNetGen PNetGen TNetGen MText PText MNetFile MAgents TFiles
  MDeGroot SDeGroot TDeGroot MDeffuant MDist MActivity MConfig SConfig PConfig TConfig MSimulation SSimulation PSimulation PSimulation2 TSimulation TSimulation2 SSteady TSteady.
From Coq Require Import Reals Lra.
Local Open Scope R_scope.

(** A loop on a DeGroot model that will have stopped after [T] iterations. *)
Lemma loop_ends (w : world RA) os : n_output_agents os <> Some 0%Z -> n_output_network os <> Some 0%Z ->
  forall T fuel (m : degroot RA) s log, ready m -> (0 <= iterations (dg_base m))%Z -> (T < fuel)%nat ->
  (exists m', degroot_run T m = Ok m' /\ degroot_finished m' = true) ->
  exists x s' log', run_loop w fuel os (MDeGroot m) s log = Ok (x, s', log') /\ (n_iterations x <= iterations (dg_base m) + Z.of_nat T)%Z.
Proof.
  intros Z1 Z2. induction T as [|T IH]; intros fuel m s log HR HI HF (m' & E & F); (destruct fuel as [|fuel]; [lia|]); cbn [run_loop model_finished].
  - cbn [degroot_run] in E. injection E as <-. rewrite F. do 3 eexists. split; [reflexivity|]. unfold n_iterations. cbn [base_of]. lia.
  - destruct (degroot_finished m) eqn:EF; [do 3 eexists; split; [reflexivity|]; unfold n_iterations; cbn [base_of]; lia|].
    cbn [degroot_run] in E. destruct (C25_synchronous_step RA m HR) as (m1 & E1 & R1 & _ & _ & _ & _ & I1 & _). rewrite E1 in E. cbn [bind] in E.
    cbn [model_iteration]. rewrite E1. cbn [bind].
    assert (SR : sim_ready (MDeGroot m1)) by (split; [apply R1|exact R1]).
    destruct (due_defined (n_output_agents os) (start_output os) (n_iterations (MDeGroot m1)) Z1) as (b1 & ->). cbn [bind].
    destruct (due_defined (n_output_network os) (start_output os) (n_iterations (MDeGroot m1)) Z2) as (b2 & E2).
    destruct (write_opinions_ok w (MDeGroot m1) (to_size_t (n_iterations (MDeGroot m1) + start_numbering_from os))) as (f1 & F1).
    destruct (write_network_ok w (MDeGroot m1) (to_size_t (n_iterations (MDeGroot m1) + start_numbering_from os)) SR) as (f2 & F2).
    assert (HI1 : (0 <= iterations (dg_base m1) <= iterations (dg_base m) + 1)%Z).
    { rewrite I1. pose proof (Z.mod_pos_bound (iterations (dg_base m) + 1) (2 ^ 64) ltac:(lia)). pose proof (Z.mod_le (iterations (dg_base m) + 1) (2 ^ 64)). lia. }
    destruct b1; rewrite ?F1; cbn [bind]; rewrite E2; cbn [bind]; destruct b2; rewrite ?F2; cbn [bind];
      (match goal with |- context [run_loop w fuel os _ _ ?l] => destruct (IH fuel m1 s l R1 ltac:(lia) ltac:(lia)) as (x & s' & log' & E' & B'); [eauto|] end;
       exists x, s', log'; split; [exact E'|lia]).
Qed.

Section Program.
Variables (u tol : R) (nc : Z).
Hypothesis (Hu : 0 < u) (Ht : 0 < tol).

(** The weights of a generated row: drawn values, all at least [u], divided by their sum. *)
Lemma share_of_draws (us : list R) : Forall (fun x => u <= x < 1) us -> (0 < length us)%nat ->
  Forall (fun x => u / INR (length us) <= x / Rsum us) us.
Proof using Hu.
  intros HF HL. assert (S1 : 0 < Rsum us <= INR (length us)).
  { clear -HF HL Hu. assert (S0 : 0 <= Rsum us <= INR (length us)).
    { clear HL. induction HF as [|x us Hx HF IH]; [cbn; rewrite ?Rsum_nil; unfold Rsum; cbn; lra|]. cbn [length]. rewrite Rsum_cons, S_INR. lra. }
    split; [|lra]. destruct HF as [|x us Hx HF]; [cbn in HL; lia|]. rewrite Rsum_cons.
    assert (0 <= Rsum us); [|lra]. apply Rsum_nonneg. eapply Forall_impl; [|exact HF]. cbv beta. intros; lra. }
  eapply Forall_impl; [|exact HF]. cbv beta. intros x Hx. unfold Rdiv. apply Rmult_le_compat; [lra| |lra|].
  - apply Rlt_le, Rinv_0_lt_compat. lra.
  - apply Rinv_le_contravar; lra.
Qed.

(** C74 for the program. [u] bounds the uniform variates of the generator away from 0. *)
Theorem C74_program_stops : exists T, forall (w : world RA) fuel root seed (o : options (F RA)) d,
  sample_ok (w_gen w) -> real_ok (w_gen w) -> (forall s, u <= fst (r_real (w_gen w) 0 1 s)) ->
  parse_config (a:=RA) (w_trunc w) root seed = Ok o -> validate_settings (a:=RA) o = Ok tt -> sizes_fit o ->
  opt_settings o = DeGrootSettings d -> dg_convergence_tol d = tol -> net_n_connections (opt_network o) = nc ->
  n_output_agents (opt_output o) <> Some 0%Z -> n_output_network (opt_output o) <> Some 0%Z ->
  (T < fuel)%nat ->
  exists x s files, main w fuel root seed None None = Ok (x, s, files) /\ (n_iterations x <= Z.of_nat T)%Z.
Proof using Hu Ht.
  set (delta := u / INR (Z.to_nat nc + 1)).
  assert (PN : 0 < INR (Z.to_nat nc + 1)) by (apply lt_0_INR; lia).
  assert (Hd : 0 < delta) by (apply Rdiv_lt_0_compat; auto).
  destruct (C74_stops_within delta 1 tol Hd Ht) as (T & HT). exists T.
  intros w fuel root seed o d HS HR HU EP EV HF ED ETol ENc Z1 Z2 Hfuel.
  pose proof (parsed_matching w root seed o EP) as HM.
  assert (EM : opt_model o = DeGroot).
  { clear - HM ED. destruct o. cbn in *. unfold matching in HM. cbn in HM. rewrite ED in HM. destruct opt_model; auto; contradiction. }
  assert (EPr : print_settings (a:=RA) o = Ok tt) by (unfold print_settings; rewrite EM, ED; reflexivity).
  unfold main. rewrite EP. cbn [bind]. rewrite EV. cbn [bind]. rewrite EPr. cbn [bind].
  unfold main_simulation. rewrite EM. unfold simulation_ctor, create_network, create_model. destruct HF as (F1 & F2 & F3 & _). rewrite F1.
  assert (EN : to_size_t (to_int32 (net_n_agents (opt_network o))) = net_n_agents (opt_network o)).
  { unfold to_int32, to_size_t. rewrite (Z.mod_small _ (2 ^ 32)) by lia.
    destruct (Z.ltb_spec (net_n_agents (opt_network o)) 2147483648); [|lia]. rewrite Z.mod_small; lia. }
  rewrite EN, ENc. set (n := Z.to_nat (net_n_agents (opt_network o))). set (s0 := w_seed w (opt_rng_seed o)).
  destruct (C15_n_connections RA (w_gen w) (simple_agent R) (mkSimple 0) n (Z.to_nat nc) true s0 HS ltac:(unfold n; lia)) as (G & s1 & E & Hw & Ha & Hd' & HN).
  match goal with |- context [generate_n_connections ?g ?a ?b ?c ?e ?f] => change (generate_n_connections g a b c e f) with (generate_n_connections (w_gen w) (mkSimple 0) n (Z.to_nat nc) true s0) end.
  rewrite E. cbn [bind]. rewrite EM. cbn [create_model_degroot]. rewrite ED. cbn [get_degroot bind].
  destruct (C25_constructor RA (dg_max_iterations d) (dg_convergence_tol d) G Hw) as (m & wn & Em & Rm & N1 & N2 & N3 & N4 & N5 & N6 & N7 & N8 & N9 & _).
  match goal with |- context [degroot_ctor ?p ?q ?r] => change (degroot_ctor p q r) with (degroot_ctor (a:=RA) (dg_max_iterations d) (dg_convergence_tol d) G) end.
  rewrite Em. cbn [bind].
  assert (HGn : n_agents G = n) by (unfold n_agents; rewrite Ha; apply repeat_length).
  (* the rows of the generated network *)
  assert (HW : forall i, (i < n)%nat -> exists ws, nth i (wts G) [] = ws /\ Forall (fun x => 0 <= x) ws /\ Rsum ws = 1 /\ Forall (fun x => delta <= x) ws /\ In i (nth i (neigh G) [])).
  { intros i Hi. exists (nth i (wts G) []). split; auto.
    assert (LW : length (wts G) = n) by (rewrite <- HGn; apply Hw).
    assert (EW : get_weights G i = Ok (nth i (wts G) [])) by (unfold get_weights; rewrite (vget_lt _ _ _ []) by lia; reflexivity).
    destruct (HN i Hi) as (out & En & Lo & _ & Ho).
    assert (ENb : nth i (neigh G) [] = out ++ [i]).
    { unfold get_neighbours in En. rewrite (vget_lt _ _ _ []) in En; [injection En as En; exact En|]. destruct Hw as (V1 & _). rewrite V1. rewrite <- HGn in Hi. exact Hi. }
    assert (LR : length (nth i (wts G) []) = (Z.to_nat nc + 1)%nat).
    { destruct Hw as (_ & _ & V3 & _). rewrite <- V3 by (rewrite <- HGn in Hi; exact Hi). rewrite ENb, app_length, Lo. reflexivity. }
    assert (HNZ : forall s, fst (r_real (w_gen w) 0 1 s) <> 0) by (intros s; specialize (HU s); lra).
    destruct (C16_row_sums_to_one (w_gen w) _ (mkSimple 0) n (Z.to_nat nc) true s0 G s1 i (nth i (wts G) []) HS HR HNZ (or_introl E) Hi EW) as [SU PO].
    { intros C. rewrite C in LR. cbn in LR. lia. }
    destruct (C16_row_stochastic (w_gen w) _ (mkSimple 0) n (Z.to_nat nc) true s0 G s1 i (nth i (wts G) []) HS HR (or_introl E) Hi EW) as (si & ER & HUn & _).
    split; [eapply Forall_impl; [|exact PO]; cbv beta; intros; lra|]. split; [exact SU|]. split; [|rewrite ENb; apply in_or_app; right; now left].
    rewrite LR in ER, HUn. set (us := draws (w_gen w) (Z.to_nat nc + 1) si) in *.
    assert (LU : length us = (Z.to_nat nc + 1)%nat) by exact (draws_length (w_gen w) (Z.to_nat nc + 1) si).
    assert (FU : Forall (fun x => u <= x < 1) us).
    { assert (FU0 : Forall (fun x => u <= x) us).
      { unfold us. generalize (Z.to_nat nc + 1)%nat as q. clear -HU. intros q. revert si. induction q as [|q IH]; intros si; cbn [draws]; constructor; [exact (HU si)|apply IH]. }
      rewrite Forall_forall in *. intros x Hx. split; [now apply FU0|apply HUn; exact Hx]. }
    rewrite ER. apply Forall_map. pose proof (share_of_draws us FU) as SD.
    assert (LU' : @length R us = (Z.to_nat nc + 1)%nat) by exact LU. rewrite LU' in SD. apply SD. lia. }
  assert (NA : n_agents (dg_net m) = n) by (rewrite <- HGn; exact N4).
  assert (Nw : @wts (simple_agent R) R (dg_net m) = wts G) by exact N2.
  assert (Nn : @neigh (simple_agent R) R (dg_net m) = neigh G) by exact N1.
  assert (Hst : stochastic (dg_net m)).
  { intros i Hi. change ((i < @n_agents (simple_agent R) R (dg_net m))%nat) in Hi. rewrite Nw. destruct (HW i ltac:(rewrite <- NA; exact Hi)) as (ws & Ews & A & B & _). assert (Ews' : @nth (list R) i (wts G) nil = ws) by exact Ews. rewrite Ews'. split; auto. }
  assert (Hsh : keeps_share delta (dg_net m)).
  { intros i Hi. assert (Hi' : (i < n)%nat) by (rewrite <- NA; exact Hi). destruct (HW i Hi') as (ws & Ews & _ & _ & C & Inb).
    destruct (rows_of (dg_net m) i (proj1 Rm) Hi) as [R1 R2]. rewrite Nn in R2. rewrite Nw in R1.
    rewrite <- R2 in Inb. apply in_map_iff in Inb as ((j, x) & Ej & Hin). cbn in Ej. subst j. exists x. split; [exact Hin|].
    rewrite <- Ews, Forall_forall in C. apply C. refine (eq_ind _ (fun l => In x l) _ _ R1). apply in_map_iff. exists (i, x). auto. }
  assert (Hop : Forall (fun x => 0 <= x <= 1) (@opinions RA (dg_net m))).
  { apply Forall_forall. intros x Hx. apply In_nth_error in Hx as (i & Ei).
    assert (Hi : (i < n)%nat).
    { assert (Hl : (i < length (@opinions RA (dg_net m)))%nat) by (apply nth_error_Some; intros C; pose proof (eq_trans (eq_sym C) Ei); discriminate).
      unfold opinions in Hl. rewrite map_length in Hl. rewrite <- NA. exact Hl. }
    pose proof (N9 i ltac:(rewrite <- HGn in Hi; exact Hi)) as Ei2. pose proof (eq_trans (eq_sym Ei2) Ei) as Ei3. injection Ei3 as <-. change (0 <= IZR (Z.of_nat i) / IZR (Z.of_nat (@n_agents (simple_agent R) (F RA) G)) <= 1). rewrite HGn.
    assert (0 < IZR (Z.of_nat n)) by (apply IZR_lt; lia).
    split; [apply Rmult_le_pos; [apply IZR_le; lia|apply Rlt_le, Rinv_0_lt_compat; auto]|].
    apply Rmult_le_reg_r with (IZR (Z.of_nat n)); auto. unfold Rdiv. rewrite Rmult_assoc, Rinv_l, Rmult_1_r, Rmult_1_l by lra. apply IZR_le. lia. }
  set (m1 := mkDeGroot (a:=RA) (initialize_iterations (dg_base m)) (convergence_tol m) (max_opinion_diff m) (dg_net m) (agents_current_copy m)).
  assert (FE : exists m', degroot_run T m1 = Ok m' /\ degroot_finished m' = true).
  { apply (HT m1 0 1 Rm Hst Hsh Hop); [lra|unfold m1; cbn [convergence_tol]; rewrite N7; exact ETol|lia]. }
  assert (SR : sim_ready (MDeGroot m)) by (split; [apply Rm|exact Rm]).
  unfold run.
  destruct (write_network_ok w (MDeGroot m) (start_numbering_from (opt_output o)) SR) as (f1 & W1).
  destruct (write_opinions_ok w (MDeGroot m) (start_numbering_from (opt_output o))) as (f2 & W2).
  cbn [model_initialize_iterations]. fold m1.
  destruct (output_initial (opt_output o)); rewrite ?W1; cbn [bind]; rewrite ?W2; cbn [bind];
    (match goal with |- context [run_loop w fuel ?os _ ?s ?l] => destruct (loop_ends w os Z1 Z2 T fuel m1 s l Rm ltac:(cbn; lia) Hfuel FE) as (x & s' & log' & E' & B') end;
     exists x, s', log'; split; [exact E'|exact B']).
Qed.
End Program.

(** A configuration without a limit on the iterations: the program stops all the same. *)
Definition real_world : world RA :=
  mkWorld RA (TActivity.zero_libm RA) mid_rng (list_pq RA) (fun _ => 0%nat) (fun _ => lit "0") (fun _ => Ok 0) (fun _ => None) (fun _ => Throw ExRuntime).
Definition real_conf : list (text * toml R) :=
  [(lit "simulation", TTable [(lit "model", TString (lit "DeGroot")); (lit "rng_seed", TInt 120)]);
   (lit "io", TTable [(lit "n_output_agents", TInt 2)]); (lit "model", TTable []); (lit "DeGroot", TTable [(lit "convergence", TFloat (1 / 100))]);
   (lit "network", TTable [(lit "number_of_agents", TInt 5); (lit "connections_per_agent", TInt 2)])].
Example C74_instance_program : exists fuel x s files, main real_world fuel real_conf 7 None None = Ok (x, s, files).
Proof.
  destruct (C74_program_stops (1 / 2) (1 / 100) 2 ltac:(lra) ltac:(lra)) as (T & HT). exists (S T).
  assert (EP : exists o, parse_config (a:=RA) (fun _ => None) real_conf 7 = Ok o /\ opt_settings o = DeGrootSettings (mkDGS (D:=R) None (1 / 100)) /\
    opt_model o = DeGroot /\
    net_file (opt_network o) = None /\ net_n_connections (opt_network o) = 2%Z /\ net_n_agents (opt_network o) = 5%Z /\
    n_output_agents (opt_output o) = Some 2%Z /\ n_output_network (opt_output o) = None /\ start_output (opt_output o) = 1%Z /\ start_numbering_from (opt_output o) = 0%Z).
  { eexists. split; [vm_compute; reflexivity|]. repeat split. }
  destruct EP as (o & EP & E1 & E0 & E2 & E3 & E4 & E5 & E6 & E7 & E8).
  destruct (HT real_world (S T) real_conf 7%Z o (mkDGS (D:=R) None (1 / 100))) as (x & s & files & E & _); eauto.
  - apply C16_contracts_met.
  - apply C16_contracts_met.
  - intros s. cbn. lra.
  - unfold validate_settings. rewrite E7, E8, E0, E1. cbn [get_degroot bind dg_convergence_tol].
    unfold check, geq_zero. cbn [fle fofZ RA]. change (IZR 0) with 0. destruct (Rleb_spec 0 (1 / 100)); [reflexivity|lra].
  - unfold sizes_fit. rewrite E2, E3, E4, E1. split; [reflexivity|]. split; [lia|]. split; [lia|exact I].
  - rewrite E5. discriminate.
  - rewrite E6. discriminate.
Qed.
Print Assumptions C74_program_stops.
