(** Property theorem C69, for the program: agent files written by hand and given on the command line, with
    missing or additional columns. What is read is stated on the agents of the model that is created. *)
From Verif Require Import Base BaseFacts Arith64 MRandom SRandom WRandom MNetwork SNetwork MText SText PText MNetFile PNetFile MAgents PAgents TFiles TColumns
  MDeGroot MDeffuant MDist MActivity MConfig SConfig PConfig MSimulation SSimulation PSimulation PSimulation2 TSimulation TSimulation2.

Section Program.
Context {a : Arith} (w : world a).
Notation D := (F a).

(** A row of a hand-written file: something without commas, that is not the beginning of a comment, then numbers. *)
Definition row_ok (r : text * list (nat * D)) : Prop :=
  ~ In comma (fst r) /\ ~ In newline (fst r) /\ hd_error (fst r) <> Some hash /\
  readable (w_fmt w) (w_stod w) (snd r) /\ short (row (w_fmt w) (snd r)).
Definition hand_written (rows : list (text * list (nat * D))) : text :=
  join newline (map (fun r => line (w_fmt w) (fst r) (snd r)) rows).

(** What the program must make of the rows. *)
Definition initial_agents_are (x : model (a:=a)) (rows : list (text * list (nat * D))) : Prop :=
  match x with
  | MDeGroot m => agents (dg_net m) = map (fun r => mkSimple (column (snd r) 0 (f0 a))) rows
  | MDeffuant m => agents (df_net m) = map (fun r => mkSimple (column (snd r) 0 (f0 a))) rows
  | MVector _ => True
  | MActivity m =>
      agents (ad_net m) =
      map (fun r => mkActivity (column (snd r) 0 (f0 a)) (column (snd r) 1 (column (snd r) 0 (f0 a))) (column (snd r) 2 (f1 a))) rows
  | MInertial m =>
      agents (ad_net (im_ad m)) =
      map (fun r => mkInertial (column (snd r) 0 (f0 a)) (column (snd r) 2 (f0 a)) (column (snd r) 3 (f1 a)) (column (snd r) 1 (f0 a))) rows
  end.

Theorem C69_program_columns (o : options D) network_file file rows x s :
  matching o -> main_simulation w o network_file (Some file) = Ok (x, s) ->
  w_read w file = Ok (hand_written rows) -> rows <> [] -> Forall row_ok rows ->
  initial_agents_are x rows.
Proof.
  intros HM E ER Hne F. destruct (C56_agent_file_used w o network_file file x s HM E) as ((c & EC & EA) & _).
  rewrite ER in EC. injection EC as <-. unfold hand_written in EA.
  assert (F' : Forall (fun r => ~ In comma (fst r) /\ ~ In newline (fst r) /\ hd_error (fst r) <> Some hash /\ readable (w_fmt w) (w_stod w) (snd r)) rows).
  { eapply Forall_impl; [|exact F]. unfold row_ok. tauto. }
  destruct x; cbn [kind_of net_of read_agents initial_agents_are] in *; [| |exact I| |].
  - rewrite (C69_simple_columns D (f0 a) (w_fmt w) (w_stod w) rows Hne F') in EA. now injection EA.
  - rewrite (C69_simple_columns D (f0 a) (w_fmt w) (w_stod w) rows Hne F') in EA. now injection EA.
  - rewrite (C69_activity_columns D (f0 a) (f1 a) (w_fmt w) (w_stod w) rows Hne F') in EA. now injection EA.
  - rewrite (C69_inertial_columns D (f0 a) (f1 a) (w_fmt w) (w_stod w) rows Hne F) in EA. now injection EA.
Qed.
End Program.

(** ** Concrete case: a run over binary64 from a file without the reluctance column *)
From Verif Require Import WText64 TRestart.
Definition hand_rows : list (text * list (nat * F FA)) :=
  [(lit "0", [(1, flit FA 1 2); (1, flit FA 1 4)]); (lit "1", [(0, flit FA 1 4); (2, flit FA 1 8); (1, flit FA 3 2)]); (lit "2", [(0, flit FA 1 8)])].
Definition hand_world : world FA :=
  world_reading (fun f => if text_eqb f (lit "agents") then Ok (join newline (map (fun r => line text64 (fst r) (snd r)) hand_rows)) else Throw ExRuntime).
Example C69_program_instance : exists o x s, parse_config (w_trunc hand_world) (save_activity 10 4) 7 = Ok o /\ matching o /\
  main_simulation hand_world o None (Some (lit "agents")) = Ok (x, s) /\
  w_read hand_world (lit "agents") = Ok (hand_written hand_world hand_rows) /\ hand_rows <> [] /\ Forall (row_ok hand_world) hand_rows /\
  exists m, x = MActivity m /\ map a_reluctance (agents (ad_net m)) = [f1 FA; flit FA 3 2; f1 FA].
Proof.
  assert (EO : match parse_config (w_trunc hand_world) (save_activity 10 4) 7 with
               | Ok o => match main_simulation hand_world o None (Some (lit "agents")) with Ok (MActivity _, _) => true | _ => false end
               | _ => false end = true) by (vm_compute; reflexivity).
  destruct (parse_config (w_trunc hand_world) (save_activity 10 4) 7) as [o| | |] eqn:EP; try discriminate EO.
  pose proof (parsed_matching hand_world _ _ o EP) as HM.
  destruct (main_simulation hand_world o None (Some (lit "agents"))) as [[x s]| | |] eqn:EX; try discriminate EO.
  destruct x as [| | |m|]; try discriminate EO. clear EO. exists o, (MActivity m), s.
  assert (HF : Forall (row_ok hand_world) hand_rows).
  { assert (G : forall x : F FA, printable (w_fmt hand_world) (w_stod hand_world) x) by (intros x; apply text64_printable).
    assert (HA : forall k : nat, ~ In comma (lit "0") /\ ~ In comma (lit "1") /\ ~ In comma (lit "2")) by (intros _; cbn; intuition discriminate).
    assert (HN : ~ In newline (lit "0") /\ ~ In newline (lit "1") /\ ~ In newline (lit "2")) by (cbn; intuition discriminate).
    constructor; [|constructor; [|constructor; [|constructor]]]; unfold row_ok; cbn [fst snd].
    all: split; [apply (HA 0)|]; split; [apply HN|]; split; [discriminate|]; split; [|vm_compute; reflexivity].
    all: split; [discriminate|]; repeat (constructor; [apply G|]); constructor. }
  split; [reflexivity|]. split; [exact HM|]. split; [exact EX|]. split; [reflexivity|].
  split; [discriminate|]. split; [exact HF|]. exists m. split; [reflexivity|].
  pose proof (C69_program_columns hand_world o None (lit "agents") hand_rows (MActivity m) s HM EX eq_refl ltac:(discriminate) HF) as H.
  cbn [initial_agents_are] in H. rewrite H. reflexivity.
Qed.
Print Assumptions C69_program_columns.
