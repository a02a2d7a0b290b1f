(** Property theorems C19-C24: network files, agent files, comma separated lists. *)
From Verif Require Import Base BaseFacts MNetwork SNetwork PNetwork PNetwork2 MText SText PText MNetFile PNetFile MAgents PAgents.

(** The size assumption of the text model (see MText.v), and the range of a C++ int. *)
Definition fits (t : text) : Prop := (Z.of_nat (length t) < 4611686018427387904)%Z.
Definition short (t : text) : Prop := (Z.of_nat (length t) < 2147483648)%Z.

(** C19. Write, then read: the same lists. *)
Theorem C19_network_file_round_trip A W (d : A) (fmt_w : W -> text) (stod : text -> res W)
    (g : network A W) contents :
  wf g ->
  (forall i ws w, get_weights g i = Ok ws -> In w ws -> printable fmt_w stod w) ->
  (Z.of_nat (n_agents g) <= 2147483648)%Z ->
  (forall i ns, get_neighbours g i = Ok ns -> (Z.of_nat (length ns) <= 2147483647)%Z) ->
  network_to_file fmt_w g = Ok contents -> fits contents ->
  exists h, generate_from_file d stod contents = Ok h /\
    agents h = repeat d (n_agents g) /\ dir h = Incoming /\
    (forall i, get_neighbours h i = get_neighbours g i) /\
    (forall i, get_weights h i = get_weights g i).
Proof.
  intros Hwf HP Hn Hr E HF. pose proof Hwf as (W1 & W2 & _).
  exists (mkNet (repeat d (n_agents g)) (neigh g) (wts g) Incoming).
  split; [|repeat split; reflexivity].
  apply (round_trip d fmt_w stod g contents); auto.
  - intros i w Hi Hw. apply (HP i (nth i (wts g) [])); auto. unfold get_weights.
    apply vget_lt. unfold n_agents in Hi. lia.
  - intros i Hi. apply (Hr i). unfold get_neighbours, nrow. apply vget_lt. unfold n_agents in Hi. lia.
Qed.

(** Writing never fails. *)
Theorem C19_network_file_written A W (fmt_w : W -> text) (g : network A W) : wf g ->
  exists contents, network_to_file fmt_w g = Ok contents.
Proof. intros H. rewrite to_file_eq by auto. eauto. Qed.

Definition net5 : network unit Z :=
  mkNet [tt; tt; tt] [[1; 2]; []; [0]] [[7; -3]; []; [25]]%Z Incoming.
Lemma int_printable z : int_ok z -> printable fmt_Z stoi z.
Proof.
  intros H. split; [|split].
  - intros Hin. apply fmt_Z_chars in Hin. tauto.
  - intros Hin. apply fmt_Z_chars in Hin. tauto.
  - intros k rest Hr. apply stoi_fmt; auto. destruct Hr as [-> | (t & ->)]; reflexivity.
Qed.
Example C19_instance : exists contents, network_to_file fmt_Z net5 = Ok contents /\
  generate_from_file tt stoi contents = Ok net5 /\ wf net5 /\
  (forall i ws w, get_weights net5 i = Ok ws -> In w ws -> printable fmt_Z stoi w).
Proof.
  eexists. split; [vm_compute; reflexivity|]. split; [vm_compute; reflexivity|]. split.
  - repeat split; auto.
    + intros [|[|[|i]]] H; cbn in *; try reflexivity; lia.
    + intros [|[|[|[|i]]]] j H; cbn in *; intuition lia.
  - intros [|[|[|i]]] ws w E Hin; inversion E; subst; cbn in Hin;
      try (destruct i; discriminate); try tauto;
      repeat (destruct Hin as [<-|Hin]; [apply int_printable; unfold int_ok; lia|]); try destruct Hin.
Qed.
Print Assumptions C19_network_file_round_trip.

(** C20. The edges that come back: the same graph when the network was stored with incoming edges,
    the transposed graph when it was stored with outgoing ones. *)
Theorem C20_network_file_graph A W (d : A) (fmt_w : W -> text) (stod : text -> res W)
    (g : network A W) contents :
  wf g ->
  (forall i ws w, get_weights g i = Ok ws -> In w ws -> printable fmt_w stod w) ->
  (Z.of_nat (n_agents g) <= 2147483648)%Z ->
  (forall i ns, get_neighbours g i = Ok ns -> (Z.of_nat (length ns) <= 2147483647)%Z) ->
  network_to_file fmt_w g = Ok contents -> fits contents ->
  exists h, generate_from_file d stod contents = Ok h /\ n_agents h = n_agents g /\
    (dir g = Incoming -> edges h = edges g) /\
    (dir g = Outgoing -> edges h = map flip (edges g)).
Proof.
  intros Hwf HP Hn Hr E HF.
  exists (mkNet (repeat d (n_agents g)) (neigh g) (wts g) Incoming).
  split; [|split; [|split]].
  - apply (round_trip d fmt_w stod g contents); auto; pose proof Hwf as (W1 & W2 & _).
    + intros i w Hi Hw. apply (HP i (nth i (wts g) [])); auto. unfold get_weights.
      apply vget_lt. unfold n_agents in Hi. lia.
    + intros i Hi. apply (Hr i). unfold get_neighbours, nrow. apply vget_lt. unfold n_agents in Hi. lia.
  - unfold n_agents. cbn. now rewrite repeat_length.
  - intros D. unfold edges, row. cbn [neigh wts dir]. now rewrite D.
  - intros D. unfold edges, row. cbn [neigh wts dir]. rewrite D.
    rewrite !flat_map_concat_map, concat_map, map_map. f_equal. apply map_ext. intros i.
    rewrite map_map. apply map_ext. now intros [j w].
Qed.

Definition net6 : network unit Z := mkNet [tt; tt] [[1]; []] [[7]; []]%Z Outgoing.
(** ... so the graph is not preserved in general. *)
Theorem C20_outgoing_network_refuted :
  exists contents h, network_to_file fmt_Z net6 = Ok contents /\ generate_from_file tt stoi contents = Ok h /\
    edges net6 = [(0, 1, 7%Z)] /\ edges h = [(1, 0, 7%Z)].
Proof. do 2 eexists. split; [vm_compute; reflexivity|]. split; [vm_compute; reflexivity|]. split; reflexivity. Qed.
Print Assumptions C20_network_file_graph.

(** C21. Agent files, for each kind of agent. *)
Theorem C21_simple_agents D (fmt_d : D -> text) (stod : text -> res D) (l : list (simple_agent D)) contents :
  Forall (fun x => printable fmt_d stod (s_opinion x)) l ->
  agents_to_file simple_columns (fun x => Ok (simple_to_string fmt_d x)) l = Ok contents ->
  agents_from_file (simple_from_string stod) contents = Ok l.
Proof.
  intros F. apply agents_round_trip with (ss := map (simple_to_string fmt_d) l).
  - repeat constructor; cbn; intros H; repeat (destruct H as [H|H]; [discriminate|]); destruct H.
  - induction F as [|x l Hx F IH]; cbn [map]; constructor; auto. split; auto.
    destruct (simple_ok fmt_d stod x Hx). auto.
Qed.

Theorem C21_activity_agents D (one : D) (fmt_d : D -> text) (stod : text -> res D) (l : list (activity_agent D)) contents :
  Forall (fun x => printable fmt_d stod (a_opinion x) /\ printable fmt_d stod (a_activity x) /\
                   printable fmt_d stod (a_reluctance x)) l ->
  agents_to_file activity_columns (fun x => Ok (activity_to_string fmt_d x)) l = Ok contents ->
  agents_from_file (activity_from_string one stod) contents = Ok l.
Proof.
  intros F. apply agents_round_trip with (ss := map (activity_to_string fmt_d) l).
  - repeat constructor; cbn; intros H; repeat (destruct H as [H|H]; [discriminate|]); destruct H.
  - induction F as [|x l (H1 & H2 & H3) F IH]; cbn [map]; constructor; auto. split; auto.
    destruct (activity_ok one fmt_d stod x H1 H2 H3). auto.
Qed.

Theorem C21_inertial_agents D (zero one : D) (fmt_d : D -> text) (stod : text -> res D) (l : list (inertial_agent D)) contents :
  Forall (fun x => printable fmt_d stod (i_opinion x) /\ printable fmt_d stod (i_velocity x) /\
                   printable fmt_d stod (i_activity x) /\ printable fmt_d stod (i_reluctance x) /\
                   (Z.of_nat (length (inertial_to_string fmt_d x)) < 2147483600)%Z) l ->
  agents_to_file inertial_columns (fun x => Ok (inertial_to_string fmt_d x)) l = Ok contents ->
  agents_from_file (inertial_from_string zero one stod) contents = Ok l.
Proof.
  intros F. apply agents_round_trip with (ss := map (inertial_to_string fmt_d) l).
  - repeat constructor; cbn; intros H; repeat (destruct H as [H|H]; [discriminate|]); destruct H.
  - induction F as [|x l (H1 & H2 & H3 & H4 & H5) F IH]; cbn [map]; constructor; auto. split; auto.
    destruct (inertial_ok zero one fmt_d stod x H1 H2 H3 H4) as [A B]. split; auto.
    intros k Hk. apply B. lia.
Qed.

Theorem C21_vector_agents (l : list vector_agent) contents :
  Forall (fun x => v_opinion x <> [] /\ Forall int_ok (v_opinion x) /\
     forall s, vector_to_string x = Ok s -> (Z.of_nat (length s) < 2147483600)%Z) l ->
  agents_to_file vector_columns vector_to_string l = Ok contents ->
  agents_from_file vector_from_string contents = Ok l.
Proof.
  intros F E. 
  assert (exists ss, Forall2 (fun a s => vector_to_string a = Ok s /\ ~ In newline s /\
     forall k, k <= 26 -> vector_from_string (repeat space k ++ s) = Ok a) l ss) as (ss & HS).
  { clear E. induction F as [|x l (H1 & H2 & H3) F (ss & IH)]; [exists []; constructor|].
    destruct x as [[|o0 os]]; [cbn in H1; congruence|]. cbn [v_opinion] in *.
    eexists (_ :: ss). constructor; auto. pose proof (vector_to_string_eq o0 os) as EV.
    destruct (vector_ok o0 os _ H2 EV) as [A B]. split; [exact EV|]. split; auto.
    intros k Hk. apply B. specialize (H3 _ EV). lia. }
  eapply agents_round_trip; [|exact HS|exact E].
  repeat constructor; cbn; intros H; repeat (destruct H as [H|H]; [discriminate|]); destruct H.
Qed.

(** An empty opinion vector does not survive: reading it back throws. *)
Theorem C21_empty_vector_refuted :
  exists contents, agents_to_file vector_columns vector_to_string [mkVector []] = Ok contents /\
    agents_from_file vector_from_string contents = Throw ExInvalidArgument.
Proof. eexists. split; [vm_compute; reflexivity|vm_compute; reflexivity]. Qed.

(** Writing never fails. *)
Theorem C21_agents_written A columns (to_string : A -> res text) (l : list A) :
  (forall x, In x l -> exists s, to_string x = Ok s) ->
  exists contents, agents_to_file columns to_string l = Ok contents.
Proof.
  intros H. assert (exists ss, Forall2 (fun a s => to_string a = Ok s) l ss) as (ss & F).
  { induction l as [|x l IH]; [exists []; constructor|]. destruct (H x) as (s & Es); [cbn; auto|].
    destruct IH as (ss & F); [intros; apply H; cbn; auto|]. exists (s :: ss). now constructor. }
  rewrite (agents_to_file_eq _ _ _ _ F). eauto.
Qed.
Example C21_instance : exists contents,
  agents_to_file inertial_columns (fun x => Ok (inertial_to_string fmt_Z x))
    [mkInertial 1 2 3 4; mkInertial (-5) 6 7 8]%Z = Ok contents /\
  agents_from_file (inertial_from_string 0%Z 1%Z stoi) contents = Ok [mkInertial 1 2 3 4; mkInertial (-5) 6 7 8]%Z /\
  Forall (fun x => printable fmt_Z stoi (i_opinion x) /\ printable fmt_Z stoi (i_velocity x) /\
                   printable fmt_Z stoi (i_activity x) /\ printable fmt_Z stoi (i_reluctance x) /\
                   (Z.of_nat (length (inertial_to_string fmt_Z x)) < 2147483600)%Z)
    [mkInertial 1 2 3 4; mkInertial (-5) 6 7 8]%Z.
Proof.
  eexists. split; [vm_compute; reflexivity|]. split; [vm_compute; reflexivity|].
  repeat constructor; cbn [i_opinion i_velocity i_activity i_reluctance]; try (apply int_printable; unfold int_ok; lia).
Qed.
Example C21_vector_instance : exists contents,
  agents_to_file vector_columns vector_to_string [mkVector [1; 0; 1]; mkVector [0; 0; -1]]%Z = Ok contents /\
  agents_from_file vector_from_string contents = Ok [mkVector [1; 0; 1]; mkVector [0; 0; -1]]%Z.
Proof. eexists. split; [vm_compute; reflexivity|vm_compute; reflexivity]. Qed.
Print Assumptions C21_activity_agents.
Print Assumptions C21_vector_agents.

(** C22. The callback is called once per entry, with index 0, 1, 2, ..., and each string starts with
    its entry, followed by nothing or by a comma; the first and the last one are exact. *)
Theorem C22_parse_list St (callback : nat -> text -> St -> res St) (str : text) (st : St) :
  short str ->
  exists passed,
    parse_comma_separated_list callback str st = each callback 0 passed st /\
    Forall2 (fun entry p => exists more, p = entry ++ more /\ (more = [] \/ exists t, more = comma :: t))
            (split_on comma str) passed /\
    hd_error passed = hd_error (split_on comma str) /\
    last passed [] = last (split_on comma str) [].
Proof.
  intros H. exists (handed 0 (split_on comma str)). split; [now apply parse_eq|].
  split; [apply handed_prefix|]. split; [apply handed_first|apply handed_last].
Qed.

Definition record_call (i : nat) (s : text) (calls : list (nat * text)) : res (list (nat * text)) :=
  Ok (calls ++ [(i, s)]).

Lemma each_record l : forall i acc, each record_call i l acc = Ok (acc ++ combine (seq i (length l)) l).
Proof.
  induction l as [|x l IH]; intros i acc; cbn [each length seq combine]; [now rewrite app_nil_r|].
  cbn [record_call bind]. rewrite IH. now rewrite <- app_assoc.
Qed.
Lemma handed_middle es : forall pos k, 0 < pos -> k < length es - 1 -> nth k (handed pos es) [] <> nth k es [].
Proof.
  induction es as [|e [|e2 r] IH]; intros pos k Hp Hk; cbn [length] in Hk; try lia.
  destruct k as [|k].
  - cbn [handed nth]. change (join comma (e :: e2 :: r)) with (e ++ comma :: join comma (e2 :: r)).
    rewrite firstn_app_le by lia. destruct (pos + length e - length e) eqn:En; [lia|]. cbn [firstn].
    intros H. apply (f_equal (@length ascii)) in H. rewrite app_length in H. cbn in H. lia.
  - change (handed pos (e :: e2 :: r))
      with (firstn (pos + length e) (join comma (e :: e2 :: r)) :: handed (S (pos + length e)) (e2 :: r)).
    change (nth (S k) (e :: e2 :: r) []) with (nth k (e2 :: r) []). cbn [nth].
    apply IH; [lia|]. cbn [length]. lia.
Qed.

(** The documented contract (each string is its entry) fails for every entry in between. *)
Theorem C22_middle_entries_refuted str k : short str ->
  0 < k -> k < length (split_on comma str) - 1 ->
  exists calls, parse_comma_separated_list record_call str [] = Ok calls /\
    length calls = length (split_on comma str) /\
    exists passed, nth_error calls k = Some (k, passed) /\ passed <> nth k (split_on comma str) [].
Proof.
  intros H Hk Hl. rewrite parse_eq by auto. rewrite each_record. cbn [app].
  set (es := split_on comma str) in *. set (hs := handed 0 es).
  assert (LH : length hs = length es) by apply handed_length.
  exists (combine (seq 0 (length hs)) hs). split; auto.
  split; [rewrite combine_length, seq_length; lia|].
  exists (nth k hs []). split.
  - rewrite (nth_error_nth' _ (0, [] : text)) by (rewrite combine_length, seq_length; lia).
    rewrite combine_nth by apply seq_length. rewrite seq_nth by lia. reflexivity.
  - unfold hs. clear LH hs. destruct es as [|e [|e2 r]]; cbn [length] in Hl; try lia. destruct k as [|k]; [lia|].
    change (handed 0 (e :: e2 :: r))
      with (firstn (0 + length e) (join comma (e :: e2 :: r)) :: handed (S (0 + length e)) (e2 :: r)).
    change (nth (S k) (e :: e2 :: r) []) with (nth k (e2 :: r) []). cbn [nth].
    apply handed_middle; [lia|cbn; lia].
Qed.
Example C22_instance :
  parse_comma_separated_list record_call (lit "a,b,c,d") [] =
    Ok [(0, lit "a"); (1, lit "b,c"); (2, lit "c,d"); (3, lit "d")].
Proof. vm_compute. reflexivity. Qed.
Print Assumptions C22_parse_list.

(** C23. Both readers depend on the data lines only ... *)
Lemma before_empty_app l1 l2 : Forall (fun l => l <> []) l1 -> before_empty (l1 ++ l2) = l1 ++ before_empty l2.
Proof. induction 1 as [|l l1 H F IH]; cbn; auto. destruct l; [congruence|]. now rewrite IH. Qed.

Lemma before_empty_cut l1 l2 : before_empty (l1 ++ [] :: l2) = before_empty l1.
Proof. induction l1 as [|l l1 IH]; cbn; auto. destruct l; auto. now rewrite IH. Qed.

Lemma before_empty_comment l1 c l2 :
  filter (fun l => negb (is_comment l)) (before_empty (l1 ++ (hash :: c) :: l2)) =
  filter (fun l => negb (is_comment l)) (before_empty (l1 ++ l2)).
Proof.
  induction l1 as [|l l1 IH]; [reflexivity|].
  cbn [app before_empty]. destruct l; auto. cbn [filter]. now rewrite IH.
Qed.

Lemma split_on_app_gen c p t : split_on c (p ++ c :: t) = split_on c p ++ split_on c t.
Proof.
  induction p as [|x p IH]; cbn [app split_on]; [now rewrite Ascii.eqb_refl|].
  destruct (Ascii.eqb x c); [now rewrite IH|]. rewrite IH.
  pose proof (split_on_nonempty c p). destruct (split_on c p); [congruence|reflexivity].
Qed.

Lemma data_lines_cut p rest : data_lines (p ++ newline :: newline :: rest) = data_lines p.
Proof.
  unfold data_lines. rewrite split_on_app_gen. cbn [split_on]. rewrite Ascii.eqb_refl. now rewrite before_empty_cut.
Qed.

Lemma data_lines_comment l1 c l2 : Forall (fun l => ~ In newline l) (l1 ++ (hash :: c) :: l2) ->
  data_lines (join newline (l1 ++ (hash :: c) :: l2)) = data_lines (join newline (l1 ++ l2)).
Proof.
  intros F. unfold data_lines. rewrite split_join; [|destruct l1; discriminate|auto].
  assert (F2 : Forall (fun l => ~ In newline l) (l1 ++ l2)).
  { apply Forall_app in F as [F1 F2]. inversion F2; subst. apply Forall_app; auto. }
  destruct (l1 ++ l2) as [|x l] eqn:El.
  - apply app_eq_nil in El as [-> ->]. reflexivity.
  - rewrite <- El in *. rewrite split_join; [apply before_empty_comment|rewrite El; discriminate|auto].
Qed.

(** A line starting with '#' can be inserted or removed anywhere. *)
Theorem C23_comments_ignored_network A W (d : A) (stod : text -> res W) l1 c l2 :
  Forall (fun l => ~ In newline l) (l1 ++ (hash :: c) :: l2) ->
  fits (join newline (l1 ++ (hash :: c) :: l2)) -> fits (join newline (l1 ++ l2)) ->
  generate_from_file d stod (join newline (l1 ++ (hash :: c) :: l2)) =
  generate_from_file d stod (join newline (l1 ++ l2)).
Proof. intros F H1 H2. rewrite !from_file_eq by auto. now rewrite data_lines_comment. Qed.

Theorem C23_comments_ignored_agents A (from_string : text -> res A) l1 c l2 :
  Forall (fun l => ~ In newline l) (l1 ++ (hash :: c) :: l2) ->
  agents_from_file from_string (join newline (l1 ++ (hash :: c) :: l2)) =
  agents_from_file from_string (join newline (l1 ++ l2)).
Proof. intros F. rewrite !agents_from_file_eq. now rewrite data_lines_comment. Qed.

(** Nothing after the first empty line matters. *)
Theorem C23_empty_line_ends_network_file A W (d : A) (stod : text -> res W) p rest :
  fits (p ++ newline :: newline :: rest) ->
  generate_from_file d stod (p ++ newline :: newline :: rest) = generate_from_file d stod p.
Proof.
  intros H. rewrite !from_file_eq.
  - now rewrite data_lines_cut.
  - unfold fits in H. rewrite app_length in H. lia.
  - exact H.
Qed.
Theorem C23_empty_line_ends_agent_file A (from_string : text -> res A) p rest :
  agents_from_file from_string (p ++ newline :: newline :: rest) = agents_from_file from_string p.
Proof. rewrite !agents_from_file_eq. now rewrite data_lines_cut. Qed.

(** One agent per data line; agent k comes from data line k. *)
Theorem C23_one_agent_per_line A W (d : A) (stod : text -> res W) contents g :
  fits contents -> generate_from_file d stod contents = Ok g ->
  n_agents g = length (data_lines contents) /\ length (neigh g) = n_agents g /\ length (wts g) = n_agents g /\
  forall k line, nth_error (data_lines contents) k = Some line ->
    exists ns ws, read_columns stod (split_on comma line) = Ok (ns, ws) /\
      get_neighbours g k = Ok ns /\ get_weights g k = Ok ws.
Proof.
  intros H E. rewrite from_file_eq in E by auto.
  destruct (mapM _ (data_lines contents)) as [rows| | |] eqn:EM; try discriminate. cbn [bind] in E.
  assert (Eg : g = net_of_lists d (map fst rows) (map snd rows) Incoming) by congruence. subst g. clear E.
  assert (G : forall (ls : list text) (rs : list (list nat * list W)),
     mapM (fun l => read_columns stod (split_on comma l)) ls = Ok rs ->
     Forall2 (fun l r => read_columns stod (split_on comma l) = Ok r) ls rs).
  { clear. induction ls as [|l ls IH]; intros rs E; cbn [mapM] in E; [inversion E; constructor|].
    destruct (read_columns stod (split_on comma l)) as [r| | |] eqn:Er; try discriminate. cbn [bind] in E.
    destruct (mapM _ ls) as [ys| | |] eqn:Ey; try discriminate. cbn [bind] in E. inversion E; subst. constructor; auto. }
  apply G in EM. clear G.
  assert (HL : length (data_lines contents) = length rows) by (induction EM; cbn; auto).
  unfold net_of_lists, n_agents. cbn [agents neigh wts]. rewrite repeat_length, !map_length.
  repeat split; auto. intros k line Hk.
  assert (exists r, nth_error rows k = Some r /\ read_columns stod (split_on comma line) = Ok r) as (r & R1 & R2).
  { clear HL. revert k Hk. induction EM as [|l r ls rs Hlr EM IH]; intros [|k] Hk; cbn in *; try discriminate.
    - inversion Hk; subst. eauto.
    - eauto. }
  exists (fst r), (snd r). split; [rewrite R2; now destruct r|]. unfold get_neighbours, get_weights, vget. cbn [neigh wts].
  rewrite !nth_error_map, R1. split; reflexivity.
Qed.

(** The first column of a network file is never looked at. *)
Theorem C23_first_column_unused_file A W (d : A) (stod : text -> res W) l1 c c' rest l2 :
  Forall (fun l => ~ In newline l) (l1 ++ (c ++ comma :: rest) :: l2) ->
  Forall (fun l => ~ In newline l) (l1 ++ (c' ++ comma :: rest) :: l2) ->
  ~ In comma c -> ~ In comma c' -> hd_error c <> Some hash -> hd_error c' <> Some hash ->
  fits (join newline (l1 ++ (c ++ comma :: rest) :: l2)) -> fits (join newline (l1 ++ (c' ++ comma :: rest) :: l2)) ->
  generate_from_file d stod (join newline (l1 ++ (c ++ comma :: rest) :: l2)) =
  generate_from_file d stod (join newline (l1 ++ (c' ++ comma :: rest) :: l2)).
Proof.
  intros F F' N N' C C' H H'. rewrite !from_file_eq by auto. unfold data_lines.
  rewrite !split_join by (auto; destruct l1; discriminate). clear F F' H H'.
  assert (NC : forall x, hd_error x <> Some hash -> is_comment (x ++ comma :: rest) = false).
  { intros x Hx. destruct x as [|y x]; [reflexivity|]. cbn. destruct (Ascii.eqb_spec y hash); auto. subst. cbn in Hx. congruence. }
  assert (G : forall x, ~ In comma x -> hd_error x <> Some hash ->
    mapM (fun l => read_columns stod (split_on comma l)) (filter (fun l => negb (is_comment l)) (before_empty (l1 ++ (x ++ comma :: rest) :: l2)))
    = mapM (fun l => read_columns stod (split_on comma l)) (filter (fun l => negb (is_comment l)) (before_empty (l1 ++ (comma :: rest) :: l2)))).
  { intros x Nx Hx. induction l1 as [|l l1 IH].
    - cbn [app before_empty]. destruct (x ++ comma :: rest) as [|y z] eqn:Ex; [symmetry in Ex; now apply app_cons_not_nil in Ex|].
      rewrite <- Ex. cbn [filter]. rewrite (NC x Hx). change (is_comment (comma :: rest)) with false. cbn [negb mapM].
      rewrite split_on_app by auto. change (comma :: rest) with ([] ++ comma :: rest). rewrite (split_on_app comma [] rest) by auto.
      reflexivity.
    - cbn [app before_empty]. destruct l; auto. cbn [filter]. destruct (negb (is_comment (a :: l))); auto.
      cbn [mapM]. now rewrite IH. }
  now rewrite (G c N C), (G c' N' C').
Qed.

(** Reading always terminates, whatever the contents. *)
Theorem C23_reading_terminates A W (d : A) (stod : text -> res W) (from_string : text -> res A) contents :
  fits contents -> (forall t, stod t <> NoFuel) -> (forall t, from_string t <> NoFuel) ->
  generate_from_file d stod contents <> NoFuel /\ agents_from_file from_string contents <> NoFuel.
Proof.
  intros H HS HA. rewrite from_file_eq, agents_from_file_eq by auto.
  assert (M : forall X Y (f : X -> res Y) l, (forall x, f x <> NoFuel) -> mapM f l <> NoFuel).
  { intros X Y f l Hf. induction l as [|x l IH]; cbn; [discriminate|].
    destruct (f x) eqn:E; cbn; try discriminate; [|exfalso; apply (Hf x E)].
    destruct (mapM f l); cbn; try discriminate. congruence. }
  assert (SI : forall t, stoi t <> NoFuel).
  { intros t. unfold stoi. destruct (skip_spaces t) as [|x u].
    - cbn. discriminate.
    - destruct (Ascii.eqb x "-"%char); [|destruct (Ascii.eqb x "+"%char)];
      match goal with |- context[starts_with_digit ?s] => destruct (starts_with_digit s) end; try discriminate;
      match goal with |- (if ?b then _ else _) <> _ => destruct b end; discriminate. }
  split.
  - assert (G : mapM (fun l => read_columns stod (split_on comma l)) (data_lines contents) <> NoFuel).
    { apply M. intros l. unfold read_columns. destruct (split_on comma l) as [|c0 [|c1 rest]]; try discriminate.
      destruct (stoi c1) eqn:E1; cbn [bind]; try discriminate; [|exfalso; apply (SI c1 E1)].
      cbv zeta. pose proof (M _ _ (fun c => v <- stoi c ;; Ok (Z.to_nat (v mod 18446744073709551616)))
          (firstn (index_columns a (length rest)) rest)) as M1.
      destruct (mapM _ (firstn _ rest)) eqn:E2; cbn [bind]; try discriminate.
      - pose proof (M _ _ stod (skipn (index_columns a (length rest)) rest) HS) as M2.
        destruct (mapM stod _); cbn [bind]; try discriminate. congruence.
      - exfalso. apply M1; auto. intros x. destruct (stoi x) eqn:E3; cbn; try discriminate. intros _. exact (SI x E3). }
    destruct (mapM _ _); cbn; congruence.
  - apply M. intros; apply HA.
Qed.

Example C23_instance :
  generate_from_file tt stoi (lit "#c
 0,1,1,5
# another
 9,0

garbage") = generate_from_file tt stoi (lit "0,1,1,5
0,0").
Proof. vm_compute. reflexivity. Qed.
Print Assumptions C23_one_agent_per_line.
Print Assumptions C23_reading_terminates.

(** C24. The dot file: one line per agent with exactly its neighbours, provided every agent has one ... *)
Definition dot_line (i : nat) (ns : list nat) : text :=
  fmt_nat i ++ lit " <- {" ++
  join comma (match ns with [] => [] | n :: r => fmt_nat n :: map (fun j => space :: fmt_nat j) r end) ++
  lit "}" ++ [newline].

Lemma dot_row (ns : list nat) row : ns <> [] ->
  (row' <- for_n (length ns - 1) (fun i row => j <- vget ns i ;; Ok (row ++ fmt_nat j ++ lit ", ")) row ;;
   j <- vget ns (length ns - 1) ;; Ok (row' ++ fmt_nat j)) =
  Ok (row ++ join comma (match ns with [] => [] | n :: r => fmt_nat n :: map (fun j => space :: fmt_nat j) r end)).
Proof.
  intros Hne.
  match goal with |- bind (for_n ?n ?b ?s) _ = _ => assert (G : okp (for_n n b s) (fun r => r =
     row ++ concat (map (fun j => fmt_nat j ++ lit ", ") (firstn n ns)))) end.
  { apply (for_n_inv _ (fun k r => r = row ++ concat (map (fun j => fmt_nat j ++ lit ", ") (firstn k ns)))).
    - cbn. now rewrite app_nil_r.
    - intros k r Hk ->. destruct (nth_error ns k) as [j|] eqn:Ej; [|apply nth_error_None in Ej; lia].
      unfold vget. rewrite Ej. cbn [bind okp]. rewrite (firstn_S_nth_error _ _ _ _ Ej), map_app, concat_app.
      cbn [map concat]. now rewrite app_nil_r, <- !app_assoc. }
  apply okp_ex in G as (r & -> & ->). cbn [bind].
  destruct (nth_error ns (length ns - 1)) as [j|] eqn:Ej.
  2: { apply nth_error_None in Ej. destruct ns; [congruence|]. cbn in Ej. lia. }
  unfold vget. rewrite Ej. cbn [bind]. f_equal. rewrite <- app_assoc. f_equal.
  assert (EN : ns = firstn (length ns - 1) ns ++ [j]).
  { rewrite <- (firstn_S_nth_error _ _ _ _ Ej). replace (S (length ns - 1)) with (length ns); [now rewrite firstn_all|].
    destruct ns; [congruence|cbn; lia]. }
  remember (firstn (length ns - 1) ns) as pre eqn:Epre. clear Epre Ej Hne. subst ns. destruct pre as [|n pre]; [reflexivity|].
  cbn [app map concat]. rewrite join_cons. rewrite <- !app_assoc. f_equal.
  rewrite map_map, map_app, concat_app. cbn [map concat]. rewrite app_nil_r.
  revert n. induction pre as [|m pre IH]; intros n; [reflexivity|].
  cbn [map concat]. rewrite <- !app_assoc. rewrite <- (IH n). reflexivity.
Qed.

Theorem C24_dot_file A W (g : network A W) : wf g ->
  (forall i ns, get_neighbours g i = Ok ns -> ns <> []) ->
  network_to_dot_file g = Ok (lit "digraph G {" ++ [newline] ++
    concat (map (fun i => dot_line i (nth i (neigh g) [])) (seq 0 (n_agents g))) ++ lit "}" ++ [newline]).
Proof.
  intros (W1 & _) Hne. unfold network_to_dot_file.
  match goal with |- bind ?m _ = _ => assert (G : okp m (fun r => r = lit "digraph G {" ++ [newline] ++
    concat (map (fun i => dot_line i (nth i (neigh g) [])) (seq 0 (n_agents g))))) end.
  { apply (for_n_inv _ (fun k r => r = lit "digraph G {" ++ [newline] ++
    concat (map (fun i => dot_line i (nth i (neigh g) [])) (seq 0 k)))).
    - reflexivity.
    - intros i fs Hi ->. unfold n_agents in Hi. unfold get_neighbours. rewrite (vget_lt _ _ _ []) by lia. cbn [bind].
      assert (Hn : nth i (neigh g) [] <> []).
      { apply (Hne i). unfold get_neighbours. apply vget_lt. lia. }
      pose proof (dot_row (nth i (neigh g) []) (fmt_nat i ++ lit " <- {") Hn) as D.
      rewrite seq_S, map_app, concat_app. cbn [map concat Nat.add]. rewrite app_nil_r. unfold dot_line at 2.
      remember (nth i (neigh g) []) as ns. destruct ns as [|n0 ns]; [congruence|].
      match type of D with bind ?m _ = _ => destruct m as [r| | |] end; cbn [bind] in D |- *; try discriminate.
      destruct (vget (n0 :: ns) (length (n0 :: ns) - 1)) as [j| | |]; cbn [bind] in D |- *; try discriminate.
      cbn [okp]. inversion D as [D']. rewrite (app_assoc r), D'. rewrite <- !app_assoc. reflexivity. }
  apply okp_ex in G as (r & -> & ->). cbn [bind]. now rewrite <- !app_assoc.
Qed.

(** ... and otherwise it reads out of bounds. *)
Theorem C24_agent_without_neighbours_refuted A W (g : network A W) i : wf g ->
  i < n_agents g -> get_neighbours g i = Ok [] ->
  network_to_dot_file g = UB UbIndex.
Proof.
  intros (W1 & _) Hi Hg. unfold network_to_dot_file.
  match goal with |- bind (for_n ?n ?b _) _ = _ => assert (G : forall k m s0, k <= i -> i < k + m -> k + m <= n_agents g ->
     for_from k m b s0 = UB UbIndex) end.
  2: { unfold for_n. rewrite G; auto; lia. }
  intros k m. revert k. induction m as [|m IH]; intros k s H1 H2 H3; [lia|]. cbn [for_from].
  destruct (Nat.eq_dec k i) as [->|Hk].
  - rewrite Hg. cbn [bind]. reflexivity.
  - unfold get_neighbours at 1. unfold n_agents in H3. rewrite (vget_lt _ _ _ []) by lia. cbn [bind].
    destruct (nth k (neigh g) []) as [|n0 ns]; [reflexivity|].
    pose proof (dot_row (n0 :: ns) (fmt_nat k ++ lit " <- {") ltac:(discriminate)) as D.
    match type of D with bind ?m _ = _ => destruct m as [r| | |] end; cbn [bind] in D |- *; try discriminate.
    destruct (vget (n0 :: ns) (length (n0 :: ns) - 1)) as [j| | |]; cbn [bind] in D |- *; try discriminate.
    apply IH; unfold n_agents; lia.
Qed.
Example C24_instance : network_to_dot_file (mkNet [tt; tt] [[1]; [0; 1]] [[7]; [1; 2]]%Z Incoming) =
  Ok (lit "digraph G {
0 <- {1}
1 <- {0, 1}
}
").
Proof. vm_compute. reflexivity. Qed.
Example C24_refuted_instance : network_to_dot_file net5 = UB UbIndex.
Proof. vm_compute. reflexivity. Qed.
Print Assumptions C24_dot_file.
