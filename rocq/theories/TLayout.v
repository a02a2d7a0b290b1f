(** Property theorems C65: the exact text of the files the program writes. *)
From Verif Require Import Base BaseFacts Arith64 MNetwork SNetwork MText SText MAgents MNetFile PNetFile PAgents MConfig SLayout MSimulation.
From Coq Require Import String List Lia.
Import ListNotations.
Open Scope list_scope.

Lemma cells_cons c r : cells (c :: r) = c ++ concat (map (fun q => lit ", " ++ q) r).
Proof.
  revert c. induction r as [|d r IH]; intros c; [cbn; now rewrite app_nil_r|].
  change (cells (c :: d :: r)) with (c ++ lit ", " ++ cells (d :: r)). rewrite IH. reflexivity.
Qed.

(** C65. The agent file: a header line naming the columns, then one line per agent in order. *)
Theorem C65_agent_file (a : Arith) (w : world a) (k : agent_kind) (l : list (agent_of (F a) k)) :
  write_agents w k l = Ok (each_on_a_line (lit (file_header k) :: agent_lines (w_fmt w) k 0 l)).
Proof.
  assert (G : forall (A : Type) cols (ts : A -> res text) (hd : string) (data : A -> list text) (l : list A),
    agents_header cols = lit hd ++ [newline] ->
    (forall x, ts x = Ok (cells (data x))) ->
    agents_to_file cols ts l = Ok (lit hd ++ [newline] ++ concat (map (fun p => right 5 (fmt_nat (fst p)) ++ lit ", " ++ right 25 (cells (data (snd p))) ++ [newline]) (combine (seq 0 (length l)) l)))).
  { intros A cols ts hd data l0 Hh Ht.
    rewrite (agents_to_file_eq cols ts l0 (map (fun x => cells (data x)) l0)).
    2:{ clear Hh l. induction l0 as [|x l0 IH]; cbn [map]; constructor; auto. }
    rewrite Hh, <- app_assoc. do 3 f_equal. f_equal.
    assert (G2 : forall l1 i, map (fun j => arow j (nth (j - i) (map (fun x => cells (data x)) l1) []) ++ [newline]) (seq i (length l1)) =
      map (fun p => right 5 (fmt_nat (fst p)) ++ lit ", " ++ right 25 (cells (data (snd p))) ++ [newline]) (combine (seq i (length l1)) l1)).
    { clear. induction l1 as [|x l1 IH]; intros i; [reflexivity|]. cbn [length seq combine map fst snd]. rewrite Nat.sub_diag. cbn [nth]. f_equal.
      - unfold arow, pad, right, space. now rewrite <- !app_assoc.
      - rewrite <- IH. apply map_ext_in. intros j Hj. apply in_seq in Hj. replace (j - i) with (S (j - S i)) by lia. reflexivity. }
    rewrite <- G2. apply map_ext. intros j. now rewrite Nat.sub_0_r. }
  assert (E : forall i (l0 : list (agent_of (F a) k)), concat (map (fun p => right 5 (fmt_nat (fst p)) ++ lit ", " ++ right 25 (cells (agent_data (w_fmt w) k (snd p))) ++ [newline]) (combine (seq i (length l0)) l0)) =
     each_on_a_line (agent_lines (w_fmt w) k i l0)).
  { intros i l0. revert i. unfold each_on_a_line. induction l0 as [|x l0 IH]; intros i; [reflexivity|]. cbn [length seq combine map concat agent_lines fst snd].
    rewrite IH. now rewrite <- !app_assoc. }
  unfold each_on_a_line at 1. cbn [map concat]. rewrite <- app_assoc. fold (each_on_a_line (agent_lines (w_fmt w) k 0 l)). rewrite <- E. clear E.
  destruct k; cbn [write_agents file_header].
  - apply (G _ simple_columns (fun x => Ok (simple_to_string (w_fmt w) x)) _ (agent_data (w_fmt w) Simple) l); [reflexivity|]. intros x. reflexivity.
  - apply (G _ activity_columns (fun x => Ok (activity_to_string (w_fmt w) x)) _ (agent_data (w_fmt w) Activity) l); [reflexivity|]. intros x. reflexivity.
  - apply (G _ inertial_columns (fun x => Ok (inertial_to_string (w_fmt w) x)) _ (agent_data (w_fmt w) Inertial) l); [reflexivity|]. intros x. reflexivity.
  - apply (G _ vector_columns vector_to_string _ (agent_data (w_fmt w) Vector) l); [reflexivity|]. intros [[|o0 os]]; [reflexivity|].
    rewrite vector_to_string_eq. cbn [agent_data v_opinion map]. f_equal. rewrite join_cons, cells_cons. f_equal. f_equal. rewrite !map_map. reflexivity.
Qed.

(** The network file: the header, then per agent its index, the number of neighbours, the neighbours and the weights. Lines are
    separated by newlines; the last line ends in one only if that agent has no neighbour. *)
Theorem C65_network_file (A W : Type) (fmt_w : W -> text) (g : network A W) : wf g ->
  let line i := network_line fmt_w i (nth i (neigh g) []) (nth i (wts g) []) in
  network_to_file fmt_w g = Ok (
    lit "# idx_agent, n_neighbours_in, indices_neighbours_in[...], weights_in[...]" ++ [newline] ++
    match n_agents g with
    | O => []
    | S n => each_on_a_line (map line (seq 0 n)) ++ line n ++ (match nth n (neigh g) [] with [] => [newline] | _ => [] end)
    end).
Proof.
  intros H line. rewrite (to_file_eq fmt_w g H). unfold header_line. do 2 f_equal. cbn [app]. f_equal.
  assert (EB : forall i, body fmt_w g i = line i).
  { intros i. unfold body, line, network_line, columns. cbn [map app]. rewrite join_cons, cells_cons. cbn [map concat]. f_equal.
    change (comma :: space :: pad 5 (fmt_nat (length (nrow g i)))) with (lit ", " ++ right 5 (fmt_nat (length (nth i (neigh g) [])))). f_equal. f_equal.
    rewrite !map_app, !map_map. reflexivity. }
  destruct (n_agents g) as [|n] eqn:En; [reflexivity|].
  rewrite seq_S, map_app, concat_app. cbn [map concat Nat.add]. rewrite app_nil_r. f_equal.
  - unfold each_on_a_line. rewrite map_map. f_equal. apply map_ext_in. intros i Hi. apply in_seq in Hi. rewrite EB. f_equal.
    unfold ending, term. rewrite En. destruct (nrow g i); auto. destruct (Nat.eqb_spec i (S n - 1)); [lia|reflexivity].
  - rewrite EB. f_equal. unfold ending, term, nrow. rewrite En. replace (S n - 1) with n by lia. rewrite Nat.eqb_refl.
    destruct (nth n (neigh g) []); reflexivity.
Qed.

Example C65_instance : exists contents,
  network_to_file fmt_Z (mkNet [tt; tt] [[1]; []] [[7]; []]%Z Incoming) = Ok contents /\
  contents = lit "# idx_agent, n_neighbours_in, indices_neighbours_in[...], weights_in[...]
    0,     1,     1,                         7
    1,     0
".
Proof. eexists. split; [vm_compute; reflexivity|reflexivity]. Qed.
Print Assumptions C65_agent_file.
Print Assumptions C65_network_file.
