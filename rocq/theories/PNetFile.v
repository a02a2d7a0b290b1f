(** Proofs about network files. *)
From Verif Require Import Base BaseFacts MNetwork SNetwork PNetwork2 MText SText PText MNetFile.

Section P.
Context {A W : Type} (d : A) (fmt_w : W -> text) (stod : text -> res W).
Notation net := (network A W).

(** ** Reading *)
Fixpoint cols_fold (idx : nat) (cols : list text) (st : Z * list nat * list W) : res (Z * list nat * list W) :=
  match cols with
  | [] => Ok st
  | c :: r => st <- do_column stod idx c st ;; cols_fold (S idx) r st
  end.

Lemma column_loop_eq line : forall fuel p idx st, p <= length line -> length line - p < fuel ->
  column_loop stod fuel line p idx st = cols_fold idx (split_on comma (skipn p line)) st.
Proof.
  induction fuel as [|fuel IH]; intros p idx st Hp Hf; [lia|]. cbn [column_loop].
  pose proof (scan_step line comma p Hp) as S. destruct (find_char line comma p) as [e|].
  - destruct S as (H1 & H2 & H3 & _). rewrite H3, H2. cbn [bind cols_fold].
    destruct (do_column stod idx (firstn (e - p) (skipn p line)) st) as [st'| | |]; cbn [bind]; auto.
    apply IH; lia.
  - destruct S as (H1 & H2). rewrite H2, H1. cbn [bind cols_fold].
    destruct (do_column stod idx (skipn p line) st); reflexivity.
Qed.

Lemma parse_line_eq line :
  parse_line stod line = ('(_, ns, ws) <- cols_fold 0 (split_on comma line) (0%Z, [], []) ;; Ok (ns, ws)).
Proof. unfold parse_line. rewrite column_loop_eq by lia. reflexivity. Qed.

Definition stoi_idx (c : text) : res nat := v <- stoi c ;; Ok (Z.to_nat (to_size_t v)).

(** the columns from number 2 on, once n_neighbours is known *)
Lemma cols_fold_weights n rest : forall idx ns ws,
  (to_size_t (2 + n) <= Z.of_nat idx)%Z -> 2 <= idx ->
  cols_fold idx rest (n, ns, ws) = (r <- mapM stod rest ;; Ok (n, ns, ws ++ r)).
Proof.
  induction rest as [|c r IH]; intros idx ns ws Hb Hi; cbn [cols_fold mapM bind].
  - now rewrite app_nil_r.
  - unfold do_column. destruct (Nat.eqb_spec idx 1); [lia|].
    replace ((2 <=? idx) && (Z.of_nat idx <? to_size_t (2 + n))%Z) with false.
    2: { symmetry. apply andb_false_intro2, Z.ltb_ge. lia. }
    replace (to_size_t (2 + n) <=? Z.of_nat idx)%Z with true by (symmetry; apply Z.leb_le; lia).
    destruct (stod c) as [w| | |]; cbn [bind]; auto. rewrite IH by lia.
    destruct (mapM stod r); cbn [bind]; auto. now rewrite <- app_assoc.
Qed.

Lemma cols_fold_indices n k : forall rest idx ns ws,
  (Z.of_nat (idx + k) = to_size_t (2 + n))%Z -> k <= length rest -> 2 <= idx ->
  cols_fold idx rest (n, ns, ws) =
    (is <- mapM stoi_idx (firstn k rest) ;; r <- mapM stod (skipn k rest) ;; Ok (n, ns ++ is, ws ++ r)).
Proof.
  induction k as [|k IH]; intros rest idx ns ws Hb Hk Hi.
  - cbn [firstn skipn mapM bind]. rewrite cols_fold_weights by lia. now rewrite app_nil_r.
  - destruct rest as [|c r]; [cbn in Hk; lia|]. cbn [firstn skipn cols_fold mapM].
    unfold do_column. destruct (Nat.eqb_spec idx 1); [lia|].
    replace ((2 <=? idx) && (Z.of_nat idx <? to_size_t (2 + n))%Z) with true.
    2: { symmetry. apply andb_true_intro. split; [apply Nat.leb_le; lia|apply Z.ltb_lt; lia]. }
    unfold stoi_idx at 1. destruct (stoi c) as [v| | |]; cbn [bind]; auto.
    rewrite IH by (cbn in Hk; lia).
    destruct (mapM stoi_idx (firstn k r)); cbn [bind]; auto.
    destruct (mapM stod (skipn k r)); cbn [bind]; auto. now rewrite <- app_assoc.
Qed.

Lemma cols_fold_all_indices n : forall rest idx ns ws,
  (Z.of_nat (idx + length rest) <= to_size_t (2 + n))%Z -> 2 <= idx ->
  cols_fold idx rest (n, ns, ws) = (is <- mapM stoi_idx rest ;; Ok (n, ns ++ is, ws)).
Proof.
  induction rest as [|c r IH]; intros idx ns ws Hb Hi; cbn [cols_fold mapM bind].
  - now rewrite app_nil_r.
  - unfold do_column. destruct (Nat.eqb_spec idx 1); [lia|]. cbn [length] in Hb.
    replace ((2 <=? idx) && (Z.of_nat idx <? to_size_t (2 + n))%Z) with true.
    2: { symmetry. apply andb_true_intro. split; [apply Nat.leb_le; lia|apply Z.ltb_lt; lia]. }
    unfold stoi_idx at 1. destruct (stoi c) as [v| | |]; cbn [bind]; auto.
    rewrite IH by (cbn in *; lia).
    destruct (mapM stoi_idx r); cbn [bind]; auto. now rewrite <- app_assoc.
Qed.

Lemma stoi_range c v : stoi c = Ok v -> (-2147483648 <= v <= 2147483647)%Z.
Proof.
  unfold stoi. intros H.
  match type of H with (match ?x with _ => _ end) = _ => destruct x as [neg s] end.
  destruct (starts_with_digit s); [|discriminate].
  match type of H with (if ?b then _ else _) = _ => destruct b eqn:E end; [|discriminate].
  inversion H; subst. apply andb_true_iff in E as [E1 E2]. apply Z.leb_le in E1, E2. lia.
Qed.

Lemma parse_line_read line : (Z.of_nat (length (split_on comma line)) < 9223372036854775808)%Z ->
  parse_line stod line = read_columns stod (split_on comma line).
Proof.
  intros Hlen. rewrite parse_line_eq. pose proof (split_on_nonempty comma line) as Hne.
  destruct (split_on comma line) as [|c0 [|c1 rest]]; [congruence| |].
  - reflexivity.
  - cbn [cols_fold do_column Nat.eqb Nat.leb andb bind].
    change (to_size_t (2 + 0) <=? Z.of_nat 0)%Z with false. cbn [bind].
    cbn [read_columns]. change (do_column stod 1 c1 (0%Z, [], []))
      with (v <- stoi c1 ;; Ok (to_size_t v, @nil nat, @nil W)).
    destruct (stoi c1) as [v| | |] eqn:Ev; cbn [bind]; auto.
    apply stoi_range in Ev. cbn [length] in Hlen.
    unfold index_columns. destruct (Z.leb_spec 0 v) as [Hv|Hv].
    + assert (Es : to_size_t (2 + to_size_t v) = (2 + v)%Z) by (rewrite (to_size_t_small v) by lia; rewrite to_size_t_small; lia).
      destruct (Nat.le_gt_cases (Z.to_nat v) (length rest)) as [Hk|Hk].
      * rewrite Nat.min_l by lia.
        rewrite (cols_fold_indices (to_size_t v) (Z.to_nat v)) by (rewrite ?Es; lia).
        unfold stoi_idx. cbn [app].
        unfold to_size_t.
        destruct (mapM _ (firstn (Z.to_nat v) rest)); cbn [bind]; auto.
        destruct (mapM stod (skipn (Z.to_nat v) rest)); cbn [bind]; auto.
      * rewrite Nat.min_r by lia. rewrite firstn_all, skipn_all. cbn [mapM bind].
        rewrite cols_fold_all_indices by (rewrite ?Es; lia). cbn [app].
        unfold stoi_idx, to_size_t. destruct (mapM _ rest); cbn [bind]; auto.
    + destruct (Z.leb_spec (-2) v) as [Hv2|Hv2].
      * cbn [firstn skipn mapM bind].
        rewrite cols_fold_weights; [|unfold to_size_t; rewrite Zplus_mod_idemp_r; rewrite Z.mod_small; lia|lia].
        destruct (mapM stod rest); cbn [bind]; auto.
      * rewrite firstn_all, skipn_all. cbn [mapM bind].
        rewrite cols_fold_all_indices; [| |lia].
        -- cbn [app]. unfold stoi_idx, to_size_t. destruct (mapM _ rest); cbn [bind]; auto.
        -- unfold to_size_t. rewrite Zplus_mod_idemp_r.
           replace (2 + v)%Z with (18446744073709551616 + 2 + v + (-1) * 18446744073709551616)%Z by lia.
           rewrite Z_mod_plus_full, Z.mod_small by lia. lia.
Qed.

Definition pairs_to (acc_n : list (list nat)) (acc_w : list (list W)) (m : res (list (list nat * list W)))
  : res (list (list nat) * list (list W)) :=
  rows <- m ;; Ok (acc_n ++ map fst rows, acc_w ++ map snd rows).

Definition datal (ls : list text) : list text := filter (fun l => negb (is_comment l)) (before_empty ls).

Lemma split_count c s : length (split_on c s) <= S (length s).
Proof.
  induction s as [|x t IH]; cbn; auto. destruct (Ascii.eqb x c); cbn; [lia|].
  destruct (split_on c t); cbn in *; lia.
Qed.

Lemma line_loop_eq contents : (Z.of_nat (length contents) < 4611686018427387904)%Z ->
  forall fuel p nl wl, p <= length contents -> length contents - p < fuel ->
  line_loop stod fuel contents p nl wl =
    pairs_to nl wl (mapM (fun l => read_columns stod (split_on comma l)) (datal (split_on newline (skipn p contents)))).
Proof.
  intros HC. induction fuel as [|fuel IH]; intros p nl wl Hp Hf; [lia|]. cbn [line_loop].
  pose proof (scan_step contents newline p Hp) as S.
  assert (PL : forall k, parse_line stod (firstn k (skipn p contents)) =
               read_columns stod (split_on comma (firstn k (skipn p contents)))).
  { intros k. apply parse_line_read. pose proof (split_count comma (firstn k (skipn p contents))) as SC.
    assert (length (firstn k (skipn p contents)) <= length contents).
    { rewrite firstn_length, skipn_length. lia. } lia. }
  destruct (find_char contents newline p) as [e|].
  - destruct S as (H1 & H2 & H3 & _). rewrite H3, H2. cbn [bind npos_succ].
    specialize (PL (e - p)). remember (firstn (e - p) (skipn p contents)) as line.
    destruct line as [|c t]; [unfold datal, pairs_to; cbn; now rewrite !app_nil_r|].
    unfold datal. cbn [before_empty filter is_comment]. destruct (Ascii.eqb c hash); cbn [negb].
    + apply IH; lia.
    + rewrite PL. unfold pairs_to. cbn [mapM].
      destruct (read_columns stod (split_on comma (c :: t))) as [[ns ws]| | |]; cbn [bind]; auto.
      rewrite IH by lia. unfold pairs_to. fold (datal (split_on newline (skipn (S e) contents))).
      destruct (mapM _ (datal (split_on newline (skipn (S e) contents)))); cbn [bind map fst snd]; auto.
      now rewrite <- !app_assoc.
  - destruct S as (H1 & H2). rewrite H2, H1. cbn [bind npos_succ].
    specialize (PL (length (skipn p contents))). rewrite firstn_all in PL.
    remember (skipn p contents) as line. destruct line as [|c t]; [unfold datal, pairs_to; cbn; now rewrite !app_nil_r|].
    unfold datal. cbn [before_empty filter is_comment]. destruct (Ascii.eqb c hash); cbn [negb].
    + unfold pairs_to. cbn. now rewrite !app_nil_r.
    + rewrite PL. unfold pairs_to. cbn [mapM].
      destruct (read_columns stod (split_on comma (c :: t))) as [[ns ws]| | |]; cbn [bind map fst snd]; auto.
Qed.

Lemma from_file_eq contents : (Z.of_nat (length contents) < 4611686018427387904)%Z ->
  generate_from_file d stod contents =
    (rows <- mapM (fun l => read_columns stod (split_on comma l)) (data_lines contents) ;;
     Ok (net_of_lists d (map fst rows) (map snd rows) Incoming)).
Proof.
  intros HC. unfold generate_from_file. rewrite line_loop_eq by (auto; lia). unfold pairs_to. cbn [skipn].
  change (datal (split_on newline contents)) with (data_lines contents).
  destruct (mapM _ (data_lines contents)); reflexivity.
Qed.

(** ** Writing *)
Definition columns (i : nat) (ns : list nat) (ws : list W) : list text :=
  pad 5 (fmt_nat i) :: (space :: pad 5 (fmt_nat (length ns))) ::
  map (fun j => space :: pad 5 (fmt_nat j)) ns ++ map (fun w => space :: pad 25 (fmt_w w)) ws.

Lemma join_cons c p r : join c (p :: r) = p ++ concat (map (fun q => c :: q) r).
Proof.
  revert p. induction r as [|q r IH]; intros p; cbn [join map concat].
  - now rewrite app_nil_r.
  - cbn [join] in IH. rewrite IH. reflexivity.
Qed.

Lemma sep_shift (f : nat -> text) l : lit ", " ++ concat (map (fun j => f j ++ lit ", ") l)
  = concat (map (fun j => comma :: space :: f j) l) ++ lit ", ".
Proof.
  induction l as [|j l IH]; [reflexivity|].
  cbn [map concat]. rewrite <- !app_assoc. cbn [app lit String.list_ascii_of_string] in *.
  rewrite IH. reflexivity.
Qed.

Lemma row_neighbours_eq ns : row_neighbours ns = concat (map (fun j => pad 5 (fmt_nat j) ++ lit ", ") ns).
Proof.
  unfold row_neighbours. assert (G : forall l acc, fold_left (fun row j => row ++ pad 5 (fmt_nat j) ++ lit ", ") l acc
     = acc ++ concat (map (fun j => pad 5 (fmt_nat j) ++ lit ", ") l)).
  { induction l as [|j l IH]; intros acc; cbn [fold_left map concat]; [now rewrite app_nil_r|].
    rewrite IH. now rewrite <- !app_assoc. }
  apply G.
Qed.

Definition term (last : bool) : text := if last then [] else [newline].

Lemma row_weights_eq last ws : ws <> [] ->
  exists t, row_weights fmt_w last ws = Ok t /\
    lit ", " ++ t = concat (map (fun w => comma :: space :: pad 25 (fmt_w w)) ws) ++ term last.
Proof.
  intros Hne. unfold row_weights. set (n := length ws).
  assert (Hn : 0 < n) by (unfold n; destruct ws; [congruence|cbn; lia]).
  match goal with |- context[for_n n ?b ?s] => assert (G : okp (for_n n b s) (fun t =>
     lit ", " ++ t = concat (map (fun w => comma :: space :: pad 25 (fmt_w w)) ws) ++ term last)) end.
  { eapply okp_impl.
    - apply (for_n_inv _ (fun k t => lit ", " ++ t =
         concat (map (fun w => comma :: space :: pad 25 (fmt_w w)) (firstn k ws)) ++
         (if k =? n then term last else lit ", "))).
      + replace (0 =? n) with false by (symmetry; apply Nat.eqb_neq; lia). reflexivity.
      + intros k t Hk Ht. destruct (nth_error ws k) as [w|] eqn:Ew.
        2: { apply nth_error_None in Ew. unfold n in Hk. lia. }
        unfold vget. rewrite Ew. cbn [bind okp]. rewrite app_assoc, Ht.
        rewrite (firstn_S_nth_error _ _ _ _ Ew), map_app, concat_app. cbn [map concat].
        destruct (Nat.eqb_spec k n); [lia|]. rewrite app_nil_r, <- !app_assoc. f_equal.
        cbn [app lit String.list_ascii_of_string]. unfold term. do 2 f_equal. f_equal.
        destruct (Nat.eqb_spec k (n - 1)), (Nat.eqb_spec (S k) n); try lia; reflexivity.
    - intros t Ht. rewrite Nat.eqb_refl in Ht. unfold n in Ht. now rewrite firstn_all in Ht. }
  apply okp_ex in G as (t & E & Ht). eauto.
Qed.

(** a complete row of the file *)
Lemma row_text i ns ws last : length ns = length ws ->
  exists rw, row_weights fmt_w last ws = Ok rw /\
    row_start i ns ++ row_neighbours ns ++ rw =
    join comma (columns i ns ws) ++ (match ns with [] => [newline] | _ => term last end).
Proof.
  intros HL. rewrite row_neighbours_eq. unfold columns. rewrite join_cons. cbn [map concat].
  destruct ns as [|n0 ns].
  - destruct ws; [|discriminate]. exists []. split; [reflexivity|].
    unfold row_start. cbn [length map concat app]. rewrite <- !app_assoc. reflexivity.
  - destruct (row_weights_eq last ws) as (rw & E & Ht); [destruct ws; [discriminate|congruence]|].
    exists rw. split; auto. remember (n0 :: ns) as nn. unfold row_start.
    replace (match nn with [] => [newline] | _ :: _ => lit ", " end) with (lit ", ") by (subst; reflexivity).
    replace (match nn with [] => [newline] | _ :: _ => term last end) with (term last) by (subst; reflexivity).
    rewrite map_app, concat_app, !map_map.
    pose proof (sep_shift (fun j => pad 5 (fmt_nat j)) nn) as SS. cbv beta in SS.
    transitivity (pad 5 (fmt_nat i) ++ lit ", " ++ pad 5 (fmt_nat (length nn)) ++
      ((lit ", " ++ concat (map (fun j => pad 5 (fmt_nat j) ++ lit ", ") nn)) ++ rw)).
    { now rewrite <- !app_assoc. }
    rewrite SS, <- (app_assoc _ (lit ", ") rw), Ht. rewrite <- !app_assoc. reflexivity.
Qed.

Definition nrow (g : net) i := nth i (neigh g) [].
Definition wrow (g : net) i := nth i (wts g) [].
Definition body (g : net) i : text := join comma (columns i (nrow g i) (wrow g i)).
Definition ending (g : net) i : text :=
  match nrow g i with [] => [newline] | _ => term (i =? n_agents g - 1) end.
Definition header_line : text :=
  lit "# idx_agent, n_neighbours_in, indices_neighbours_in[...], weights_in[...]".

Lemma to_file_eq (g : net) : wf g ->
  network_to_file fmt_w g =
    Ok (header_line ++ newline :: concat (map (fun i => body g i ++ ending g i) (seq 0 (n_agents g)))).
Proof.
  intros (W1 & W2 & W3 & W4). unfold network_to_file.
  match goal with |- ?m = _ => assert (G : okp m (fun r => r =
     header_line ++ newline :: concat (map (fun i => body g i ++ ending g i) (seq 0 (n_agents g))))) end.
  { apply (for_n_inv _ (fun k r => r =
     header_line ++ newline :: concat (map (fun i => body g i ++ ending g i) (seq 0 k)))).
    - reflexivity.
    - intros i fs Hi ->. unfold get_neighbours, get_weights. unfold n_agents in Hi.
      rewrite (vget_lt _ _ _ []) by lia. cbn [bind]. rewrite (vget_lt _ _ _ []) by lia. cbn [bind].
      destruct (row_text i (nrow g i) (wrow g i) (i =? n_agents g - 1)) as (rw & E & Ht).
      { apply W3. exact Hi. }
      unfold nrow, wrow in E, Ht. rewrite E. cbn [bind okp]. rewrite Ht.
      rewrite seq_S, map_app, concat_app. cbn [map concat Nat.add]. rewrite app_nil_r, <- !app_assoc. reflexivity. }
  apply okp_ex in G as (x & E & ->). exact E.
Qed.

Lemma columns_no_sep (c : ascii) i ns ws : (c = comma \/ c = newline) ->
  (forall w, In w ws -> ~ In comma (fmt_w w) /\ ~ In newline (fmt_w w)) ->
  Forall (fun p => ~ In c p) (columns i ns ws).
Proof.
  intros Hc Hw.
  assert (Hn : forall k n, ~ In c (pad k (fmt_nat n))).
  { intros k n Hin. apply in_pad in Hin as [->|Hin].
    - destruct Hc; discriminate.
    - rewrite fmt_nat_Z in Hin. apply fmt_Z_chars in Hin. destruct Hc; subst; tauto. }
  assert (Hs : c <> space) by (destruct Hc; subst; discriminate).
  unfold columns. repeat apply Forall_cons; auto.
  - intros [H|H]; [congruence|]. exact (Hn _ _ H).
  - apply Forall_app. split; apply Forall_forall; intros p Hp; apply in_map_iff in Hp as (x & <- & Hx).
    + intros [H|H]; [congruence|]. exact (Hn _ _ H).
    + intros [H|H]; [congruence|]. apply in_pad in H as [H|H]; [congruence|].
      destruct (Hw x Hx). destruct Hc; subst; tauto.
Qed.

Lemma in_join c x ps : In x (join c ps) -> x = c \/ exists p, In p ps /\ In x p.
Proof.
  induction ps as [|p r IH]; [intros []|]. rewrite join_cons. intros H. apply in_app_or in H as [H|H].
  - right. exists p. cbn; auto.
  - apply in_concat in H as (q & Hq & Hx). apply in_map_iff in Hq as (p' & <- & Hp').
    destruct Hx as [Hx|Hx]; [auto|]. right. exists p'. cbn; auto.
Qed.

Lemma read_columns_ok i ns ws : length ns = length ws ->
  (forall w, In w ws -> printable fmt_w stod w) ->
  (forall j, In j ns -> (Z.of_nat j <= 2147483647)%Z) -> (Z.of_nat (length ns) <= 2147483647)%Z ->
  read_columns stod (columns i ns ws) = Ok (ns, ws).
Proof.
  intros HL Hw Hj Hn. unfold columns, read_columns.
  assert (SI : forall k n, (Z.of_nat n <= 2147483647)%Z -> stoi (space :: pad k (fmt_nat n)) = Ok (Z.of_nat n)).
  { intros k n Hle. unfold pad. change (space :: repeat space (k - length (fmt_nat n)) ++ fmt_nat n)
      with (repeat space (S (k - length (fmt_nat n))) ++ fmt_nat n).
    rewrite <- (app_nil_r (fmt_nat n)) at 2. rewrite fmt_nat_Z. apply stoi_fmt; [lia|reflexivity]. }
  rewrite SI by auto. cbn [bind]. cbv zeta.
  assert (G : forall (L1 L2 : list text), length L1 = length ns ->
     Forall2 (fun c j => (v <- stoi c ;; Ok (Z.to_nat (v mod 18446744073709551616))) = Ok j) L1 ns ->
     Forall2 (fun c w => stod c = Ok w) L2 ws ->
     (let k := index_columns (Z.of_nat (length ns)) (length (L1 ++ L2)) in
      ns <- mapM (fun c => v <- stoi c ;; Ok (Z.to_nat (v mod 18446744073709551616))) (firstn k (L1 ++ L2)) ;;
      ws <- mapM stod (skipn k (L1 ++ L2)) ;; Ok (ns, ws)) = Ok (ns, ws)).
  { intros L1 L2 HL1 F1 F2. cbv zeta.
    assert (EK : index_columns (Z.of_nat (length ns)) (length (L1 ++ L2)) = length L1).
    { unfold index_columns. destruct (Z.leb_spec 0 (Z.of_nat (length ns))); [|lia].
      rewrite app_length, Nat2Z.id. lia. }
    rewrite EK. rewrite firstn_app, skipn_app, Nat.sub_diag, firstn_all, skipn_all. cbn [firstn skipn app].
    rewrite app_nil_r. rewrite (mapM_ok _ _ _ _ _ F1). cbn [bind]. rewrite (mapM_ok _ _ _ _ _ F2). reflexivity. }
  apply G; clear G; [apply map_length| |].
  - clear HL Hn. induction ns as [|j ns IH]; cbn [map]; constructor.
    + rewrite SI by (apply Hj; cbn; auto). cbn [bind]. rewrite Z.mod_small; [now rewrite Nat2Z.id|].
      specialize (Hj j (or_introl eq_refl)). lia.
    + apply IH. intros; apply Hj; cbn; auto.
  - clear HL. induction ws as [|w ws IH]; cbn [map]; constructor.
    + destruct (Hw w (or_introl eq_refl)) as (_ & _ & H). unfold pad.
      change (space :: repeat space (25 - length (fmt_w w)) ++ fmt_w w)
        with (repeat space (S (25 - length (fmt_w w))) ++ fmt_w w).
      rewrite <- (app_nil_r (fmt_w w)) at 2. apply H. auto.
    + apply IH. intros; apply Hw; cbn; auto.
Qed.

Lemma body_head (g : net) i : exists c t, body g i = c :: t /\ c <> hash.
Proof.
  unfold body, columns. rewrite join_cons.
  destruct (fmt_N_ok (N.of_nat i)) as (_ & F & _). fold (fmt_nat i) in F.
  destruct (pad 5 (fmt_nat i)) as [|c t] eqn:E.
  - unfold pad in E. apply app_eq_nil in E as [_ E]. congruence.
  - exists c. eexists. split; [reflexivity|].
    assert (In c (pad 5 (fmt_nat i))) as Hin by (rewrite E; cbn; auto).
    apply in_pad in Hin as [->|Hin]; [discriminate|]. rewrite fmt_nat_Z in Hin. now apply fmt_Z_chars in Hin.
Qed.

Definition printable_net (g : net) : Prop :=
  (forall i w, i < n_agents g -> In w (wrow g i) -> printable fmt_w stod w).

Lemma split_bodies (g : net) is : printable_net g -> (forall i, In i is -> i < n_agents g) ->
  (forall i, In i is -> ending g i = [] -> exists pre, is = pre ++ [i] /\ ~ In i pre) ->
  exists tail, (tail = [] \/ tail = [[]]) /\
    (is <> [] \/ tail = [[]]) /\
    split_on newline (concat (map (fun i => body g i ++ ending g i) is)) = map (body g) is ++ tail.
Proof.
  intros HP. induction is as [|i is IH]; intros Hlt Hend.
  - exists [[]]. cbn. auto.
  - assert (Hb : ~ In newline (body g i)).
    { intros Hin. apply in_join in Hin as [Hin|(p & Hp & Hin)]; [discriminate|].
      pose proof (columns_no_sep newline i (nrow g i) (wrow g i) (or_intror eq_refl)) as NS.
      assert (Hw : forall w, In w (wrow g i) -> ~ In comma (fmt_w w) /\ ~ In newline (fmt_w w)).
      { intros w Hw. destruct (HP i w (Hlt i (or_introl eq_refl)) Hw) as (? & ? & _). auto. }
      specialize (NS Hw). rewrite Forall_forall in NS. exact (NS p Hp Hin). }
    cbn [map concat].
    assert (E : ending g i = [newline] \/ ending g i = []).
    { unfold ending, term. destruct (nrow g i); auto. destruct (i =? n_agents g - 1); auto. }
    destruct E as [E|E].
    + destruct IH as (tail & T1 & T2 & T3).
      * intros; apply Hlt; cbn; auto.
      * intros j Hj Ej. destruct (Hend j (or_intror Hj) Ej) as (pre & Ep & Hpre).
        destruct pre as [|i' pre]; cbn in Ep; inversion Ep; subst; [destruct Hj|].
        exists pre. split; auto. intros H. apply Hpre. cbn; auto.
      * exists tail. split; auto. split; [left; discriminate|].
        rewrite E. rewrite <- !app_assoc. cbn [app]. rewrite split_on_app by auto. now rewrite T3.
    + destruct (Hend i (or_introl eq_refl) E) as (pre & Ep & Hpre).
      destruct pre as [|i' pre]; cbn in Ep; inversion Ep; subst; [|exfalso; apply Hpre; cbn; auto].
      exists []. split; auto. split; [left; discriminate|].
      rewrite E. cbn [map concat]. rewrite !app_nil_r. now apply split_on_none.
Qed.

Lemma data_lines_written (g : net) : wf g -> printable_net g ->
  forall contents, network_to_file fmt_w g = Ok contents ->
  data_lines contents = map (body g) (seq 0 (n_agents g)).
Proof.
  intros Hwf HP contents E. rewrite (to_file_eq g Hwf) in E.
  assert (EC : contents = header_line ++ newline ::
     concat (map (fun i => body g i ++ ending g i) (seq 0 (n_agents g)))) by congruence.
  rewrite EC. clear E EC contents. unfold data_lines. rewrite split_on_app.
  2: { intros H. cbn in H. repeat (destruct H as [H|H]; [discriminate|]). destruct H. }
  destruct (split_bodies g (seq 0 (n_agents g)) HP) as (tail & T1 & _ & T3).
  - intros i Hi. apply in_seq in Hi. lia.
  - intros i Hi E. apply in_seq in Hi. unfold ending, term in E. destruct (nrow g i); [discriminate|].
    destruct (Nat.eqb_spec i (n_agents g - 1)); [|discriminate]. exists (seq 0 i). split.
    + replace (n_agents g) with (S i) by lia. now rewrite seq_S.
    + rewrite in_seq. lia.
  - rewrite T3. transitivity (filter (fun l => negb (is_comment l)) (before_empty (map (body g) (seq 0 (n_agents g)) ++ tail))).
    { reflexivity. }
    clear T3.
    generalize (seq 0 (n_agents g)). intros is. induction is as [|i is IH].
    + destruct T1 as [-> | ->]; reflexivity.
    + cbn [map app]. destruct (body_head g i) as (c & t & Eb & Hc). rewrite Eb. cbn [before_empty filter is_comment].
      destruct (Ascii.eqb_spec c hash); [congruence|]. cbn [negb]. now rewrite IH.
Qed.

Lemma round_trip (g : net) contents : wf g -> printable_net g ->
  (Z.of_nat (n_agents g) <= 2147483648)%Z ->
  (forall i, i < n_agents g -> (Z.of_nat (length (nrow g i)) <= 2147483647)%Z) ->
  (Z.of_nat (length contents) < 4611686018427387904)%Z ->
  network_to_file fmt_w g = Ok contents ->
  generate_from_file d stod contents = Ok (mkNet (repeat d (n_agents g)) (neigh g) (wts g) Incoming).
Proof.
  intros Hwf HP Hn Hr HC E. rewrite from_file_eq by auto. rewrite (data_lines_written g Hwf HP contents E).
  destruct Hwf as (W1 & W2 & W3 & W4).
  rewrite (mapM_ok _ _ _ _ (map (fun i => (nrow g i, wrow g i)) (seq 0 (n_agents g)))).
  - cbn [bind]. rewrite !map_map. cbn [fst snd]. unfold nrow, wrow, n_agents.
    rewrite <- W1 at 1. rewrite map_nth_seq. rewrite <- W2 at 1. rewrite map_nth_seq.
    unfold net_of_lists. now rewrite W1.
  - assert (G : forall is, (forall i, In i is -> i < n_agents g) ->
       Forall2 (fun l y => read_columns stod (split_on comma l) = Ok y) (map (body g) is)
               (map (fun i => (nrow g i, wrow g i)) is)).
    { induction is as [|i is IH]; intros Hlt; cbn [map]; constructor.
      - assert (Hi : i < n_agents g) by (apply Hlt; cbn; auto).
        unfold body. rewrite split_join.
        + apply read_columns_ok.
          * apply W3. exact Hi.
          * intros w Hw. exact (HP i w Hi Hw).
          * intros j Hj. apply W4 in Hj. unfold n_agents in Hn. lia.
          * now apply Hr.
        + discriminate.
        + apply columns_no_sep; auto. intros w Hw. destruct (HP i w Hi Hw) as (? & ? & _). auto.
      - apply IH. intros; apply Hlt; cbn; auto. }
    apply G. intros i Hi. apply in_seq in Hi. lia.
Qed.

End P.
