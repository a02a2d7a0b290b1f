(** Proofs about agent files and comma separated lists. *)
From Verif Require Import Base BaseFacts MNetwork PNetwork PNetwork2 MText SText PText MAgents PNetFile.

Section L.
Context {St : Type} (cb : nat -> text -> St -> res St).

Lemma firstn_app_le A (l1 l2 : list A) n : length l1 <= n ->
  firstn n (l1 ++ l2) = l1 ++ firstn (n - length l1) l2.
Proof. intros H. rewrite firstn_app. now rewrite firstn_all2 by auto. Qed.

Lemma parse_loop_eq str : (Z.of_nat (length str) < 2147483648)%Z ->
  forall fuel p pos idx st, p <= length str -> length str - p < fuel ->
  (-1 <= pos)%Z -> Z.to_nat (pos + 1) = p ->
  parse_loop cb fuel str pos idx st = each cb idx (handed p (split_on comma (skipn p str))) st.
Proof.
  intros HL. induction fuel as [|fuel IH]; intros p pos idx st Hp Hf Hpos Ep; [lia|].
  cbn [parse_loop]. destruct (Z.eqb_spec pos 2147483647); [lia|].
  rewrite (to_size_t_small (pos + 1)) by lia. rewrite Ep.
  pose proof (scan_step str comma p Hp) as S. destruct (find_char str comma p) as [e|].
  - destruct S as (H1 & H2 & _ & H4). rewrite H2.
    unfold substr. destruct (Nat.ltb_spec (length str) p); [lia|]. cbn [bind].
    pose proof (split_on_nonempty comma (skipn (Datatypes.S e) str)) as NE.
    destruct (split_on comma (skipn (Datatypes.S e) str)) as [|q r] eqn:E2; [congruence|].
    assert (HH : forall x, handed p (x :: q :: r) =
       firstn (p + length x) (x ++ comma :: join comma (q :: r)) :: handed (Datatypes.S (p + length x)) (q :: r)) by reflexivity.
    rewrite HH. rewrite <- E2, join_split, <- H4.
    assert (EL : length (firstn (e - p) (skipn p str)) = e - p).
    { rewrite firstn_length, skipn_length. lia. }
    rewrite EL. replace (p + (e - p)) with e by lia. cbn [each].
    destruct (cb idx (firstn e (skipn p str)) st) as [st'| | |]; cbn [bind]; auto.
    assert (E32 : to_int32 (Z.of_nat e) = Z.of_nat e).
    { unfold to_int32. rewrite Z.mod_small by lia. destruct (Z.ltb_spec (Z.of_nat e) 2147483648); lia. }
    rewrite E32. rewrite (IH (Datatypes.S e)) by lia. reflexivity.
  - destruct S as (H1 & H2). rewrite H1. unfold substr. destruct (Nat.ltb_spec (length str) p); [lia|].
    cbn [bind handed each]. reflexivity.
Qed.

Lemma parse_eq str st : (Z.of_nat (length str) < 2147483648)%Z ->
  parse_comma_separated_list cb str st = each cb 0 (handed 0 (split_on comma str)) st.
Proof. intros H. unfold parse_comma_separated_list. apply (parse_loop_eq str H); lia. Qed.
End L.

Lemma handed_prefix pos es : Forall2 (fun e h => exists t, h = e ++ t /\ (t = [] \/ exists t', t = comma :: t')) es (handed pos es).
Proof.
  revert pos. induction es as [|e [|e2 r] IH]; intros pos.
  - constructor.
  - constructor; [|constructor]. exists []. rewrite app_nil_r. auto.
  - cbn [handed]. constructor; [|apply IH]. change (join comma (e :: e2 :: r)) with (e ++ comma :: join comma (e2 :: r)).
    rewrite firstn_app_le by lia. exists (firstn (pos + length e - length e) (comma :: join comma (e2 :: r))).
    split; auto. destruct (pos + length e - length e); cbn [firstn]; eauto.
Qed.

Lemma handed_first es : hd_error (handed 0 es) = hd_error es.
Proof.
  destruct es as [|e [|e2 r]]; [reflexivity|reflexivity|]. cbn [handed hd_error].
  change (join comma (e :: e2 :: r)) with (e ++ comma :: join comma (e2 :: r)).
  rewrite firstn_app_le by lia. rewrite Nat.sub_diag. cbn [firstn]. now rewrite app_nil_r.
Qed.

Lemma handed_length pos es : length (handed pos es) = length es.
Proof. pose proof (handed_prefix pos es) as F. induction F; cbn; auto. Qed.

Lemma handed_last es : forall pos, last (handed pos es) [] = last es [].
Proof.
  induction es as [|e [|e2 r] IH]; intros pos; [reflexivity|reflexivity|].
  change (handed pos (e :: e2 :: r))
    with (firstn (pos + length e) (join comma (e :: e2 :: r)) :: handed (S (pos + length e)) (e2 :: r)).
  change (last (e :: e2 :: r) []) with (last (e2 :: r) []). rewrite <- (IH (S (pos + length e))).
  pose proof (handed_length (S (pos + length e)) (e2 :: r)) as HL.
  destruct (handed (S (pos + length e)) (e2 :: r)); [discriminate|reflexivity].
Qed.

Lemma Forall2_weaken X Y (P Q : X -> Y -> Prop) l l' : (forall x y, P x y -> Q x y) -> Forall2 P l l' -> Forall2 Q l l'.
Proof. intros H F. induction F; constructor; auto. Qed.

Section AF.
Context {A : Type} (column_names : list text) (to_string : A -> res text) (from_string : text -> res A).

Lemma after_first_eq line n : length line <= n ->
  forall k, k = None \/ k = Some n ->
  substr line (npos_succ (find_char line comma 0)) k = Ok (after_first_comma line).
Proof.
  intros Hn k Hk. unfold after_first_comma. pose proof (scan_step line comma 0 (Nat.le_0_l _)) as S.
  destruct (find_char line comma 0) as [e|]; cbn [npos_succ].
  - destruct S as (H1 & H2 & _). change (skipn 0 line) with line in H2. rewrite H2.
    pose proof (split_on_nonempty comma (skipn (Datatypes.S e) line)) as NE.
    destruct (split_on comma (skipn (Datatypes.S e) line)) as [|q r] eqn:E2; [congruence|].
    cbv iota beta. rewrite <- E2, join_split. unfold substr. destruct (Nat.ltb_spec (length line) (Datatypes.S e)); [lia|].
    destruct Hk as [-> | ->]; auto. rewrite firstn_all2; auto. rewrite skipn_length. lia.
  - destruct S as (H1 & _). cbn [skipn] in H1. rewrite H1. unfold substr. cbn.
    destruct Hk as [-> | ->]; auto. now rewrite firstn_all2.
Qed.

Lemma agent_line_loop_eq contents :
  forall fuel p acc, p <= length contents -> length contents - p < fuel ->
  agent_line_loop from_string fuel contents p acc =
    (l <- mapM (fun l => from_string (after_first_comma l)) (datal (split_on newline (skipn p contents))) ;; Ok (acc ++ l)).
Proof.
  induction fuel as [|fuel IH]; intros p acc Hp Hf; [lia|]. cbn [agent_line_loop].
  pose proof (scan_step contents newline p Hp) as S.
  destruct (find_char contents newline p) as [e|].
  - destruct S as (H1 & H2 & H3 & _). rewrite H3, H2. cbn [bind npos_succ].
    assert (HL : length (firstn (e - p) (skipn p contents)) <= e) by (rewrite firstn_length; lia).
    remember (firstn (e - p) (skipn p contents)) as line.
    destruct line as [|c t]; [unfold datal; cbn; now rewrite !app_nil_r|].
    unfold datal. cbn [before_empty filter is_comment]. destruct (Ascii.eqb c hash); cbn [negb].
    + apply IH; lia.
    + rewrite (after_first_eq (c :: t) e HL) by auto. cbn [bind mapM].
      destruct (from_string (after_first_comma (c :: t))) as [a| | |]; cbn [bind]; auto.
      rewrite IH by lia. unfold datal.
      destruct (mapM _ (filter _ (before_empty (split_on newline (skipn (Datatypes.S e) contents))))); cbn [bind]; auto.
      now rewrite <- !app_assoc.
  - destruct S as (H1 & H2). rewrite H2, H1. cbn [bind npos_succ].
    remember (skipn p contents) as line. destruct line as [|c t]; [unfold datal; cbn; now rewrite !app_nil_r|].
    unfold datal. cbn [before_empty filter is_comment]. destruct (Ascii.eqb c hash); cbn [negb].
    + cbn. now rewrite !app_nil_r.
    + rewrite (after_first_eq (c :: t) _ (le_n _)) by auto. cbn [bind mapM].
      destruct (from_string (after_first_comma (c :: t))) as [a| | |]; cbn [bind]; auto.
Qed.

Lemma agents_from_file_eq contents :
  agents_from_file from_string contents = mapM (fun l => from_string (after_first_comma l)) (data_lines contents).
Proof.
  unfold agents_from_file. rewrite agent_line_loop_eq by lia. cbn [skipn].
  change (datal (split_on newline contents)) with (data_lines contents). destruct (mapM _ _); reflexivity.
Qed.

(** ** Writing *)
Definition arow (i : nat) (s : text) : text := pad 5 (fmt_nat i) ++ lit ", " ++ pad 25 s.

Lemma agents_to_file_eq agents ss : Forall2 (fun a s => to_string a = Ok s) agents ss ->
  agents_to_file column_names to_string agents =
    Ok (agents_header column_names ++ concat (map (fun i => arow i (nth i ss []) ++ [newline]) (seq 0 (length agents)))).
Proof.
  intros F. unfold agents_to_file.
  match goal with |- ?m = _ => assert (G : okp m (fun r => r =
     agents_header column_names ++ concat (map (fun i => arow i (nth i ss []) ++ [newline]) (seq 0 (length agents))))) end.
  { apply (for_n_inv _ (fun k r => r =
     agents_header column_names ++ concat (map (fun i => arow i (nth i ss []) ++ [newline]) (seq 0 k)))).
    - now rewrite app_nil_r.
    - intros i fs Hi ->. destruct (nth_error agents i) as [a|] eqn:Ea; [|apply nth_error_None in Ea; lia].
      unfold vget. rewrite Ea. cbn [bind].
      assert (Es : to_string a = Ok (nth i ss [])).
      { clear -F Ea. revert i Ea. induction F as [|x y l l' Hxy F IH]; intros [|i] Ea; cbn in *; try discriminate.
        - now inversion Ea; subst.
        - now apply IH. }
      rewrite Es. cbn [bind okp]. rewrite seq_S, map_app, concat_app. cbn [map concat Nat.add].
      unfold arow. rewrite app_nil_r, <- !app_assoc. reflexivity. }
  apply okp_ex in G as (x & E & ->). exact E.
Qed.

Definition names_ok : Prop := Forall (fun c => ~ In newline c) column_names.

Lemma header_shape : names_ok -> exists h, agents_header column_names = (hash :: h) ++ [newline] /\ ~ In newline (hash :: h).
Proof.
  intros N. unfold agents_header.
  assert (G : forall l acc, Forall (fun c => ~ In newline c) l -> ~ In newline (hash :: acc) ->
    exists h, fold_left (fun header col => header ++ lit ", " ++ col) l (hash :: acc) = hash :: h /\ ~ In newline (hash :: h)).
  { induction l as [|c l IH]; intros acc Fl Ha; cbn [fold_left]; [eauto|].
    inversion Fl; subst. cbn [app]. apply IH; auto.
    intros Hin. cbn in Hin. destruct Hin as [Hin|Hin]; [discriminate|].
    apply in_app_or in Hin as [Hin|[Hin|[Hin|Hin]]]; try discriminate; auto. apply Ha. cbn; auto. }
  destruct (G column_names (lit " idx_agent") N) as (h & E & Hh).
  { cbn. intros H. repeat (destruct H as [H|H]; [discriminate|]). destruct H. }
  exists h. split; auto. change (lit "# idx_agent") with (hash :: lit " idx_agent"). now rewrite E.
Qed.

Lemma arow_head i s : exists c t, arow i s = c :: t /\ c <> hash.
Proof.
  unfold arow. destruct (fmt_N_ok (N.of_nat i)) as (_ & F & _). fold (fmt_nat i) in F.
  destruct (pad 5 (fmt_nat i)) as [|c t] eqn:E.
  - unfold pad in E. apply app_eq_nil in E as [_ E]. congruence.
  - exists c. eexists. split; [reflexivity|].
    assert (In c (pad 5 (fmt_nat i))) as Hin by (rewrite E; cbn; auto).
    apply in_pad in Hin as [->|Hin]; [discriminate|]. rewrite fmt_nat_Z in Hin. now apply fmt_Z_chars in Hin.
Qed.

Lemma idx_no_sep c i k : (c = comma \/ c = newline) -> ~ In c (pad k (fmt_nat i)).
Proof.
  intros Hc Hin. apply in_pad in Hin as [->|Hin].
  - destruct Hc; discriminate.
  - rewrite fmt_nat_Z in Hin. apply fmt_Z_chars in Hin. destruct Hc; subst; tauto.
Qed.

Lemma arow_after i s : after_first_comma (arow i s) = space :: pad 25 s.
Proof.
  unfold after_first_comma, arow. cbn [app lit String.list_ascii_of_string].
  change ("," :: " " :: pad 25 s)%char with (comma :: space :: pad 25 s).
  rewrite split_on_app by (apply idx_no_sep; auto).
  pose proof (split_on_nonempty comma (space :: pad 25 s)) as NE.
  destruct (split_on comma (space :: pad 25 s)) as [|q r] eqn:E; [congruence|]. rewrite <- E. apply join_split.
Qed.

Lemma arow_newline i s : ~ In newline s -> ~ In newline (arow i s).
Proof.
  intros Hs Hin. unfold arow in Hin. apply in_app_or in Hin as [Hin|Hin]; [revert Hin; apply idx_no_sep; auto|].
  apply in_app_or in Hin as [[Hin|[Hin|[]]]|Hin]; try discriminate. apply in_pad in Hin as [Hin|Hin]; [discriminate|auto].
Qed.

Lemma agents_data_lines agents ss contents : names_ok ->
  Forall2 (fun a s => to_string a = Ok s) agents ss -> Forall (fun s => ~ In newline s) ss ->
  agents_to_file column_names to_string agents = Ok contents ->
  data_lines contents = map (fun i => arow i (nth i ss [])) (seq 0 (length agents)).
Proof.
  intros N F NN E. rewrite (agents_to_file_eq agents ss F) in E.
  destruct (header_shape N) as (h & Eh & Hh). rewrite Eh in E.
  assert (EC : contents = (hash :: h) ++ newline ::
     concat (map (fun i => arow i (nth i ss []) ++ [newline]) (seq 0 (length agents)))).
  { rewrite <- app_assoc in E. cbn [app] in *. congruence. }
  rewrite EC. clear E EC Eh contents. unfold data_lines. rewrite split_on_app by auto.
  assert (G : forall is, split_on newline (concat (map (fun i => arow i (nth i ss []) ++ [newline]) is)) =
      map (fun i => arow i (nth i ss [])) is ++ [[]]).
  { induction is as [|i is IH]; [reflexivity|]. cbn [map concat]. rewrite <- app_assoc. cbn [app].
    rewrite split_on_app; [now rewrite IH|]. apply arow_newline.
    destruct (nth_in_or_default i ss []) as [H|H]; [|rewrite H; auto].
    rewrite Forall_forall in NN. now apply NN. }
  rewrite G. cbn [before_empty filter]. change (is_comment (hash :: h)) with true. cbn [negb].
  generalize (seq 0 (length agents)). intros is. induction is as [|i is IH]; [reflexivity|].
  cbn [map app]. destruct (arow_head i (nth i ss [])) as (c & t & Eb & Hc). rewrite Eb. cbn [before_empty filter is_comment].
  destruct (Ascii.eqb_spec c hash); [congruence|]. cbn [negb]. now rewrite IH.
Qed.

(** The round trip for any kind of agent whose string form survives padding on the left. *)
Lemma agents_round_trip agents ss contents : names_ok ->
  Forall2 (fun a s => to_string a = Ok s /\ ~ In newline s /\ forall k, k <= 26 -> from_string (repeat space k ++ s) = Ok a) agents ss ->
  agents_to_file column_names to_string agents = Ok contents ->
  agents_from_file from_string contents = Ok agents.
Proof.
  intros N F E.
  assert (F1 : Forall2 (fun a s => to_string a = Ok s) agents ss).
  { eapply Forall2_weaken; [|exact F]. cbn. tauto. }
  assert (F2 : Forall (fun s => ~ In newline s) ss).
  { clear -F. induction F; constructor; tauto. }
  rewrite agents_from_file_eq, (agents_data_lines agents ss contents N F1 F2 E).
  apply mapM_ok. clear E F1 F2.
  assert (G : forall is, (forall i, In i is -> i < length agents) -> forall d,
    Forall2 (fun l a => from_string (after_first_comma l) = Ok a) (map (fun i => arow i (nth i ss [])) is)
      (map (fun i => nth i agents d) is)).
  { intros is Hl d. induction is as [|i is IH]; cbn [map]; constructor.
    - rewrite arow_after. assert (Hi : i < length agents) by (apply Hl; cbn; auto).
      clear -F Hi. revert i Hi. induction F as [|a s l l' H F IH]; intros [|i] Hi; cbn in Hi; try lia; cbn [nth].
      + destruct H as (_ & _ & H). unfold pad. apply (H (S (25 - length s))). lia.
      + apply IH. lia.
    - apply IH. intros; apply Hl; cbn; auto. }
  destruct agents as [|a0 agents']; [constructor|].
  specialize (G (seq 0 (length (a0 :: agents'))) ltac:(intros i Hi; apply in_seq in Hi; lia) a0).
  rewrite map_nth_seq in G. exact G.
Qed.
End AF.

(** ** The four kinds of agents *)
Lemma index_of_app c p t : ~ In c p -> index_of c (p ++ c :: t) = Some (length p).
Proof.
  induction p as [|x p IH]; intros H; cbn; [now rewrite Ascii.eqb_refl|].
  destruct (Ascii.eqb_spec x c) as [->|Hne]; [exfalso; apply H; cbn; auto|].
  rewrite IH; [reflexivity|]. intros Hin. apply H. cbn; auto.
Qed.
Lemma index_of_absent c p : ~ In c p -> index_of c p = None.
Proof.
  intros H. induction p as [|x p IH]; cbn; auto.
  destruct (Ascii.eqb_spec x c) as [->|Hne]; [exfalso; apply H; cbn; auto|].
  rewrite IH; [reflexivity|]. intros Hin. apply H. cbn; auto.
Qed.

Lemma skipn_app_len A (l1 l2 : list A) x : skipn (S (length l1)) (l1 ++ x :: l2) = l2.
Proof. induction l1; cbn; auto. Qed.
Lemma firstn_app_len A (l1 l2 : list A) : firstn (length l1) (l1 ++ l2) = l1.
Proof. induction l1; cbn; congruence. Qed.

Lemma in_spaces c k s : c <> space -> In c (repeat space k ++ s) -> In c s.
Proof. intros Hc H. apply in_app_or in H as [H|H]; auto. apply repeat_spec in H. congruence. Qed.

Section K.
Context {D : Type} (zero one : D) (fmt_d : D -> text) (stod : text -> res D).
Notation pr := (printable fmt_d stod).

Lemma simple_ok (x : simple_agent D) : pr (s_opinion x) ->
  ~ In newline (simple_to_string fmt_d x) /\ forall k, simple_from_string stod (repeat space k ++ simple_to_string fmt_d x) = Ok x.
Proof.
  intros (P1 & P2 & P3). split; auto. intros k. unfold simple_from_string, simple_to_string.
  specialize (P3 k [] (or_introl eq_refl)). rewrite app_nil_r in P3. rewrite P3. now destruct x.
Qed.

Lemma activity_ok (x : activity_agent D) : pr (a_opinion x) -> pr (a_activity x) -> pr (a_reluctance x) ->
  ~ In newline (activity_to_string fmt_d x) /\
  forall k, activity_from_string one stod (repeat space k ++ activity_to_string fmt_d x) = Ok x.
Proof.
  intros (P1 & P2 & P3) (Q1 & Q2 & Q3) (R1 & R2 & R3). split.
  - unfold activity_to_string. intros H.
    repeat (apply in_app_or in H as [H|H]; auto; [cbn in H; repeat (destruct H as [H|H]; [discriminate|]); destruct H|]); auto.
    all: try (apply in_app_or in H as [H|H]; auto).
    all: try (apply in_app_or in H as [H|H]; auto).
    all: cbn in H; repeat (destruct H as [H|H]; [discriminate|]); auto.
    all: try (apply in_app_or in H as [H|H]; auto).
    all: cbn in H; repeat (destruct H as [H|H]; [discriminate|]); auto.
  - intros k. destruct x as [o a r]. cbn [a_opinion a_activity a_reluctance] in *.
    set (e0 := repeat space k ++ fmt_d o). set (e1 := space :: fmt_d a). set (e2 := space :: fmt_d r).
    assert (ES : repeat space k ++ activity_to_string fmt_d (mkActivity o a r) = e0 ++ comma :: e1 ++ comma :: e2).
    { unfold activity_to_string, e0, e1, e2. cbn [a_opinion a_activity a_reluctance]. rewrite <- app_assoc. reflexivity. }
    rewrite ES.
    assert (N0 : ~ In comma e0) by (intros H; apply in_spaces in H; [auto|discriminate]).
    assert (N1 : ~ In comma e1) by (intros [H|H]; [discriminate|auto]).
    assert (N2 : ~ In comma e2) by (intros [H|H]; [discriminate|auto]).
    unfold activity_from_string.
    assert (F0 : find_char (e0 ++ comma :: e1 ++ comma :: e2) comma 0 = Some (length e0)).
    { unfold find_char. change (skipn 0 (e0 ++ comma :: e1 ++ comma :: e2)) with (e0 ++ comma :: e1 ++ comma :: e2).
      rewrite index_of_app by auto. reflexivity. }
    rewrite F0. cbn [npos_succ].
    assert (F1 : find_char (e0 ++ comma :: e1 ++ comma :: e2) comma (S (length e0)) = Some (S (length e0) + length e1)).
    { unfold find_char. rewrite skipn_app_len, index_of_app by auto. reflexivity. }
    rewrite F1.
    assert (LL : length (e0 ++ comma :: e1 ++ comma :: e2) = length e0 + S (length e1 + S (length e2))).
    { rewrite app_length. cbn [length]. rewrite app_length. reflexivity. }
    unfold substr. rewrite LL.
    repeat match goal with |- context[?a <? ?b] => destruct (Nat.ltb_spec a b); [lia|] end.
    cbn [bind].
    replace (firstn (length e0) (skipn 0 (e0 ++ comma :: e1 ++ comma :: e2))) with e0
      by (change (skipn 0 ?l) with l; now rewrite firstn_app_len).
    pose proof (P3 k [] (or_introl eq_refl)) as P. rewrite app_nil_r in P. fold e0 in P. rewrite P. cbn [bind].
    rewrite skipn_app_len.
    rewrite (firstn_app_le _ e1) by lia.
    assert (E1 : exists t, firstn (S (length e0) + length e1 - length e1) (comma :: e2) = comma :: t).
    { destruct (S (length e0) + length e1 - length e1) eqn:En; [lia|]. cbn [firstn]. eauto. }
    destruct E1 as (t & ->).
    pose proof (Q3 1 (comma :: t) (or_intror (ex_intro _ t eq_refl))) as Q. unfold e1. cbn [repeat app] in Q |- *. rewrite Q. cbn [bind].
    match goal with |- context[skipn ?n ?l] => assert (EK : skipn n l = e2) end.
    { match goal with |- skipn ?n ?l = _ => replace n with (S (length (e0 ++ comma :: e1)))
        by (rewrite app_length; unfold e1; cbn; lia);
        replace l with ((e0 ++ comma :: e1) ++ comma :: e2) by (rewrite <- app_assoc; reflexivity) end.
      apply skipn_app_len. }
    rewrite EK.
    rewrite firstn_all2 by (cbn; lia).
    pose proof (R3 1 [] (or_introl eq_refl)) as R. unfold e2. rewrite app_nil_r in R. cbn [repeat app] in R. rewrite R. reflexivity.
Qed.

Lemma inertial_ok (x : inertial_agent D) : pr (i_opinion x) -> pr (i_velocity x) -> pr (i_activity x) -> pr (i_reluctance x) ->
  ~ In newline (inertial_to_string fmt_d x) /\
  forall k, (Z.of_nat (k + length (inertial_to_string fmt_d x)) < 2147483648)%Z ->
    inertial_from_string zero one stod (repeat space k ++ inertial_to_string fmt_d x) = Ok x.
Proof.
  destruct x as [o a r v]. cbn [i_opinion i_velocity i_activity i_reluctance].
  intros (P1 & P2 & P3) (V1 & V2 & V3) (Q1 & Q2 & Q3) (R1 & R2 & R3).
  assert (ES : forall k, repeat space k ++ inertial_to_string fmt_d (mkInertial o a r v) =
     join comma [repeat space k ++ fmt_d o; space :: fmt_d v; space :: fmt_d a; space :: fmt_d r]).
  { intros k. unfold inertial_to_string. cbn [i_opinion i_velocity i_activity i_reluctance join].
    rewrite <- !app_assoc. reflexivity. }
  split.
  - change (inertial_to_string fmt_d (mkInertial o a r v)) with (repeat space 0 ++ inertial_to_string fmt_d (mkInertial o a r v)).
    rewrite ES. intros H. apply in_join in H as [H|(p & Hp & H)]; [discriminate|].
    cbn [In] in Hp. repeat (destruct Hp as [<-|Hp]; [cbn in H; repeat (destruct H as [H|H]; [discriminate|]); auto|]); auto.
  - intros k HL. unfold inertial_from_string. rewrite parse_eq.
    2: { rewrite app_length, repeat_length. exact HL. }
    rewrite ES, split_join.
    + pose proof (handed_prefix 0 [repeat space k ++ fmt_d o; space :: fmt_d v; space :: fmt_d a; space :: fmt_d r]) as F.
      remember (handed 0 _) as hs eqn:Ehs. clear Ehs.
      inversion F as [|? h0 ? l0 (t0 & H0 & T0) F0]; subst. inversion F0 as [|? h1 ? l1 (t1 & H1 & T1) F1]; subst.
      inversion F1 as [|? h2 ? l2 (t2 & H2 & T2) F2]; subst. inversion F2 as [|? h3 ? l3 (t3 & H3 & T3) F3]; subst.
      inversion F3; subst.
      cbn [each inertial_callback Nat.eqb]. rewrite <- (app_assoc (repeat space k)).
      rewrite (P3 k t0 T0). cbn [bind i_opinion i_velocity i_activity i_reluctance].
      change (space :: fmt_d v) with (repeat space 1 ++ fmt_d v). rewrite <- app_assoc, (V3 1 t1 T1).
      cbn [bind i_opinion i_velocity i_activity i_reluctance].
      change (space :: fmt_d a) with (repeat space 1 ++ fmt_d a). rewrite <- app_assoc, (Q3 1 t2 T2).
      cbn [bind i_opinion i_velocity i_activity i_reluctance].
      change (space :: fmt_d r) with (repeat space 1 ++ fmt_d r). rewrite <- app_assoc, (R3 1 t3 T3).
      reflexivity.
    + discriminate.
    + repeat constructor; try (intros [H|H]; [discriminate|auto]).
      intros H; apply in_spaces in H; [auto|discriminate].
Qed.
End K.

Definition int_ok (z : Z) : Prop := (-2147483648 <= z <= 2147483647)%Z.

Lemma vector_to_string_eq o0 os :
  vector_to_string (mkVector (o0 :: os)) = Ok (join comma (fmt_Z o0 :: map (fun o => space :: fmt_Z o) os)).
Proof.
  unfold vector_to_string. cbn [v_opinion].
  match goal with |- ?m = _ => assert (G : okp m (fun r => r = join comma (fmt_Z o0 :: map (fun o => space :: fmt_Z o) os))) end.
  { eapply okp_impl.
    - apply (for_from_inv _ (fun k r => r = join comma (fmt_Z o0 :: map (fun o => space :: fmt_Z o) (firstn (k - 1) os)))).
      + reflexivity.
      + intros k r Hk ->. cbn [length] in Hk. destruct (nth_error (o0 :: os) k) as [o|] eqn:Eo; [|apply nth_error_None in Eo; cbn in Eo; lia].
        unfold vget. rewrite Eo. cbn [bind okp]. destruct k as [|k]; [lia|]. cbn [nth_error] in Eo.
        replace (S k - 1) with k by lia. replace (S (S k) - 1) with (S k) by lia.
        rewrite (firstn_S_nth_error _ _ _ _ Eo), map_app, !join_cons, map_app, concat_app.
        cbn [map concat]. rewrite app_nil_r, <- !app_assoc. reflexivity.
    - intros r ->. cbn [length]. replace (1 + (S (length os) - 1) - 1) with (length os) by lia. now rewrite firstn_all. }
  apply okp_ex in G as (x & E & ->). exact E.
Qed.

Lemma vector_ok o0 os s : Forall int_ok (o0 :: os) -> vector_to_string (mkVector (o0 :: os)) = Ok s ->
  ~ In newline s /\
  forall k, (Z.of_nat (k + length s) < 2147483648)%Z -> vector_from_string (repeat space k ++ s) = Ok (mkVector (o0 :: os)).
Proof.
  intros FI E. rewrite vector_to_string_eq in E.
  assert (Es : s = join comma (fmt_Z o0 :: map (fun o => space :: fmt_Z o) os)) by congruence. clear E.
  split.
  - rewrite Es. intros H. apply in_join in H as [H|(p & Hp & H)]; [discriminate|].
    destruct Hp as [<-|Hp]; [apply fmt_Z_chars in H; tauto|].
    apply in_map_iff in Hp as (o & <- & _). destruct H as [H|H]; [discriminate|]. apply fmt_Z_chars in H; tauto.
  - intros k HL. unfold vector_from_string. rewrite parse_eq by (rewrite app_length, repeat_length; exact HL).
    assert (ES : repeat space k ++ s = join comma ((repeat space k ++ fmt_Z o0) :: map (fun o => space :: fmt_Z o) os)).
    { rewrite Es, !join_cons. now rewrite <- app_assoc. }
    rewrite ES, split_join; [|discriminate|].
    + pose proof (handed_prefix 0 ((repeat space k ++ fmt_Z o0) :: map (fun o => space :: fmt_Z o) os)) as F.
      remember (handed 0 _) as hs eqn:Ehs. clear Ehs ES Es HL.
      assert (G : forall l hs idx acc, Forall int_ok l ->
        Forall2 (fun o h => exists k t, h = repeat space k ++ fmt_Z o ++ t /\ (t = [] \/ exists t', t = comma :: t')) l hs ->
        each (fun _ sub st => v <- stoi sub ;; Ok (st ++ [v])) idx hs acc = Ok (acc ++ l)).
      { clear. intros l hs idx acc FI F. revert idx acc. induction F as [|o h l hs (k & t & -> & T) F IH]; intros idx acc.
        - cbn. now rewrite app_nil_r.
        - inversion FI; subst. cbn [each]. rewrite stoi_fmt; auto.
          + cbn [bind]. rewrite IH by auto. now rewrite <- app_assoc.
          + destruct T as [-> | (t' & ->)]; reflexivity. }
      rewrite (G (o0 :: os)); [reflexivity|auto|].
      inversion F as [|? h0 ? l0 (t0 & H0 & T0) F0]; subst. constructor.
      * exists k, t0. rewrite <- app_assoc. auto.
      * clear -F0. revert l0 F0. induction os as [|o os IH]; intros l0 F0; cbn [map] in F0; inversion F0 as [|? h ? l1 (t & Ht & T) F1]; subst; constructor.
        -- exists 1, t. auto.
        -- now apply IH.
    + constructor.
      * intros H; apply in_spaces in H; [|discriminate]. apply fmt_Z_chars in H; tauto.
      * apply Forall_forall. intros p Hp. apply in_map_iff in Hp as (o & <- & _).
        intros [H|H]; [discriminate|]. apply fmt_Z_chars in H; tauto.
Qed.
