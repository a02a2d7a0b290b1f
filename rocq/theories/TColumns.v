(** Property theorem C69: agent files written by hand, with missing or additional columns. *)
From Verif Require Import Base BaseFacts MNetwork MText SText PText MNetFile PNetFile MAgents PAgents TFiles.

Section Columns.
Context {D : Type} (zero one : D) (fmt_d : D -> text) (stod : text -> res D).

(** The columns of a row: each number after some spaces, separated by commas. *)
Definition row (cols : list (nat * D)) : text := join comma (map (fun kx => repeat space (fst kx) ++ fmt_d (snd kx)) cols).
(** A line of the file: something in the first column (ignored), then the row. *)
Definition line (index : text) (cols : list (nat * D)) : text := index ++ comma :: row cols.
(** The value in column i, if there is one. *)
Definition column (cols : list (nat * D)) (i : nat) (default : D) : D := nth i (map snd cols) default.

Definition readable (cols : list (nat * D)) : Prop := cols <> [] /\ Forall (fun kx => printable fmt_d stod (snd kx)) cols.

Lemma col_commas k x : printable fmt_d stod x -> ~ In comma (repeat space k ++ fmt_d x).
Proof. intros (H & _) Hin. apply in_spaces in Hin; [auto|discriminate]. Qed.
Lemma row_newline cols : Forall (fun kx => printable fmt_d stod (snd kx)) cols -> ~ In newline (row cols).
Proof.
  intros F H. unfold row in H. apply in_join in H as [H|(p & Hp & H)]; [discriminate|].
  apply in_map_iff in Hp as ([k x] & <- & Hin). cbn [fst snd] in *. apply in_spaces in H; [|discriminate].
  rewrite Forall_forall in F. destruct (F _ Hin) as (_ & N & _). now apply N.
Qed.

Lemma inertial_row cols : readable cols -> short (row cols) ->
  inertial_from_string zero one stod (row cols) = Ok (mkInertial (column cols 0 zero) (column cols 2 zero) (column cols 3 one) (column cols 1 zero)).
Proof.
  intros [N F] Hs. unfold inertial_from_string. rewrite parse_eq by exact Hs. unfold row.
  rewrite split_join.
  2: { destruct cols; [congruence|discriminate]. }
  2: { clear -F. induction F as [|[k x] l H F IH]; cbn [map]; constructor; auto. now apply col_commas. }
  pose proof (handed_prefix 0 (map (fun kx => repeat space (fst kx) ++ fmt_d (snd kx)) cols)) as G.
  remember (handed 0 _) as hs eqn:E. clear E N Hs.
  assert (St : forall h k x, (exists t, h = (repeat space k ++ fmt_d x) ++ t /\ (t = [] \/ exists t', t = comma :: t')) -> printable fmt_d stod x -> stod h = Ok x).
  { intros h k x (t & -> & Ht) (_ & _ & P). rewrite <- app_assoc. now apply P. }
  assert (Rest : forall l hs i st, Forall (fun kx => printable fmt_d stod (snd kx)) l ->
    Forall2 (fun e h => exists t, h = e ++ t /\ (t = [] \/ exists t', t = comma :: t')) (map (fun kx => repeat space (fst kx) ++ fmt_d (snd kx)) l) hs ->
    each (inertial_callback stod) (S (S (S (S i)))) hs st = Ok st).
  { clear. induction l as [|[k x] l IH]; intros hs i st F G; cbn [map] in G; inversion G; subst; [reflexivity|].
    cbn [each inertial_callback Nat.eqb bind]. inversion F; subst. now apply IH. }
  unfold column.
  destruct cols as [|[k0 x0] cols]; cbn [map] in *; inversion G as [|? h0 ? l0 H0 G0]; subst; [reflexivity|]. inversion F as [|? ? P0 F0]; subst. cbn [fst snd] in *.
  cbn [each inertial_callback Nat.eqb]. rewrite (St _ _ _ H0 P0). cbn [bind i_opinion i_velocity i_activity i_reluctance]. clear G F.
  destruct cols as [|[k1 x1] cols]; cbn [map] in *; inversion G0 as [|? h1 ? l1 H1 G1]; subst; [reflexivity|]. inversion F0 as [|? ? P1 F1]; subst. cbn [fst snd] in *.
  cbn [each inertial_callback Nat.eqb]. rewrite (St _ _ _ H1 P1). cbn [bind i_opinion i_velocity i_activity i_reluctance]. clear G0 F0.
  destruct cols as [|[k2 x2] cols]; cbn [map] in *; inversion G1 as [|? h2 ? l2 H2 G2]; subst; [reflexivity|]. inversion F1 as [|? ? P2 F2]; subst. cbn [fst snd] in *.
  cbn [each inertial_callback Nat.eqb]. rewrite (St _ _ _ H2 P2). cbn [bind i_opinion i_velocity i_activity i_reluctance]. clear G1 F1.
  destruct cols as [|[k3 x3] cols]; cbn [map] in *; inversion G2 as [|? h3 ? l3 H3 G3]; subst; [reflexivity|]. inversion F2 as [|? ? P3 F3]; subst. cbn [fst snd] in *.
  cbn [each inertial_callback Nat.eqb]. rewrite (St _ _ _ H3 P3). cbn [bind i_opinion i_velocity i_activity i_reluctance nth].
  rewrite (Rest cols l3 0 _ F3 G3). reflexivity.
Qed.

Lemma substr_head (e t : text) : substr (e ++ t) 0 (Some (length e)) = Ok e.
Proof. unfold substr. destruct (Nat.ltb_spec (length (e ++ t)) 0); [lia|]. change (skipn 0 (e ++ t)) with (e ++ t). now rewrite firstn_app_len. Qed.
Lemma substr_tail (e t : text) k : length t <= k -> substr (e ++ comma :: t) (S (length e)) (Some k) = Ok t.
Proof.
  intros Hk. unfold substr. destruct (Nat.ltb_spec (length (e ++ comma :: t)) (S (length e))) as [H|_]; [rewrite app_length in H; cbn in H; lia|].
  rewrite skipn_app_len. now rewrite firstn_all2.
Qed.
Lemma activity_row cols : readable cols ->
  activity_from_string one stod (row cols) = Ok (mkActivity (column cols 0 zero) (column cols 1 (column cols 0 zero)) (column cols 2 one)).
Proof.
  intros [N F]. destruct cols as [|[k0 x0] cols]; [congruence|]. inversion F as [|? ? P0 F0]; subst. cbn [fst snd] in *. clear N F.
  assert (St : forall k x, printable fmt_d stod x -> stod (repeat space k ++ fmt_d x) = Ok x).
  { intros k x (_ & _ & P). specialize (P k [] (or_introl eq_refl)). now rewrite app_nil_r in P. }
  assert (St' : forall k x t, printable fmt_d stod x -> stod ((repeat space k ++ fmt_d x) ++ comma :: t) = Ok x).
  { intros k x t (_ & _ & P). rewrite <- app_assoc. apply P. right. eauto. }
  pose proof (col_commas k0 x0 P0) as N0. specialize (St k0 x0 P0) as S0.
  unfold column. cbn [map snd nth]. unfold row. cbn [map fst snd]. set (e0 := repeat space k0 ++ fmt_d x0) in *.
  destruct cols as [|[k1 x1] cols].
  - cbn [map join nth]. unfold activity_from_string, find_char. change (skipn 0 e0) with e0. rewrite (index_of_absent _ _ N0). cbn [option_map npos_succ].
    change (skipn 0 e0) with e0. rewrite (index_of_absent _ _ N0). cbn [option_map]. unfold substr.
    destruct (Nat.ltb_spec (length e0) 0); [lia|]. change (skipn 0 e0) with e0. rewrite ?firstn_all. cbn [bind].
    rewrite S0. reflexivity.
  - inversion F0 as [|? ? P1 F1]; subst. cbn [fst snd] in *. clear F0. pose proof (col_commas k1 x1 P1) as N1. specialize (St k1 x1 P1) as S1.
    specialize (fun t => St' k1 x1 t P1) as S1'. cbn [map fst snd nth]. set (e1 := repeat space k1 ++ fmt_d x1) in *.
    destruct cols as [|[k2 x2] cols].
    + cbn [map join nth]. unfold activity_from_string.
      assert (F0 : find_char (e0 ++ comma :: e1) comma 0 = Some (length e0)).
      { unfold find_char. change (skipn 0 ?l) with l. rewrite index_of_app by auto. reflexivity. }
      rewrite F0. cbn [npos_succ].
      assert (F1' : find_char (e0 ++ comma :: e1) comma (S (length e0)) = None).
      { unfold find_char. rewrite skipn_app_len, index_of_absent by auto. reflexivity. }
      rewrite F1', substr_head. cbn [bind]. rewrite S0. cbn [bind]. rewrite substr_tail by (rewrite app_length; cbn; lia). cbn [bind].
      rewrite S1. reflexivity.
    + inversion F1 as [|? ? P2 F2]; subst. cbn [fst snd] in *. clear F1.
      cbn [map fst snd nth]. set (rest := map (fun kx => repeat space (fst kx) ++ fmt_d (snd kx)) cols).
      change (join comma (e0 :: e1 :: (repeat space k2 ++ fmt_d x2) :: rest)) with (e0 ++ comma :: e1 ++ comma :: join comma ((repeat space k2 ++ fmt_d x2) :: rest)).
      assert (S2 : stod (join comma ((repeat space k2 ++ fmt_d x2) :: rest)) = Ok x2).
      { destruct rest as [|e3 rest]; [apply St; auto|]. change (join comma ((repeat space k2 ++ fmt_d x2) :: e3 :: rest)) with ((repeat space k2 ++ fmt_d x2) ++ comma :: join comma (e3 :: rest)).
        now apply St'. }
      set (e2 := join comma ((repeat space k2 ++ fmt_d x2) :: rest)) in *. clearbody e2.
      unfold activity_from_string.
      assert (F0 : find_char (e0 ++ comma :: e1 ++ comma :: e2) comma 0 = Some (length e0)).
      { unfold find_char. change (skipn 0 ?l) with l. rewrite index_of_app by auto. reflexivity. }
      rewrite F0. cbn [npos_succ].
      assert (F1' : find_char (e0 ++ comma :: e1 ++ comma :: e2) comma (S (length e0)) = Some (S (length e0) + length e1)).
      { unfold find_char. rewrite skipn_app_len, index_of_app by auto. reflexivity. }
      rewrite F1', substr_head. cbn [bind]. rewrite S0. cbn [bind].
      assert (Es : exists t, substr (e0 ++ comma :: e1 ++ comma :: e2) (S (length e0)) (Some (S (length e0) + length e1)) = Ok (e1 ++ comma :: t)).
      { unfold substr. destruct (Nat.ltb_spec (length (e0 ++ comma :: e1 ++ comma :: e2)) (S (length e0))) as [H|_]; [rewrite app_length in H; cbn in H; lia|].
        rewrite skipn_app_len, (firstn_app_le _ e1) by lia. replace (S (length e0) + length e1 - length e1) with (S (length e0)) by lia.
        cbn [firstn]. eauto. }
      destruct Es as (t & ->). cbn [bind]. rewrite S1'. cbn [bind].
      replace (S (S (length e0) + length e1)) with (S (length (e0 ++ comma :: e1))) by (rewrite app_length; cbn; lia).
      replace (e0 ++ comma :: e1 ++ comma :: e2) with ((e0 ++ comma :: e1) ++ comma :: e2) by (rewrite <- app_assoc; reflexivity).
      rewrite substr_tail by (rewrite app_length; cbn; lia). cbn [bind]. rewrite S2. reflexivity.
Qed.

Lemma after_line index cols : ~ In comma index -> after_first_comma (line index cols) = row cols.
Proof. intros H. unfold after_first_comma, line. rewrite split_on_app by auto.
  assert (G : forall t, split_on comma t <> []).
  { intros t. destruct t; cbn; [discriminate|]. destruct (Ascii.eqb a comma); [discriminate|]. destruct (split_on comma t); discriminate. }
  pose proof (join_split comma (row cols)) as J. destruct (split_on comma (row cols)) eqn:E; [now contradiction (G (row cols))|]. exact J.
Qed.
End Columns.

Lemma lines_file D (fmt_d : D -> text) (stod : text -> res D) X (from_string : text -> res X) (read : list (nat * D) -> X)
    (rows : list (text * list (nat * D))) :
  rows <> [] ->
  Forall (fun r => ~ In comma (fst r) /\ ~ In newline (fst r) /\ hd_error (fst r) <> Some hash /\
                   readable fmt_d stod (snd r) /\ from_string (row fmt_d (snd r)) = Ok (read (snd r))) rows ->
  agents_from_file from_string (join newline (map (fun r => line fmt_d (fst r) (snd r)) rows)) = Ok (map (fun r => read (snd r)) rows).
Proof.
  intros Hne F. rewrite agents_from_file_eq. unfold data_lines. rewrite split_join.
  - assert (Ed : filter (fun l => negb (is_comment l)) (before_empty (map (fun r => line fmt_d (fst r) (snd r)) rows)) = map (fun r => line fmt_d (fst r) (snd r)) rows).
    { clear Hne. induction F as [|[i c] rows (H1 & H2 & H3 & H4 & H5) F IH]; [reflexivity|]. cbn [map fst snd] in *.
      destruct i as [|y i]; cbn [line app before_empty filter is_comment].
      - cbn [negb]. replace (Ascii.eqb comma hash) with false by reflexivity. cbn [negb]. f_equal. exact IH.
      - cbn [hd_error] in H3. destruct (Ascii.eqb_spec y hash) as [->|Hne]; [congruence|]. cbn [negb]. f_equal. exact IH. }
    rewrite Ed. apply mapM_ok. clear Hne Ed. induction F as [|[i c] rows (H1 & H2 & H3 & H4 & H5) F IH]; cbn [map]; constructor; auto.
    cbn [fst snd] in *. now rewrite (after_line fmt_d).
  - destruct rows; [congruence|discriminate].
  - clear Hne. induction F as [|[i c] rows (H1 & H2 & H3 & (H4 & H4') & H5) F IH]; cbn [map]; constructor; auto.
    cbn [fst snd] in *. unfold line. intros H. apply in_app_or in H as [H|[H|H]]; auto; [discriminate|].
    now apply (row_newline fmt_d stod) in H.
Qed.

(** C69. Activity-driven agents: without a third number the reluctance is 1, further numbers are ignored.
    (A single number is taken both for the opinion and for the activity.) *)
Theorem C69_activity_columns D (zero one : D) (fmt_d : D -> text) (stod : text -> res D) (rows : list (text * list (nat * D))) :
  rows <> [] ->
  Forall (fun r => ~ In comma (fst r) /\ ~ In newline (fst r) /\ hd_error (fst r) <> Some hash /\ readable fmt_d stod (snd r)) rows ->
  agents_from_file (activity_from_string one stod) (join newline (map (fun r => line fmt_d (fst r) (snd r)) rows)) =
  Ok (map (fun r => mkActivity (column (snd r) 0 zero) (column (snd r) 1 (column (snd r) 0 zero)) (column (snd r) 2 one)) rows).
Proof.
  intros H F. apply (lines_file D fmt_d stod _ _ (fun c => mkActivity (column c 0 zero) (column c 1 (column c 0 zero)) (column c 2 one)) rows H).
  eapply Forall_impl; [|exact F]. intros r (H1 & H2 & H3 & H4). repeat (split; [assumption|]). now apply activity_row.
Qed.

(** Inertial agents: the missing velocity and activity are 0, the missing reluctance is 1, further numbers are ignored. *)
Theorem C69_inertial_columns D (zero one : D) (fmt_d : D -> text) (stod : text -> res D) (rows : list (text * list (nat * D))) :
  rows <> [] ->
  Forall (fun r => ~ In comma (fst r) /\ ~ In newline (fst r) /\ hd_error (fst r) <> Some hash /\ readable fmt_d stod (snd r) /\
                   short (row fmt_d (snd r))) rows ->
  agents_from_file (inertial_from_string zero one stod) (join newline (map (fun r => line fmt_d (fst r) (snd r)) rows)) =
  Ok (map (fun r => mkInertial (column (snd r) 0 zero) (column (snd r) 2 zero) (column (snd r) 3 one) (column (snd r) 1 zero)) rows).
Proof.
  intros H F. apply (lines_file D fmt_d stod _ _ (fun c => mkInertial (column c 0 zero) (column c 2 zero) (column c 3 one) (column c 1 zero)) rows H).
  eapply Forall_impl; [|exact F]. intros r (H1 & H2 & H3 & H4 & H5). repeat (split; [assumption|]). now apply inertial_row.
Qed.

(** Simple agents: further numbers are ignored. *)
Theorem C69_simple_columns D (zero : D) (fmt_d : D -> text) (stod : text -> res D) (rows : list (text * list (nat * D))) :
  rows <> [] ->
  Forall (fun r => ~ In comma (fst r) /\ ~ In newline (fst r) /\ hd_error (fst r) <> Some hash /\ readable fmt_d stod (snd r)) rows ->
  agents_from_file (simple_from_string stod) (join newline (map (fun r => line fmt_d (fst r) (snd r)) rows)) =
  Ok (map (fun r => mkSimple (column (snd r) 0 zero)) rows).
Proof.
  intros H F. apply (lines_file D fmt_d stod _ _ (fun c => mkSimple (column c 0 zero)) rows H).
  eapply Forall_impl; [|exact F]. intros r (H1 & H2 & H3 & H4). repeat (split; [assumption|]).
  destruct H4 as [N G]. destruct (snd r) as [|[k x] cols]; [congruence|]. inversion G as [|? ? (_ & _ & P) G']; subst. cbn [snd fst] in P.
  unfold simple_from_string, column, row. cbn [map fst snd nth].
  destruct (map (fun kx : nat * D => repeat space (fst kx) ++ fmt_d (snd kx)) cols) as [|e es].
  - cbn [join]. specialize (P k [] (or_introl eq_refl)). rewrite app_nil_r in P. now rewrite P.
  - change (join comma ((repeat space k ++ fmt_d x) :: e :: es)) with ((repeat space k ++ fmt_d x) ++ comma :: join comma (e :: es)).
    rewrite <- app_assoc, P; [reflexivity|]. right. eauto.
Qed.

Example C69_instance :
  agents_from_file (activity_from_string 1%Z stoi) (lit "0, 3, 4") = Ok [mkActivity 3 4 1]%Z /\
  join newline (map (fun r => line fmt_Z (fst r) (snd r)) [(lit "0", [(1, 3%Z); (1, 4%Z)])]) = lit "0, 3, 4" /\
  agents_from_file (inertial_from_string 0%Z 1%Z stoi) (lit "0, 3, 4, 5, 6, 7" ++ newline :: lit "1, 8") = Ok [mkInertial 3 5 6 4; mkInertial 8 0 1 0]%Z /\
  agents_from_file (activity_from_string 1%Z stoi) (lit "0, 7") = Ok [mkActivity 7 7 1]%Z /\
  Forall (fun r => ~ In comma (fst r) /\ ~ In newline (fst r) /\ hd_error (fst r) <> Some hash /\ readable fmt_Z stoi (snd r)) [(lit "0", [(1, 3%Z); (1, 4%Z)])].
Proof.
  repeat (split; [vm_compute; reflexivity|]). constructor; [|constructor]. cbn [fst snd].
  split; [intros [H|[]]; discriminate|]. split; [intros [H|[]]; discriminate|]. split; [discriminate|]. split; [discriminate|].
  repeat constructor; cbn [snd]; try (apply int_printable; unfold int_ok; lia).
Qed.
Print Assumptions C69_activity_columns.
Print Assumptions C69_inertial_columns.
Print Assumptions C69_simple_columns.
