(** Lemmas about text. *)
From Verif Require Import Base BaseFacts MNetwork PNetwork2 MText SText.

Lemma index_of_none c s : index_of c s = None -> ~ In c s.
Proof.
  induction s as [|x t IH]; cbn; auto. destruct (Ascii.eqb_spec x c) as [->|Hne]; [discriminate|].
  destruct (index_of c t); [discriminate|]. intros _ [H|H]; [congruence|]. now apply IH.
Qed.

Lemma index_of_some c s i : index_of c s = Some i ->
  s = firstn i s ++ c :: skipn (S i) s /\ ~ In c (firstn i s) /\ i < length s.
Proof.
  revert i. induction s as [|x t IH]; intros i; cbn [index_of]; [discriminate|].
  destruct (Ascii.eqb_spec x c) as [->|Hne].
  - intros E; inversion E; subst. cbn. repeat split; auto; lia.
  - destruct (index_of c t) as [j|]; [|discriminate]. intros E; inversion E; subst.
    destruct (IH j eq_refl) as (H1 & H2 & H3). cbn [firstn skipn app length]. split; [|split].
    + now rewrite H1 at 1.
    + intros [H|H]; [congruence|now apply H2].
    + lia.
Qed.

Lemma split_on_nonempty c s : split_on c s <> [].
Proof. destruct s as [|x t]; cbn; [discriminate|]. destruct (Ascii.eqb x c); [discriminate|]. destruct (split_on c t); discriminate. Qed.

Lemma split_on_none c s : ~ In c s -> split_on c s = [s].
Proof.
  induction s as [|x t IH]; cbn; auto. intros H. destruct (Ascii.eqb_spec x c) as [->|Hne].
  - exfalso; auto. - rewrite IH; auto.
Qed.

Lemma split_on_app c p t : ~ In c p -> split_on c (p ++ c :: t) = p :: split_on c t.
Proof.
  induction p as [|x p IH]; cbn [app split_on]; intros H.
  - now rewrite Ascii.eqb_refl.
  - destruct (Ascii.eqb_spec x c) as [->|Hne]; [exfalso; apply H; cbn; auto|].
    rewrite IH; auto. intros Hin. apply H. cbn; auto.
Qed.

Lemma skipn_add A (l : list A) i j : skipn i (skipn j l) = skipn (j + i) l.
Proof. revert j. induction l as [|x l IH]; intros [|j]; cbn; auto. now rewrite skipn_nil. Qed.

(** One step of a separator-driven scan. *)
Lemma scan_step s c pos : pos <= length s ->
  match find_char s c pos with
  | None => split_on c (skipn pos s) = [skipn pos s] /\
            substr s pos (npos_sub (find_char s c pos) pos) = Ok (skipn pos s)
  | Some e => pos <= e < length s /\
      split_on c (skipn pos s) = firstn (e - pos) (skipn pos s) :: split_on c (skipn (S e) s) /\
      substr s pos (npos_sub (find_char s c pos) pos) = Ok (firstn (e - pos) (skipn pos s)) /\
      skipn pos s = firstn (e - pos) (skipn pos s) ++ c :: skipn (S e) s
  end.
Proof.
  intros Hp. unfold find_char, substr. destruct (Nat.ltb_spec (length s) pos); [lia|].
  destruct (index_of c (skipn pos s)) as [i|] eqn:E; cbn [option_map npos_sub].
  - apply index_of_some in E as (H1 & H2 & H3). rewrite skipn_length in H3.
    replace (pos + i - pos) with i by lia. rewrite skipn_add in H1.
    replace (pos + S i) with (S (pos + i)) in H1 by lia. split; [lia|]. split; [|auto].
    rewrite H1 at 1. now apply split_on_app.
  - apply index_of_none in E. split; auto. now apply split_on_none.
Qed.

Lemma join_split c s : join c (split_on c s) = s.
Proof.
  induction s as [|x t IH]; [reflexivity|]. cbn [split_on]. destruct (Ascii.eqb_spec x c) as [->|Hne].
  - pose proof (split_on_nonempty c t). destruct (split_on c t) as [|p r] eqn:E; [congruence|].
    cbn [join app]. cbn [join] in IH. now rewrite IH.
  - destruct (split_on c t) as [|p r] eqn:E; [now apply split_on_nonempty in E|].
    destruct r; cbn [join app] in *; now rewrite IH.
Qed.

Lemma split_join c ps : ps <> [] -> Forall (fun p => ~ In c p) ps -> split_on c (join c ps) = ps.
Proof.
  intros Hne H. induction H as [|p ps Hp HF IH]; [congruence|].
  destruct ps as [|q ps]; cbn [join].
  - now apply split_on_none.
  - rewrite split_on_app by auto. f_equal. apply IH. discriminate.
Qed.

Lemma mapM_app X Y (f : X -> res Y) l1 l2 :
  mapM f (l1 ++ l2) = (a <- mapM f l1 ;; b <- mapM f l2 ;; Ok (a ++ b)).
Proof.
  induction l1 as [|x l IH]; cbn.
  - destruct (mapM f l2); auto.
  - destruct (f x); cbn; auto. rewrite IH. destruct (mapM f l); cbn; auto. destruct (mapM f l2); auto.
Qed.

Lemma mapM_ok X Y (f : X -> res Y) l ys : Forall2 (fun x y => f x = Ok y) l ys -> mapM f l = Ok ys.
Proof. induction 1 as [|x y l ys H _ IH]; cbn; auto. now rewrite H, IH. Qed.

(** ** Numbers *)
Lemma digit_char_digit n : (n < 10)%N -> is_digit (digit_char n) = true /\ digit_val (digit_char n) = Z.of_N n.
Proof.
  intros H. unfold is_digit, digit_val, digit_char.
  assert (E : nat_of_ascii (ascii_of_N (48 + n)) = 48 + N.to_nat n).
  { unfold nat_of_ascii. rewrite N_ascii_embedding by lia. lia. }
  rewrite E. split.
  - apply andb_true_intro. split; apply Nat.leb_le; lia.
  - lia.
Qed.

Lemma read_digits_app s t acc : Forall (fun c => is_digit c = true) s ->
  starts_with_digit t = false -> read_digits (s ++ t) acc = read_digits s acc.
Proof.
  intros H Ht. revert acc. induction H as [|c s Hc _ IH]; intros acc; cbn.
  - destruct t as [|c t]; cbn in *; auto. now rewrite Ht.
  - rewrite Hc. apply IH.
Qed.

Lemma read_digits_snoc s c acc : Forall (fun c => is_digit c = true) s -> is_digit c = true ->
  read_digits (s ++ [c]) acc = (10 * read_digits s acc + digit_val c)%Z.
Proof.
  intros H Hc. revert acc. induction H as [|x s Hx _ IH]; intros acc; cbn.
  - now rewrite Hc. - rewrite Hx. apply IH.
Qed.

Lemma dec_ok fuel n : N.to_nat (N.log2 n) < fuel ->
  Forall (fun c => is_digit c = true) (dec fuel n) /\ dec fuel n <> [] /\ read_digits (dec fuel n) 0 = Z.of_N n.
Proof.
  revert n. induction fuel as [|fuel IH]; intros n H; [lia|]. cbn [dec].
  destruct (N.ltb_spec n 10) as [Hn|Hn].
  - destruct (digit_char_digit n Hn) as [D1 D2]. split; [auto|]. split; [discriminate|].
    cbn. rewrite D1, D2. reflexivity.
  - destruct (IH (n / 10)%N) as (I1 & I2 & I3).
    { assert (N.log2 (n / 10) < N.log2 n)%N; [|lia].
      apply N.log2_lt_pow2; [apply N.div_str_pos; lia|].
      apply N.div_lt_upper_bound; [lia|].
      pose proof (N.log2_spec n ltac:(lia)) as [_ LS].
      rewrite N.pow_succ_r in LS by lia.
      assert (1 <= 2 ^ N.log2 n)%N by (apply N.lt_pred_le; apply N.neq_0_lt_0, N.pow_nonzero; lia). lia. }
    destruct (digit_char_digit (n mod 10)) as [D1 D2]; [apply N.mod_lt; lia|].
    split; [apply Forall_app; auto|]. split; [destruct (dec fuel (n / 10)); discriminate|].
    rewrite read_digits_snoc by auto. rewrite I3, D2.
    rewrite (N.div_mod n 10) at 3 by lia. lia.
Qed.

Lemma fmt_N_ok n : Forall (fun c => is_digit c = true) (fmt_N n) /\ fmt_N n <> [] /\ read_digits (fmt_N n) 0 = Z.of_N n.
Proof. apply dec_ok. lia. Qed.

Lemma digit_not c : is_digit c = true -> is_space c = false /\ c <> "-"%char /\ c <> "+"%char /\ c <> comma /\ c <> newline /\ c <> hash /\ c <> space.
Proof.
  unfold is_digit, is_space. intros H. apply andb_true_iff in H as [H1 H2].
  apply Nat.leb_le in H1, H2. repeat split; try (intros ->; cbn in *; lia).
  apply orb_false_intro; [apply Nat.eqb_neq; lia|]. apply andb_false_intro2, Nat.leb_gt. lia.
Qed.

Lemma skip_spaces_repeat k s : skip_spaces (repeat space k ++ s) = skip_spaces s.
Proof. induction k as [|k IH]; cbn; auto. Qed.

Lemma stoi_fmt k z rest : (-2147483648 <= z <= 2147483647)%Z -> starts_with_digit rest = false ->
  stoi (repeat space k ++ fmt_Z z ++ rest) = Ok z.
Proof.
  intros Hz Hr. unfold stoi. rewrite skip_spaces_repeat.
  assert (R : ((-2147483648 <=? z) && (z <=? 2147483647))%Z = true)
    by (apply andb_true_intro; split; apply Z.leb_le; lia).
  unfold fmt_Z. destruct (Z.ltb_spec z 0) as [Hneg|Hpos].
  - destruct (fmt_N_ok (Z.to_N (- z))) as (F1 & F2 & F3). cbn [app skip_spaces is_space nat_of_ascii].
    change (is_space "-"%char) with false. cbn iota. rewrite Ascii.eqb_refl. cbn iota beta zeta.
    destruct (fmt_N (Z.to_N (- z))) as [|c t] eqn:E; [congruence|]. cbn [app starts_with_digit].
    inversion F1 as [|? ? Fc Ft]; subst. rewrite Fc. cbn iota.
    change (c :: t ++ rest) with ((c :: t) ++ rest). rewrite read_digits_app by auto. rewrite F3.
    rewrite Z2N.id by lia. rewrite Z.opp_involutive, R. reflexivity.
  - destruct (fmt_N_ok (Z.to_N z)) as (F1 & F2 & F3).
    destruct (fmt_N (Z.to_N z)) as [|c t] eqn:E; [congruence|]. inversion F1 as [|? ? Fc Ft]; subst.
    destruct (digit_not c Fc) as (N1 & N2 & N3 & _). cbn [app skip_spaces]. rewrite N1.
    destruct (Ascii.eqb_spec c "-"%char); [congruence|]. destruct (Ascii.eqb_spec c "+"%char); [congruence|].
    cbn iota beta zeta. cbn [starts_with_digit]. rewrite Fc. cbn iota.
    change (c :: t ++ rest) with ((c :: t) ++ rest). rewrite read_digits_app by auto. rewrite F3.
    rewrite Z2N.id by lia. rewrite R. reflexivity.
Qed.

Lemma fmt_nat_Z n : fmt_nat n = fmt_Z (Z.of_nat n).
Proof. unfold fmt_nat, fmt_Z. destruct (Z.ltb_spec (Z.of_nat n) 0); [lia|]. f_equal. lia. Qed.

Lemma fmt_Z_chars z c : In c (fmt_Z z) -> c <> comma /\ c <> newline /\ c <> hash /\ c <> space.
Proof.
  assert (D : forall n, In c (fmt_N n) -> c <> comma /\ c <> newline /\ c <> hash /\ c <> space).
  { intros n H. destruct (fmt_N_ok n) as (F1 & _). rewrite Forall_forall in F1. apply F1 in H.
    apply digit_not in H. tauto. }
  unfold fmt_Z. destruct (z <? 0)%Z; [|apply D]. intros [<-|H]; [|now apply D in H].
  repeat split; discriminate.
Qed.

Lemma in_pad w s c : In c (pad w s) -> c = space \/ In c s.
Proof. unfold pad. intros H. apply in_app_or in H as [H|H]; auto. apply repeat_spec in H. auto. Qed.
