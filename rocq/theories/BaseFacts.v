(** Lemmas about [Base]: vector access, loops. *)
From Verif Require Import Base.
From Coq Require Import Permutation.

Lemma bind_ok_inv A B (m : res A) (k : A -> res B) b :
  bind m k = Ok b -> exists a, m = Ok a /\ k a = Ok b.
Proof. destruct m; cbn; intros H; try discriminate. eauto. Qed.

Lemma okp_bind A B (m : res A) (k : A -> res B) P :
  okp (bind m k) P <-> okp m (fun a => okp (k a) P).
Proof. destruct m; cbn; tauto. Qed.

Lemma okp_impl A (m : res A) (P Q : A -> Prop) :
  okp m P -> (forall a, P a -> Q a) -> okp m Q.
Proof. destruct m; cbn; auto. Qed.

Lemma okp_ex A (m : res A) P : okp m P <-> exists a, m = Ok a /\ P a.
Proof.
  destruct m as [x|e|u|]; cbn; split; intros H; try tauto;
    try (destruct H as [y [E Hy]]; discriminate).
  - eauto.
  - destruct H as [y [E Hy]]. inversion E; subst; auto.
Qed.

Lemma okp_and A (m : res A) P Q : okp m P -> okp m Q -> okp m (fun a => P a /\ Q a).
Proof. destruct m; cbn; auto. Qed.

Lemma is_ok_ex A (m : res A) : is_ok m <-> exists a, m = Ok a.
Proof. unfold is_ok. rewrite okp_ex. split; intros [a H]; exists a; tauto. Qed.

Lemma vget_ok A (v : list A) i a : vget v i = Ok a <-> nth_error v i = Some a.
Proof. unfold vget. destruct (nth_error v i); split; congruence. Qed.

Lemma vget_lt A (v : list A) i d : i < length v -> vget v i = Ok (nth i v d).
Proof. intros H. apply vget_ok. now apply nth_error_nth'. Qed.

Lemma vget_ub A (v : list A) i : length v <= i -> vget v i = UB UbIndex.
Proof. intros H. unfold vget. now apply nth_error_None in H as ->. Qed.

Lemma vget_okp A (v : list A) i (P : A -> Prop) :
  i < length v -> (forall a, nth_error v i = Some a -> P a) -> okp (vget v i) P.
Proof.
  intros Hi HP. unfold vget. destruct (nth_error v i) eqn:E; cbn; auto.
  apply nth_error_None in E. lia.
Qed.

Lemma upd_length A (v : list A) i a : length (upd v i a) = length v.
Proof. revert i; induction v as [|h t IH]; intros [|i]; cbn; auto. Qed.

Lemma nth_error_upd A (v : list A) i j a :
  nth_error (upd v i a) j = if (i =? j) && (i <? length v) then Some a else nth_error v j.
Proof.
  revert i j; induction v as [|h t IH]; intros [|i] [|j]; cbn; auto.
  - destruct (i =? j); auto.
  - rewrite IH. reflexivity.
Qed.

Lemma nth_error_upd_eq A (v : list A) i a : i < length v -> nth_error (upd v i a) i = Some a.
Proof.
  intros H. rewrite nth_error_upd, Nat.eqb_refl. apply Nat.ltb_lt in H. now rewrite H.
Qed.

Lemma nth_error_upd_neq A (v : list A) i j a : i <> j -> nth_error (upd v i a) j = nth_error v j.
Proof. intros H. rewrite nth_error_upd. apply Nat.eqb_neq in H. now rewrite H. Qed.

Lemma nth_upd A (v : list A) i j a d :
  nth j (upd v i a) d = if (i =? j) && (i <? length v) then a else nth j v d.
Proof.
  revert i j; induction v as [|h t IH]; intros [|i] [|j]; cbn; auto.
  - destruct (i =? j); auto.
  - rewrite IH. reflexivity.
Qed.

Lemma nth_upd_eq A (v : list A) i a d : i < length v -> nth i (upd v i a) d = a.
Proof. intros H. rewrite nth_upd, Nat.eqb_refl. apply Nat.ltb_lt in H. now rewrite H. Qed.

Lemma nth_upd_neq A (v : list A) i j a d : i <> j -> nth j (upd v i a) d = nth j v d.
Proof. intros H. rewrite nth_upd. apply Nat.eqb_neq in H. now rewrite H. Qed.

Lemma upd_nth_same A (v : list A) i a : nth_error v i = Some a -> upd v i a = v.
Proof.
  revert i; induction v as [|h t IH]; intros [|i] H; cbn in *; try congruence.
  rewrite IH; auto.
Qed.

Lemma upd_app_l A (u v : list A) i a : i < length u -> upd (u ++ v) i a = upd u i a ++ v.
Proof.
  revert i; induction u as [|h t IH]; intros [|i] H; cbn in *; try lia; auto.
  rewrite IH; [auto|lia].
Qed.

Lemma upd_app_r A (u v : list A) i a : upd (u ++ v) (length u + i) a = u ++ upd v i a.
Proof. induction u; cbn; congruence. Qed.

Lemma upd_split A (v : list A) i a b :
  nth_error v i = Some b ->
  exists l r, v = l ++ b :: r /\ length l = i /\ upd v i a = l ++ a :: r.
Proof.
  intros H. destruct (nth_error_split v i H) as (l & r & -> & Hl).
  exists l, r. split; [auto|]. split; [auto|].
  replace i with (length l + 0) by lia. now rewrite upd_app_r.
Qed.

Lemma vset_ok A (v : list A) i a : i < length v -> vset v i a = Ok (upd v i a).
Proof. intros H. unfold vset. apply Nat.ltb_lt in H. now rewrite H. Qed.

Lemma vset_inv A (v : list A) i a v' : vset v i a = Ok v' -> i < length v /\ v' = upd v i a.
Proof.
  unfold vset. destruct (i <? length v) eqn:E; intros H; inversion H; subst.
  split; auto. now apply Nat.ltb_lt.
Qed.

Lemma vset_ub A (v : list A) i a : length v <= i -> vset v i a = UB UbIndex.
Proof. intros H. unfold vset. apply Nat.ltb_ge in H. now rewrite H. Qed.

(** Loop rule: an invariant indexed by the loop counter. *)
Lemma for_from_inv S (Inv : nat -> S -> Prop) body i n s :
  Inv i s ->
  (forall j s, i <= j < i + n -> Inv j s -> okp (body j s) (Inv (Datatypes.S j))) ->
  okp (for_from i n body s) (Inv (i + n)).
Proof.
  revert i s; induction n as [|n IH]; intros i s H0 Hstep; cbn [for_from].
  - cbn. now rewrite Nat.add_0_r.
  - apply okp_bind. eapply okp_impl.
    + apply Hstep; [lia|auto].
    + intros s' Hs'. replace (i + Datatypes.S n) with (Datatypes.S i + n) by lia.
      apply IH; auto. intros j t Hj. apply Hstep. lia.
Qed.

Lemma for_n_inv S (Inv : nat -> S -> Prop) body n s :
  Inv 0 s ->
  (forall j s, j < n -> Inv j s -> okp (body j s) (Inv (Datatypes.S j))) ->
  okp (for_n n body s) (Inv n).
Proof.
  intros H0 Hs. unfold for_n. change n with (0 + n) at 2. apply for_from_inv; auto.
  intros j t Hj. apply Hs. lia.
Qed.

Lemma for_from_app S body i n m (s : S) :
  for_from i (n + m) body s = (s' <- for_from i n body s ;; for_from (i + n) m body s').
Proof.
  revert i s; induction n as [|n IH]; intros i s; cbn [for_from Nat.add bind].
  - now rewrite Nat.add_0_r.
  - destruct (body i s); cbn [bind]; auto. rewrite IH.
    now replace (Datatypes.S i + n) with (i + Datatypes.S n) by lia.
Qed.

Lemma for_n_S S body n (s : S) :
  for_n (Datatypes.S n) body s = (s' <- for_n n body s ;; body n s').
Proof.
  unfold for_n. replace (Datatypes.S n) with (n + 1) by lia. rewrite for_from_app. cbn.
  destruct (for_from 0 n body s); cbn; auto. destruct (body n a); auto.
Qed.

Lemma for_from_ext S b1 b2 i n (s : S) :
  (forall j s, i <= j < i + n -> b1 j s = b2 j s) -> for_from i n b1 s = for_from i n b2 s.
Proof.
  revert i s; induction n as [|n IH]; intros i s H; cbn [for_from]; auto.
  rewrite H by lia. destruct (b2 i s); cbn; auto. apply IH. intros; apply H; lia.
Qed.

Lemma for_n_ext S b1 b2 n (s : S) :
  (forall j s, j < n -> b1 j s = b2 j s) -> for_n n b1 s = for_n n b2 s.
Proof. intros H. apply for_from_ext. intros; apply H; lia. Qed.

(** A loop that performs pure updates equals a fold. *)
Lemma for_from_pure S (f : nat -> S -> S) body i n s :
  (forall j s, i <= j < i + n -> body j s = Ok (f j s)) ->
  for_from i n body s = Ok (fold_left (fun s j => f j s) (seq i n) s).
Proof.
  revert i s; induction n as [|n IH]; intros i s H; cbn; auto.
  rewrite H by lia. cbn. apply IH. intros; apply H; lia.
Qed.

Lemma for_n_pure S (f : nat -> S -> S) body n s :
  (forall j s, j < n -> body j s = Ok (f j s)) ->
  for_n n body s = Ok (fold_left (fun s j => f j s) (seq 0 n) s).
Proof. intros H. apply for_from_pure. intros; apply H; lia. Qed.

Lemma for_each_inv X S (Inv : list X -> S -> Prop) body l s :
  Inv [] s ->
  (forall pre x suf s, l = pre ++ x :: suf -> Inv pre s -> okp (body x s) (Inv (pre ++ [x]))) ->
  okp (for_each l body s) (Inv l).
Proof.
  intros H0 Hs.
  enough (G : forall suf pre s, l = pre ++ suf -> Inv pre s -> okp (for_each suf body s) (Inv l))
    by (apply (G l []); auto).
  induction suf as [|x suf IH]; intros pre t E Ht; cbn [for_each].
  - cbn. rewrite app_nil_r in E. now subst.
  - apply okp_bind. eapply okp_impl.
    + eapply Hs; eauto.
    + intros t' Ht'. apply (IH (pre ++ [x])); auto. now rewrite <- app_assoc.
Qed.

Lemma for_each_pure X S (f : X -> S -> S) body l s :
  (forall x s, In x l -> body x s = Ok (f x s)) ->
  for_each l body s = Ok (fold_left (fun s x => f x s) l s).
Proof.
  revert s; induction l as [|x l IH]; intros s H; cbn; auto.
  rewrite H by (cbn; auto). cbn. apply IH. intros; apply H; cbn; auto.
Qed.

Lemma for_each_app X S body l1 l2 (s : S) :
  for_each (l1 ++ l2) body s = (s' <- for_each (X:=X) l1 body s ;; for_each l2 body s').
Proof.
  revert s; induction l1 as [|x l1 IH]; intros s; cbn; auto.
  destruct (body x s); cbn; auto.
Qed.

Lemma for_n_each S body n (s : S) : for_n n body s = for_each (seq 0 n) body s.
Proof.
  unfold for_n. generalize 0. revert s.
  induction n as [|n IH]; intros s i; cbn; auto.
  destruct (body i s); cbn; auto.
Qed.

(** Extensionality of lists through [nth_error]. *)
Lemma list_ext A (l1 l2 : list A) : (forall i, nth_error l1 i = nth_error l2 i) -> l1 = l2.
Proof.
  revert l2; induction l1 as [|a l1 IH]; intros [|b l2] H; auto.
  - specialize (H 0); discriminate.
  - specialize (H 0); discriminate.
  - f_equal.
    + specialize (H 0). cbn in H. congruence.
    + apply IH. intros i. apply (H (S i)).
Qed.

Lemma list_ext_nth A (l1 l2 : list A) d :
  length l1 = length l2 -> (forall i, i < length l1 -> nth i l1 d = nth i l2 d) -> l1 = l2.
Proof.
  intros HL H. apply list_ext. intros i.
  destruct (Nat.lt_ge_cases i (length l1)) as [Hi|Hi].
  - rewrite !(nth_error_nth' _ d) by lia. f_equal; auto.
  - rewrite !(proj2 (nth_error_None _ _)) by lia. auto.
Qed.

Lemma nth_error_seq i n k : nth_error (seq i n) k = if k <? n then Some (i + k) else None.
Proof.
  destruct (k <? n) eqn:E.
  - apply Nat.ltb_lt in E. rewrite (nth_error_nth' _ 0) by (rewrite seq_length; auto).
    now rewrite seq_nth.
  - apply Nat.ltb_ge in E. apply nth_error_None. now rewrite seq_length.
Qed.

Lemma nth_error_map A B (f : A -> B) l i : nth_error (map f l) i = option_map f (nth_error l i).
Proof. revert i; induction l; intros [|i]; cbn; auto. Qed.

Lemma nth_map_seq A (f : nat -> A) n i d : i < n -> nth i (map f (seq 0 n)) d = f i.
Proof.
  intros H. rewrite (nth_indep _ d (f 0)) by (rewrite map_length, seq_length; auto).
  rewrite map_nth. now rewrite seq_nth.
Qed.

Lemma nth_error_map_seq A (f : nat -> A) n i :
  nth_error (map f (seq 0 n)) i = if i <? n then Some (f i) else None.
Proof. rewrite nth_error_map, nth_error_seq. now destruct (i <? n). Qed.

Lemma map_nth_seq A (l : list A) d : map (fun i => nth i l d) (seq 0 (length l)) = l.
Proof.
  apply (list_ext_nth _ _ _ d).
  - now rewrite map_length, seq_length.
  - intros i Hi. rewrite map_length, seq_length in Hi.
    now rewrite (nth_map_seq _ (fun i => nth i l d)).
Qed.

Lemma resize_length A (d : A) v k : length (resize d v k) = k.
Proof. unfold resize. rewrite app_length, firstn_length, repeat_length. lia. Qed.

Lemma nth_error_combine A B (l : list A) (l' : list B) i :
  nth_error (combine l l') i =
  match nth_error l i, nth_error l' i with Some a, Some b => Some (a, b) | _, _ => None end.
Proof.
  revert l' i; induction l as [|a l IH]; intros [|b l'] [|i]; cbn; auto.
  - now destruct (nth_error l i).
Qed.

Lemma Forall_nth_error A (P : A -> Prop) l :
  Forall P l <-> forall i a, nth_error l i = Some a -> P a.
Proof.
  rewrite Forall_forall. split.
  - intros H i a E. apply H. eapply nth_error_In; eauto.
  - intros H a Ha. apply In_nth_error in Ha as [i Hi]. eauto.
Qed.

Lemma Forall_upd A (P : A -> Prop) l i a : Forall P l -> P a -> Forall P (upd l i a).
Proof.
  intros HF Ha. revert i; induction HF; intros [|i]; cbn; constructor; auto.
Qed.

Lemma Forall2_upd A B (R : A -> B -> Prop) l l' i a b :
  Forall2 R l l' -> R a b -> Forall2 R (upd l i a) (upd l' i b).
Proof.
  intros HF Ha. revert i; induction HF; intros [|i]; cbn; constructor; auto.
Qed.

Lemma fold_left_ext A B (f g : A -> B -> A) l a :
  (forall a b, In b l -> f a b = g a b) -> fold_left f l a = fold_left g l a.
Proof.
  revert a; induction l as [|b l IH]; intros a H; cbn; auto.
  rewrite H by (cbn; auto). apply IH. intros; apply H; cbn; auto.
Qed.

Lemma firstn_S_nth_error A (l : list A) i a :
  nth_error l i = Some a -> firstn (S i) l = firstn i l ++ [a].
Proof.
  revert i; induction l as [|x l IH]; intros [|i]; cbn; try discriminate.
  - now intros [= ->].
  - intros E. now rewrite <- (IH i) by auto.
Qed.

Lemma firstn_S_nth A (l : list A) i d :
  i < length l -> firstn (S i) l = firstn i l ++ [nth i l d].
Proof. intros H. apply firstn_S_nth_error. now apply nth_error_nth'. Qed.
