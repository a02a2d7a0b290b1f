(** The law of the contact network and the numbering of the agents: product laws and coins under renumbering. *)
From Verif Require Import Base BaseFacts Arith64 MNetwork SNetwork MAgents MRandom MActivity SActivity SProb SProb2 PProb9 SLaw PLaw PLaw2 PVote SEquiv TEquiv PRelabel SNetNumber.
From Coq Require Import Permutation Reals Lra FunctionalExtensionality.
Local Open Scope R_scope.

(** ** Product laws over a set of keys *)
Section Keys.
Context {X : Type} (d : X).
Definition put (h : nat -> X) (k : nat) (x : X) : nat -> X := fun i => if (i =? k)%nat then x else h i.
Fixpoint over_keys (R : nat -> list (X * R)) (ks : list nat) (F : (nat -> X) -> Rdefinitions.R) : Rdefinitions.R :=
  match ks with
  | [] => F (fun _ => d)
  | k :: t => total (fun xp => snd xp * over_keys R t (fun h => F (put h k (fst xp)))) (R k)
  end.
Lemma over_keys_ext (Q : nat -> list (X * R)) ks : forall F G, (forall h, F h = G h) -> over_keys Q ks F = over_keys Q ks G.
Proof using. induction ks as [|k ks IH]; intros F G H; cbn [over_keys]; auto. apply total_ext. intros xp _. f_equal. apply IH. intros h. apply H. Qed.
Lemma put_put h k k' x x' : k <> k' -> put (put h k x) k' x' = put (put h k' x') k x.
Proof using. intros Hne. apply functional_extensionality. intros i. unfold put. destruct (Nat.eqb_spec i k'), (Nat.eqb_spec i k); auto; congruence. Qed.
Lemma over_rows_keys (Q : nat -> list (X * R)) ks : NoDup ks -> forall f, over_rows (map Q ks) f = over_keys Q ks (fun h => f (map h ks)).
Proof using.
  induction ks as [|k ks IH]; intros HN f; cbn [map over_rows over_keys]; auto. apply NoDup_cons_iff in HN as (Hk & HN).
  apply total_ext. intros xp _. f_equal. rewrite IH by auto. apply over_keys_ext. intros h. f_equal. f_equal.
  - unfold put. now rewrite Nat.eqb_refl.
  - apply map_ext_in. intros i Hi. unfold put. destruct (Nat.eqb_spec i k) as [->|]; [contradiction|reflexivity].
Qed.
Lemma total_scale {Y} (f : Y -> R) c l : c * total f l = total (fun y => c * f y) l.
Proof using. unfold total. induction l as [|y l IH]; cbn [fold_right]; [ring|]. rewrite <- IH. ring. Qed.
Lemma over_keys_perm (Q : nat -> list (X * R)) ks ks' : Permutation ks ks' -> NoDup ks -> forall F, over_keys Q ks F = over_keys Q ks' F.
Proof using.
  induction 1 as [|k l l' P IH|x y l|l l' l'' P1 IH1 P2 IH2]; intros HN F; auto.
  - cbn [over_keys]. apply NoDup_cons_iff in HN as (_ & HN). apply total_ext. intros xp _. f_equal. now apply IH.
  - cbn [over_keys]. apply NoDup_cons_iff in HN as (Hy & _).
    transitivity (total (fun xp => total (fun xp0 => snd xp * (snd xp0 * over_keys Q l (fun h => F (put (put h x (fst xp0)) y (fst xp))))) (Q x)) (Q y)).
    { apply total_ext. intros xp _. apply total_scale. }
    rewrite total_swap. apply total_ext. intros xp0 _. rewrite total_scale. apply total_ext. intros xp _.
    rewrite <- !Rmult_assoc, (Rmult_comm (snd xp)). f_equal. apply over_keys_ext. intros h. rewrite put_put; auto. intros ->. apply Hy. now left.
  - rewrite IH1 by auto. apply IH2. eapply Permutation_NoDup; eauto.
Qed.

(** Other names for the keys. *)
Context (sg tau : nat -> nat).
Hypothesis Htau : forall i, tau (sg i) = i.
Definition lift (h : nat -> X) : nat -> X := fun i => if (sg (tau i) =? i)%nat then h (tau i) else d.
Lemma lift_at h i : lift h (sg i) = h i.
Proof using Htau. unfold lift. rewrite Htau, Nat.eqb_refl. reflexivity. Qed.
Lemma put_lift h k x : put (lift h) (sg k) x = lift (put h k x).
Proof using Htau.
  apply functional_extensionality. intros i. unfold put, lift. destruct (Nat.eqb_spec i (sg k)) as [->|Hne].
  - now rewrite Htau, !Nat.eqb_refl.
  - destruct (Nat.eqb_spec (sg (tau i)) i) as [E|]; [|reflexivity]. destruct (Nat.eqb_spec (tau i) k) as [E2|]; [|reflexivity]. exfalso. congruence.
Qed.
Lemma over_keys_map (Q : nat -> list (X * R)) ks : forall F, over_keys Q (map sg ks) F = over_keys (fun i => Q (sg i)) ks (fun h => F (lift h)).
Proof using Htau.
  induction ks as [|k ks IH]; intros F; cbn [map over_keys].
  - f_equal. apply functional_extensionality. intros i. unfold lift. now destruct (_ =? _)%nat.
  - apply total_ext. intros xp _. f_equal. rewrite IH. apply over_keys_ext. intros h. now rewrite put_lift.
Qed.
(** Other values. *)
Lemma over_keys_values (phi : X -> X) (Q Q' : nat -> list (X * R)) ks : phi d = d ->
  (forall k, In k ks -> Permutation (Q' k) (map (fun xp => (phi (fst xp), snd xp)) (Q k))) ->
  forall F, over_keys Q' ks F = over_keys Q ks (fun h => F (fun i => phi (h i))).
Proof using.
  intros Hd. induction ks as [|k ks IH]; intros HP F; cbn [over_keys].
  - f_equal. apply functional_extensionality. intros _. now rewrite Hd.
  - rewrite (total_perm _ _ _ (HP k (or_introl eq_refl))), total_map. apply total_ext. intros xp _. cbn [fst snd]. f_equal.
    rewrite IH by (intros; apply HP; now right). apply over_keys_ext. intros h. f_equal. apply functional_extensionality. intros i. unfold put. now destruct (i =? k)%nat.
Qed.
End Keys.

(** ** Coins *)
Section Coins.
Context {X : Type} (r : R).
Lemma over_coins_ext (l : list X) : forall f g, (forall s, f s = g s) -> over_coins r l f = over_coins r l g.
Proof using. induction l as [|x l IH]; intros f g H; cbn [over_coins]; auto. rewrite (IH f g H), (IH (fun s => f (x :: s)) (fun s => g (x :: s))); auto. Qed.
Lemma over_coins_perm (l l' : list X) : Permutation l l' -> forall f, (forall s s', Permutation s s' -> f s = f s') -> over_coins r l f = over_coins r l' f.
Proof using.
  induction 1 as [|k l l' P IH|x y l|l l' l'' P1 IH1 P2 IH2]; intros f Hf; auto.
  - cbn [over_coins]. rewrite (IH f Hf), (IH (fun s => f (k :: s))); auto.
  - cbn [over_coins]. rewrite (over_coins_ext l (fun s => f (x :: y :: s)) (fun s => f (y :: x :: s))) by (intros; apply Hf, perm_swap). ring.
  - rewrite IH1 by auto. now apply IH2.
Qed.
End Coins.
Lemma over_coins_map {X Y} r (h : X -> Y) (l : list X) : forall f, over_coins r (map h l) f = over_coins r l (fun s => f (map h s)).
Proof. induction l as [|x l IH]; intros f; cbn [map over_coins]; auto. now rewrite !IH. Qed.

(** ** Contacts *)
Section Renamed.
Variables (n : nat) (sg tau : nat -> nat).
Hypothesis Hsg : renumbering n sg.
Hypothesis Htau : forall i, tau (sg i) = i.
Lemma sg_out j : (n <= j)%nat -> (n <= sg j)%nat.
Proof using Hsg Htau.
  intros Hj. destruct (Nat.le_gt_cases n (sg j)) as [|H]; auto. exfalso.
  assert (Hin : In (sg j) (map sg (seq 0 n))) by (eapply Permutation_in; [apply Permutation_sym, (renumbering_perm n sg Hsg)|apply in_seq; lia]).
  apply in_map_iff in Hin as (i & E & Hi). apply in_seq in Hi. assert (i = j) by (rewrite <- (Htau i), <- (Htau j); congruence). lia.
Qed.
Lemma nth_map_seq_in (h : nat -> list nat) i : (i < n)%nat -> nth i (map h (seq 0 n)) [] = h i.
Proof using. intros Hi. rewrite (nth_indep _ [] (h 0%nat)) by (rewrite map_length, seq_length; lia). rewrite map_nth, seq_nth by lia. reflexivity. Qed.
Lemma pairs_of (h : nat -> list nat) : contact_pairs (map h (seq 0 n)) = flat_map (fun i => map (fun j => (i, j)) (h i)) (seq 0 n).
Proof using.
  unfold contact_pairs. rewrite map_length, seq_length. rewrite !flat_map_concat_map. f_equal. apply map_ext_in. intros i Hi. apply in_seq in Hi. rewrite nth_map_seq_in by lia. reflexivity.
Qed.
Variable h : nat -> list nat.
Let h' : nat -> list nat := lift [] sg tau (fun i => map sg (h i)).
Lemma pairs_renamed : Permutation (contact_pairs (map h' (seq 0 n))) (map (renamed sg) (contact_pairs (map h (seq 0 n)))).
Proof using Hsg Htau.
  rewrite !pairs_of. etransitivity; [apply Permutation_flat_map, Permutation_sym, (renumbering_perm n sg Hsg)|].
  match goal with |- Permutation ?a ?b => replace a with b; auto end.
  rewrite !flat_map_concat_map, concat_map, !map_map. f_equal. apply map_ext. intros i. unfold h'. rewrite (lift_at [] sg tau Htau). now rewrite !map_map.
Qed.
Lemma contacted_renamed i j : contacted (map h' (seq 0 n)) (sg j) (sg i) = contacted (map h (seq 0 n)) j i.
Proof using Hsg Htau.
  unfold contacted. destruct (Nat.lt_ge_cases j n) as [Hj|Hj].
  - rewrite (nth_map_seq_in h' (sg j)) by (now apply Hsg). rewrite (nth_map_seq_in h j) by auto. unfold h'. rewrite (lift_at [] sg tau Htau).
    generalize (h j) as l. intros l. induction l as [|k l IH]; [reflexivity|]. cbn [map existsb]. rewrite IH. f_equal.
    destruct (Nat.eqb_spec i k) as [->|Hne]; [apply Nat.eqb_refl|]. apply Nat.eqb_neq. intros E. apply Hne. rewrite <- (Htau i), <- (Htau k). congruence.
  - rewrite !nth_overflow; auto; rewrite map_length, seq_length; [lia|]. now apply sg_out.
Qed.
Lemma filter_perm {Y} (f : Y -> bool) l l' : Permutation l l' -> Permutation (filter f l) (filter f l').
Proof using.
  induction 1 as [|x l l' P IH|x y l|l l' l'' P1 IH1 P2 IH2]; cbn [filter]; auto; [destruct (f x); auto|destruct (f x), (f y); auto; apply perm_swap|].
  eapply Permutation_trans; eauto.
Qed.
Lemma filter_map {Y Z} (f : Z -> bool) (g : Y -> Z) l : filter f (map g l) = map g (filter (fun x => f (g x)) l).
Proof using. induction l as [|x l IH]; cbn [map filter]; auto. rewrite IH. now destruct (f (g x)). Qed.
Lemma one_way_renamed : Permutation (one_way (map h' (seq 0 n))) (map (renamed sg) (one_way (map h (seq 0 n)))).
Proof using Hsg Htau.
  unfold one_way at 1. etransitivity; [apply filter_perm, pairs_renamed|]. rewrite filter_map.
  match goal with |- Permutation ?a ?b => replace a with b; auto end. f_equal. unfold one_way. apply filter_ext. intros p. cbn [renamed fst snd]. now rewrite contacted_renamed.
Qed.
(** What happens after the contacts are drawn. *)
Lemma coins_renamed r (f : list (nat * nat) -> R) : (forall e e', Permutation e e' -> f e = f e') ->
  over_coins r (one_way (map h' (seq 0 n))) (fun sel => f (map (renamed tau) (contact_pairs (map h' (seq 0 n)) ++ map reversed sel))) =
  over_coins r (one_way (map h (seq 0 n))) (fun sel => f (contact_pairs (map h (seq 0 n)) ++ map reversed sel)).
Proof using Hsg Htau.
  intros Hf. rewrite (over_coins_perm r _ _ one_way_renamed).
  2:{ intros s s' P. apply Hf, Permutation_map, Permutation_app_head, Permutation_map, P. }
  rewrite over_coins_map. apply over_coins_ext. intros s. apply Hf.
  etransitivity; [apply Permutation_map, Permutation_app_tail, pairs_renamed|]. rewrite map_app, !map_map.
  match goal with |- Permutation ?a ?b => replace a with b; auto end.
  assert (Q : forall p, renamed tau (renamed sg p) = p) by (intros [i j]; unfold renamed; cbn [fst snd]; now rewrite !Htau).
  f_equal.
  - symmetry. rewrite <- (map_id (contact_pairs _)) at 2. apply map_ext. exact Q.
  - apply map_ext. intros [i j]. unfold renamed, reversed. cbn. now rewrite !Htau.
Qed.
End Renamed.

(** ** Rows *)
Section Rows.
Variables (n : nat) (sg : nat -> nat).
Hypothesis Hsg : renumbering n sg.
Lemma sg_inj_in i j : In i (seq 0 n) -> In j (seq 0 n) -> sg i = sg j -> i = j.
Proof using Hsg. intros Hi Hj. apply in_seq in Hi, Hj. apply Hsg; lia. Qed.
Lemma NoDup_map_sg l : NoDup l -> incl l (seq 0 n) -> NoDup (map sg l).
Proof using Hsg.
  induction l as [|x l IH]; intros HN HI; cbn [map]; constructor; apply NoDup_cons_iff in HN as (Hx & HN).
  - intros H. apply in_map_iff in H as (y & E & Hy). apply Hx. replace x with y; auto. apply sg_inj_in; auto; apply HI; [now right|now left].
  - apply IH; auto. intros y Hy. apply HI. now right.
Qed.
Lemma map_sg_inj l : forall l', incl l (seq 0 n) -> incl l' (seq 0 n) -> map sg l = map sg l' -> l = l'.
Proof using Hsg.
  induction l as [|x l IH]; intros [|y l'] H H' E; cbn [map] in E; try discriminate; auto. injection E as E1 E2. f_equal.
  - apply sg_inj_in; auto; [apply H|apply H']; now left.
  - apply IH; auto; intros z Hz; [apply H|apply H']; now right.
Qed.
Lemma arrangements_renamed k : Permutation (arrangements k (seq 0 n)) (map (map sg) (arrangements k (seq 0 n))).
Proof using Hsg.
  symmetry. apply NoDup_Permutation_bis.
  - assert (G : forall ls, NoDup ls -> (forall l, In l ls -> incl l (seq 0 n)) -> NoDup (map (map sg) ls)).
    { induction ls as [|l ls IH]; intros HN HI; cbn [map]; constructor; apply NoDup_cons_iff in HN as (Hx & HN).
      - intros H. apply in_map_iff in H as (l' & E & Hl'). apply Hx. replace l with l'; auto. apply map_sg_inj; auto; apply HI; [now right|now left].
      - apply IH; auto. intros l' Hl'. apply HI. now right. }
    apply G; [apply arrangements_NoDup, seq_NoDup|]. intros l Hl. now apply in_arrangements in Hl.
  - now rewrite map_length.
  - intros l Hl. apply in_map_iff in Hl as (l0 & <- & Hl0). apply in_arrangements in Hl0 as (H1 & H2 & H3). apply in_arrangements.
    split; [now rewrite map_length|]. split; [now apply NoDup_map_sg|]. intros j Hj. apply in_map_iff in Hj as (i & <- & Hi). apply H3, in_seq in Hi. apply in_seq. pose proof (proj1 Hsg i ltac:(lia)). lia.
Qed.
Lemma wsum_total (w : nat -> R) m : forall i, wsum w i m = total w (seq i m).
Proof using. induction m as [|m IH]; intros i; cbn [wsum seq]; [reflexivity|]. rewrite IH. reflexivity. Qed.
Variables (w w' : nat -> R).
Hypothesis Hw : forall j, (j < n)%nat -> w' (sg j) = w j.
Lemma wsum_renamed : wsum w' 0 n = wsum w 0 n.
Proof using Hsg Hw.
  rewrite !wsum_total, <- (total_perm w' _ _ (renumbering_perm n sg Hsg)), total_map. apply total_ext. intros j Hj. apply in_seq in Hj. apply Hw. lia.
Qed.
Lemma successive_renamed l : incl l (seq 0 n) -> forall W, successive w' (map sg l) W = successive w l W.
Proof using Hw.
  induction l as [|i l IH]; intros HI W; cbn [map successive]; auto. assert (Hi : (i < n)%nat) by (specialize (HI i (or_introl eq_refl)); apply in_seq in HI; lia).
  rewrite Hw, IH by (auto; intros z Hz; apply HI; now right). reflexivity.
Qed.
Lemma row_law_renamed act k : Permutation (row_law act w' k n) (map (fun xp => (map sg (fst xp), snd xp)) (row_law act w k n)).
Proof using Hsg Hw.
  unfold row_law. cbn [map fst snd]. apply perm_skip. rewrite map_map. cbn [fst snd].
  etransitivity; [apply Permutation_map, arrangements_renamed|]. rewrite map_map.
  match goal with |- Permutation ?a ?b => replace a with b; auto end. apply map_ext_in. intros l Hl. apply in_arrangements in Hl as (_ & _ & HI).
  now rewrite map_rev, successive_renamed, wsum_renamed.
Qed.
End Rows.
