(** The mean-field network update. *)
From Verif Require Import Base BaseFacts Arith64 MRandom SRandom MDist MNetwork SNetwork PNetwork PNetwork2
  MAgents MDeGroot MActivity SActivity PActStep PActNet.

Section Mean.
Context {a : Arith} (lm : Libm a) {A : Type} (ops : agent_ops (F a) A).
Notation D := (F a).
Notation settings := (ad_settings D).
Notation net := (network A D).

Lemma matrix_length n (W : nat -> nat -> D) : length (matrix n W) = n.
Proof. unfold matrix. now rewrite map_length, seq_length. Qed.

Lemma vget_matrix n (W : nat -> nat -> D) i : i < n -> vget (matrix n W) i = Ok (map (W i) (seq 0 n)).
Proof. intros H. apply vget_ok. unfold matrix. rewrite nth_error_map_seq. now rewrite (proj2 (Nat.ltb_lt _ _) H). Qed.

Lemma vget_mrow n (W : nat -> D) i : i < n -> vget (map W (seq 0 n)) i = Ok (W i).
Proof. intros H. apply vget_ok. rewrite nth_error_map_seq. now rewrite (proj2 (Nat.ltb_lt _ _) H). Qed.

Definition upd2 (W : nat -> nat -> D) (i k : nat) (v : D) : nat -> nat -> D :=
  fun i' k' => if (i =? i') && (k =? k') then v else W i' k'.

Lemma upd_matrix n (W : nat -> nat -> D) i k v : i < n -> k < n ->
  upd (matrix n W) i (upd (map (W i) (seq 0 n)) k v) = matrix n (upd2 W i k v).
Proof.
  intros Hi Hk. apply list_ext. intros i'. rewrite nth_error_upd, matrix_length.
  unfold matrix. rewrite !nth_error_map_seq.
  destruct (Nat.eqb_spec i i') as [<-|Hne]; cbn [andb].
  - rewrite (proj2 (Nat.ltb_lt _ _) Hi). f_equal. apply list_ext. intros k'.
    rewrite nth_error_upd, map_length, seq_length, !nth_error_map_seq.
    rewrite (proj2 (Nat.ltb_lt _ _) Hk), andb_true_r. unfold upd2. rewrite Nat.eqb_refl. cbn [andb].
    destruct (Nat.eqb_spec k k') as [<-|Hk']; auto. now rewrite (proj2 (Nat.ltb_lt _ _) Hk).
  - destruct (i' <? n); auto. f_equal. apply map_ext. intros k'. unfold upd2.
    now rewrite (proj2 (Nat.eqb_neq _ _) Hne).
Qed.

Lemma matrix_ext n (W W' : nat -> nat -> D) : (forall i j, i < n -> j < n -> W i j = W' i j) -> matrix n W = matrix n W'.
Proof.
  intros H. unfold matrix. apply map_ext_in. intros i Hi. apply in_seq in Hi. apply map_ext_in.
  intros j Hj. apply in_seq in Hj. apply H; lia.
Qed.

Definition mnet (l : list A) (ns : list (list nat)) (d : direction) (W : nat -> nat -> D) : net :=
  mkNet l ns (matrix (length l) W) d.

Lemma add_weight_ok l ns d W i k v : i < length l -> k < length l ->
  add_weight (mnet l ns d W) i k v = Ok (mnet l ns d (upd2 W i k (fadd a (W i k) v))).
Proof.
  intros Hi Hk. unfold add_weight, get_weights, write_weight. cbn [wts mnet].
  rewrite vget_matrix by auto. cbn [bind]. rewrite vget_mrow by auto. cbn [bind].
  rewrite vset_ok by (rewrite map_length, seq_length; auto). cbn [bind].
  rewrite vset_ok by (rewrite matrix_length; auto). cbn [bind]. rewrite upd_matrix by auto. reflexivity.
Qed.

(** contact probabilities *)
Lemma probability_helper_rounds w k : probability_helper lm w k = rounds lm w k.
Proof.
  unfold probability_helper, rounds. apply fold_left_ext. intros p i _. now rewrite Nat.add_1_r.
Qed.

Lemma contact_prob_step_ok (st : settings) (l : list A) i P : settings_fit st (length l) -> i < length l ->
  contact_prob_step lm ops st l i (matrix (length l) P) =
  Ok (matrix (length l) (fun i' j => if i =? i' then contact_probability lm ops st l i j else P i' j)).
Proof.
  intros Hs Hi. unfold contact_prob_step.
  rewrite (for_n_pure _ (fun k norm => fadd a norm (affinity lm ops st l i k))).
  2:{ intros k norm Hk. rewrite (homophily_weight_ok lm ops st l (length l)); auto. }
  cbn [bind]. fold (total_affinity lm ops st l i).
  destruct (m_of_ok st (length l) i Hs) as (z & Ez & Ek & _). rewrite Ez. cbn [bind].
  destruct (nth_error l i) as [x|] eqn:Ex. 2:{ apply nth_error_None in Ex. lia. }
  unfold vget at 1. rewrite Ex. cbn [bind].
  match goal with |- for_n _ ?body _ = Ok ?r => assert (G : okp (for_n (length l) body (matrix (length l) P)) (fun b => b = r)) end.
  2:{ apply okp_ex in G as (r & -> & ->). reflexivity. }
  eapply okp_weaken.
  2: apply (for_n_inv _ (fun c b => b = matrix (length l) (fun i' j => if (i =? i') && (j <? c) then contact_probability lm ops st l i j else P i' j))).
  - intros b ->. apply matrix_ext. intros i' j Hi' Hj. rewrite (proj2 (Nat.ltb_lt j _) Hj), andb_true_r. reflexivity.
  - apply matrix_ext. intros i' j _ _. cbn. now rewrite andb_false_r.
  - intros c b Hc ->. rewrite (homophily_weight_ok lm ops st l (length l)) by auto. cbn [bind].
    rewrite vget_matrix by auto. cbn [bind]. rewrite vset_ok by (rewrite map_length, seq_length; auto). cbn [bind].
    rewrite vset_ok by (rewrite matrix_length; auto). cbn [okp]. rewrite upd_matrix by auto.
    apply matrix_ext. intros i' j Hi' Hj. unfold upd2.
    destruct (Nat.eqb_spec i i') as [<-|Hne]; cbn [andb]; auto.
    destruct (Nat.eqb_spec c j) as [<-|Hne].
    + rewrite (proj2 (Nat.ltb_lt c (S c))) by lia. unfold contact_probability. rewrite Ex, Ek, probability_helper_rounds. reflexivity.
    + destruct (Nat.ltb_spec j c), (Nat.ltb_spec j (S c)); auto; lia.
Qed.

(** one agent's contribution to the weights, as a pure function *)
Definition contribute (r : D) (P : nat -> nat -> D) (i j : nat) (W : nat -> nat -> D) : nat -> nat -> D :=
  let W := upd2 W j i (fadd a (W j i) (P i j)) in
  upd2 W i j (fadd a (W i j) (fmul a (fmul a (fsub a (f1 a) (P j i)) r) (P i j))).

Definition all_contributions (n : nat) (r : D) (P : nat -> nat -> D) : nat -> nat -> D :=
  fold_left (fun W i => fold_left (fun W j => contribute r P i j W) (seq 0 n) W) (seq 0 n) (fun _ _ => f0 a).

Lemma for_from_fold S T (f : nat -> T -> T) (emb : T -> S) (body : nat -> S -> res S) i n t :
  (forall j t, i <= j < i + n -> body j (emb t) = Ok (emb (f j t))) ->
  for_from i n body (emb t) = Ok (emb (fold_left (fun t j => f j t) (seq i n) t)).
Proof.
  revert i t; induction n as [|n IH]; intros i t H; cbn [for_from seq fold_left]; auto.
  rewrite H by lia. cbn [bind]. apply IH. intros; apply H; lia.
Qed.

Lemma mean_weight_step_ok (st : settings) l ns d P i W : i < length l ->
  mean_weight_step st (matrix (length l) P) i (mnet l ns d W) =
  Ok (mnet l ns d (fold_left (fun W j => contribute (reciprocity st) P i j W) (seq 0 (length l)) W)).
Proof.
  intros Hi. unfold mean_weight_step, for_n.
  apply (for_from_fold _ _ (fun j W => contribute (reciprocity st) P i j W) (mnet l ns d)).
  intros j W' Hj. assert (Hj' : j < length l) by (unfold n_agents in Hj; cbn in Hj; lia).
  rewrite !vget_matrix by auto. cbn [bind]. rewrite vget_mrow by auto. cbn [bind].
  idtac.
  rewrite vget_mrow by auto. cbn [bind]. rewrite add_weight_ok by auto. cbn [bind].
  rewrite add_weight_ok by auto. reflexivity.
Qed.

Lemma nth_error_repeat_lt X (x : X) n i : i < n -> nth_error (repeat x n) i = Some x.
Proof. revert i; induction n as [|n IH]; intros [|i] H; cbn; auto; try lia. apply IH. lia. Qed.

Lemma zero_phase (h : net) cpl : mean_shaped h -> length cpl = n_agents h ->
  for_n (n_agents h) (fun idx_agent v =>
      let '(network, cpl) := v in
      network <- set_weights_or_throw network idx_agent (repeat (f0 a) (n_agents h)) ;;
      cpl <- vset cpl idx_agent (repeat (f0 a) (n_agents h)) ;;
      Ok (network, cpl)) (h, cpl)
  = Ok (mnet (agents h) (neigh h) (dir h) (fun _ _ => f0 a), matrix (n_agents h) (fun _ _ => f0 a)).
Proof.
  intros [Hn Hw] Hc. set (n := n_agents h) in *. set (z := repeat (f0 a) n).
  assert (Hz : forall l : list (list D), length l = n -> (forall j, j < n -> nth_error l j = Some z) -> l = matrix n (fun _ _ => f0 a)).
  { intros l Hl H. apply list_ext. intros j. unfold matrix. rewrite nth_error_map_seq.
    destruct (Nat.ltb_spec j n) as [Hj|Hj].
    - rewrite H by auto. f_equal. unfold z. clear. generalize 0. induction n as [|n IH]; intros k; cbn; auto. now rewrite <- IH.
    - apply nth_error_None. lia. }
  match goal with |- ?m = Ok ?r => assert (G : okp m (fun b => b = r)) end.
  2:{ apply okp_ex in G as (r & -> & ->). reflexivity. }
  eapply okp_weaken.
  2: apply (for_n_inv _ (fun c b => agents (fst b) = agents h /\ neigh (fst b) = neigh h /\ dir (fst b) = dir h /\
       length (wts (fst b)) = n /\ length (snd b) = n /\
       (forall j, j < c -> nth_error (wts (fst b)) j = Some z) /\ (forall j, j < c -> nth_error (snd b) j = Some z))).
  - intros [[ag ne wt di] cp]. cbn. intros (-> & -> & -> & H1 & H2 & H3 & H4). unfold mnet.
    rewrite (Hz wt), (Hz cp); auto.
  - cbn. repeat split; auto; intros; lia.
  - intros i [[ag ne wt di] cp] Hi. cbn [fst snd agents neigh wts dir]. intros (-> & -> & -> & H1 & H2 & H3 & H4).
    unfold set_weights_or_throw, set_weights. cbn [neigh wts agents dir].
    assert (Er : vget (neigh h) i = Ok (seq 0 n)).
    { apply vget_ok. rewrite Hn. now apply nth_error_repeat_lt. }
    rewrite Er, seq_length. unfold z at 1. rewrite repeat_length, Nat.eqb_refl. cbn [negb].
    rewrite vset_ok by lia. cbn [bind]. rewrite vset_ok by lia. cbn [bind okp fst snd agents neigh wts dir].
    repeat split; auto.
    + now rewrite upd_length.
    + now rewrite upd_length.
    + intros j Hj. destruct (Nat.eq_dec i j) as [<-|Hne].
      * apply nth_error_upd_eq. lia.
      * rewrite nth_error_upd_neq by auto. apply H3. lia.
    + intros j Hj. destruct (Nat.eq_dec i j) as [<-|Hne].
      * apply nth_error_upd_eq. lia.
      * rewrite nth_error_upd_neq by auto. apply H4. lia.
Qed.

Lemma update_mean_ok (st : settings) (h : net) cpl :
  settings_fit st (n_agents h) -> mean_shaped h -> length cpl = n_agents h ->
  update_network_mean lm ops st h cpl =
  Ok (mnet (agents h) (neigh h) (dir h)
        (all_contributions (n_agents h) (reciprocity st) (contact_probability lm ops st (agents h))),
      matrix (n_agents h) (contact_probability lm ops st (agents h))).
Proof.
  intros Hs Hm Hc. unfold update_network_mean. rewrite zero_phase by auto. cbn [bind].
  change (n_agents (mnet (agents h) (neigh h) (dir h) (fun _ _ => f0 a))) with (length (agents h)).
  change (agents (mnet (agents h) (neigh h) (dir h) (fun _ _ => f0 a))) with (agents h).
  unfold n_agents in Hs, Hm, Hc |- *.
  assert (E : for_n (length (agents h)) (contact_prob_step lm ops st (agents h))
                (matrix (length (agents h)) (fun _ _ => f0 a))
              = Ok (matrix (length (agents h)) (contact_probability lm ops st (agents h)))).
  { match goal with |- ?m = Ok ?r => assert (G : okp m (fun b => b = r)) end.
    2:{ apply okp_ex in G as (r & -> & ->). reflexivity. }
    eapply okp_weaken.
    2: apply (for_n_inv _ (fun c b => b = matrix (length (agents h)) (fun i j => if i <? c then contact_probability lm ops st (agents h) i j else f0 a))).
    - intros b ->. apply matrix_ext. intros i j Hi Hj. now rewrite (proj2 (Nat.ltb_lt _ _) Hi).
    - reflexivity.
    - intros i b Hi ->. rewrite contact_prob_step_ok by auto. cbn [okp]. apply matrix_ext.
      intros i' j Hi' Hj. destruct (Nat.eqb_spec i i') as [<-|Hne].
      + now rewrite (proj2 (Nat.ltb_lt i (S i))) by lia.
      + destruct (Nat.ltb_spec i' i), (Nat.ltb_spec i' (S i)); auto; lia. }
  rewrite E. cbn [bind].
  unfold for_n.
  rewrite (for_from_fold _ _ (fun i W => fold_left (fun W j => contribute (reciprocity st) (contact_probability lm ops st (agents h)) i j W)
      (seq 0 (length (agents h))) W) (mnet (agents h) (neigh h) (dir h))).
  2:{ intros i W Hi. apply mean_weight_step_ok. lia. }
  reflexivity.
Qed.

Lemma wf_mnet l d W : wf (mnet l (repeat (seq 0 (length l)) (length l)) d W).
Proof.
  unfold wf, mnet. cbn [agents neigh wts]. rewrite repeat_length, matrix_length. repeat split; auto.
  - intros i Hi. rewrite (nth_error_nth _ _ _ (nth_error_repeat_lt _ _ _ _ Hi)).
    unfold matrix. rewrite nth_map_seq by auto. now rewrite map_length.
  - intros i j Hj. destruct (Nat.lt_ge_cases i (length l)) as [Hi|Hi].
    + rewrite (nth_error_nth _ _ _ (nth_error_repeat_lt _ _ _ _ Hi)) in Hj. apply in_seq in Hj. lia.
    + rewrite nth_overflow in Hj; [destruct Hj|]. now rewrite repeat_length.
Qed.
End Mean.
