(** Proofs about the DeGroot model (any arithmetic). *)
From Verif Require Import Base BaseFacts Arith64 MNetwork SNetwork MAgents MDeGroot SDeGroot.

Section P.
Variable a : Arith.
Notation agent := (simple_agent (F a)).
Notation net := (network agent (F a)).

Lemma nth_opinions (g : net) j x : nth_error (agents g) j = Some x -> nth j (opinions g) (f0 a) = s_opinion x.
Proof.
  intros H. unfold opinions. erewrite nth_error_nth; [reflexivity|]. rewrite nth_error_map, H. reflexivity.
Qed.

Lemma inner_ok (g : net) ns ws i (copy : list agent) :
  length ns = length ws -> (forall j, In j ns -> j < n_agents g) -> i < length copy ->
  for_n (length ns) (fun j copy =>
      j_index <- vget ns j ;;
      weight <- vget ws j ;;
      c <- vget copy i ;;
      x <- vget (agents g) j_index ;;
      vset copy i (mkSimple (fadd a (s_opinion c) (fmul a weight (s_opinion x))))) (upd copy i (mkSimple (f0 a)))
  = Ok (upd copy i (mkSimple (weighted_sum (opinions g) (combine ns ws)))).
Proof.
  intros HL Hin Hi.
  match goal with |- for_n ?n ?b ?s = _ => assert (G : okp (for_n n b s) (fun c => c =
     upd copy i (mkSimple (weighted_sum (opinions g) (firstn n (combine ns ws)))))) end.
  { apply (for_n_inv _ (fun k c => c = upd copy i (mkSimple (weighted_sum (opinions g) (firstn k (combine ns ws)))))).
    - reflexivity.
    - intros k c Hk ->.
      destruct (nth_error ns k) as [j|] eqn:Ej; [|apply nth_error_None in Ej; lia].
      destruct (nth_error ws k) as [w|] eqn:Ew; [|apply nth_error_None in Ew; lia].
      assert (Hj : j < n_agents g) by (apply Hin; eapply nth_error_In; eauto).
      destruct (nth_error (agents g) j) as [x|] eqn:Ex; [|apply nth_error_None in Ex; unfold n_agents in Hj; lia].
      unfold vget. rewrite Ej, Ew. cbn [bind]. rewrite nth_error_upd_eq by auto. cbn [bind]. rewrite Ex. cbn [bind].
      rewrite vset_ok by (now rewrite upd_length). cbn [okp s_opinion].
      assert (EC : nth_error (combine ns ws) k = Some (j, w)) by (rewrite nth_error_combine, Ej, Ew; reflexivity).
      rewrite (firstn_S_nth_error _ _ _ _ EC). unfold weighted_sum. rewrite fold_left_app. cbn [fold_left fst snd].
      rewrite (nth_opinions g j x Ex). clear. revert i. induction copy as [|c copy IH]; intros [|i]; cbn; auto. now rewrite IH. }
  apply okp_ex in G as (c & -> & ->). f_equal. f_equal. f_equal.
  rewrite firstn_all2; auto. rewrite combine_length. lia.
Qed.

Lemma average_ok (g : net) copy : wf g -> length copy = n_agents g ->
  degroot_average g copy = Ok (map (fun i => mkSimple (weighted_sum (opinions g) (row g i))) (seq 0 (n_agents g))).
Proof.
  intros (W1 & W2 & W3 & W4) HL. unfold degroot_average.
  match goal with |- ?m = _ => assert (G : okp m (fun c => length c = n_agents g /\
     forall k, k < n_agents g -> nth_error c k = Some (mkSimple (weighted_sum (opinions g) (row g k))))) end.
  { apply (for_n_inv _ (fun i c => length c = n_agents g /\
     forall k, k < i -> nth_error c k = Some (mkSimple (weighted_sum (opinions g) (row g k))))).
    - split; auto. intros; lia.
    - intros i c Hi (Hc & HK). unfold n_agents in Hi. unfold get_neighbours, get_weights.
      rewrite !(vget_lt _ _ _ []) by lia. cbn [bind]. rewrite vset_ok by (rewrite Hc; exact Hi). cbn [bind].
      rewrite inner_ok.
      + cbn [okp]. rewrite upd_length. split; auto. intros k Hk.
        destruct (Nat.eq_dec k i) as [->|Hne].
        * rewrite nth_error_upd_eq by (rewrite Hc; exact Hi). reflexivity.
        * rewrite nth_error_upd_neq by auto. apply HK. lia.
      + apply W3. exact Hi.
      + intros j Hj. eapply W4. exact Hj.
      + rewrite Hc. exact Hi. }
  apply okp_ex in G as (c & -> & Hc & HK). f_equal. apply list_ext. intros k.
  rewrite nth_error_map_seq. destruct (Nat.ltb_spec k (n_agents g)) as [Hk|Hk].
  - now apply HK.
  - apply nth_error_None. lia.
Qed.

Lemma update_ok (copy l : list agent) : length copy = length l ->
  degroot_update copy l =
    Ok (fold_left (fmax a) (map (fun p => fabs a (fsub a (s_opinion (fst p)) (s_opinion (snd p)))) (combine l copy)) (f0 a), copy).
Proof.
  intros HL. unfold degroot_update. set (n := length l) in *.
  match goal with |- ?m = _ => assert (G : okp m (fun st => st =
    (fold_left (fmax a) (map (fun p => fabs a (fsub a (s_opinion (fst p)) (s_opinion (snd p)))) (firstn n (combine l copy))) (f0 a),
     firstn n copy ++ skipn n l))) end.
  { apply (for_n_inv _ (fun k st => st =
    (fold_left (fmax a) (map (fun p => fabs a (fsub a (s_opinion (fst p)) (s_opinion (snd p)))) (firstn k (combine l copy))) (f0 a),
     firstn k copy ++ skipn k l))).
    - reflexivity.
    - intros k st Hk ->.
      destruct (nth_error l k) as [x|] eqn:Ex; [|apply nth_error_None in Ex; lia].
      destruct (nth_error copy k) as [c|] eqn:Ec; [|apply nth_error_None in Ec; lia].
      assert (EX : nth_error (firstn k copy ++ skipn k l) k = Some x).
      { rewrite nth_error_app2; rewrite firstn_length; [|lia]. replace (k - Nat.min k (length copy)) with 0 by lia.
        apply nth_error_split in Ex as (l1 & l2 & -> & <-). rewrite skipn_app, skipn_all, Nat.sub_diag. reflexivity. }
      unfold vget. rewrite EX, Ec. cbn [bind]. rewrite vset_ok.
      2: { rewrite app_length, firstn_length, skipn_length. lia. }
      cbn [bind okp]. f_equal.
      + assert (EC : nth_error (combine l copy) k = Some (x, c)) by (rewrite nth_error_combine, Ex, Ec; reflexivity).
        rewrite (firstn_S_nth_error _ _ _ _ EC), map_app, fold_left_app. reflexivity.
      + apply list_ext. intros j. rewrite nth_error_upd.
        assert (L1 : length (firstn k copy) = k) by (rewrite firstn_length; lia).
        assert (L2 : length (firstn (S k) copy) = S k) by (rewrite firstn_length; lia).
        rewrite (firstn_S_nth_error _ _ _ _ Ec). rewrite <- app_assoc.
        apply nth_error_split in Ex as (l1 & l2 & -> & EL). rewrite <- EL in *.
        rewrite !skipn_app, skipn_all, Nat.sub_diag.
        rewrite (skipn_all2 l1) by lia. replace (S (length l1) - length l1) with 1 by lia. cbn [skipn app].
        assert (LT : length l1 < length (firstn (length l1) copy ++ x :: l2)) by (rewrite app_length, L1; cbn; lia).
        destruct (Nat.eqb_spec (length l1) j) as [<-|Hne].
        * destruct (Nat.ltb_spec (length l1) (length (firstn (length l1) copy ++ x :: l2))); [|lia]. cbn [andb].
          rewrite nth_error_app2 by lia. rewrite L1, Nat.sub_diag. reflexivity.
        * cbn [andb]. destruct (Nat.lt_ge_cases j (length l1)).
          -- rewrite !nth_error_app1 by lia. reflexivity.
          -- rewrite !nth_error_app2 by lia. rewrite L1. destruct (j - length l1) eqn:Ej; [lia|]. reflexivity. }
  apply okp_ex in G as (st & -> & ->). f_equal. f_equal.
  - rewrite firstn_all2; auto. rewrite combine_length. lia.
  - rewrite firstn_all2 by lia. rewrite skipn_all2 by lia. apply app_nil_r.
Qed.

Definition averaged (g : net) : list (F a) := map (fun i => weighted_sum (opinions g) (row g i)) (seq 0 (n_agents g)).

Lemma iteration_ok (m : degroot a) : ready m ->
  degroot_iteration m = Ok (mkDeGroot (base_iteration (dg_base m)) (convergence_tol m)
     (Some (fold_left (fmax a) (map (fun p => fabs a (fsub a (fst p) (snd p))) (combine (opinions (dg_net m)) (averaged (dg_net m)))) (f0 a)))
     (with_agents (dg_net m) (map mkSimple (averaged (dg_net m)))) (map mkSimple (averaged (dg_net m)))).
Proof.
  intros (Hw & HL). unfold degroot_iteration. rewrite average_ok by auto. cbn [bind].
  rewrite update_ok.
  2: { rewrite map_length, seq_length. reflexivity. }
  cbn [bind]. unfold averaged. rewrite map_map. do 3 f_equal.
  unfold opinions. generalize (agents (dg_net m)) at 1 3 as l. intros l.
  generalize (seq 0 (n_agents (dg_net m))). intros is.
  assert (G : forall l is, map (fun p : agent * agent => fabs a (fsub a (s_opinion (fst p)) (s_opinion (snd p))))
    (combine l (map (fun i => mkSimple (weighted_sum (map s_opinion (agents (dg_net m))) (row (dg_net m) i))) is))
   = map (fun p => fabs a (fsub a (fst p) (snd p)))
    (combine (map s_opinion l) (map (fun i => weighted_sum (map s_opinion (agents (dg_net m))) (row (dg_net m) i)) is))).
  { clear. induction l as [|x l IH]; intros [|i is]; cbn; auto. now rewrite IH. }
  apply f_equal2; [|reflexivity]. apply G.
Qed.

Lemma opinions_with_agents (g : net) xs : opinions (with_agents g (map mkSimple xs)) = xs.
Proof. unfold opinions. cbn. rewrite map_map. cbn. apply map_id. Qed.

Lemma row_with_agents (g : net) l i : row (with_agents g l) i = row g i.
Proof. reflexivity. Qed.

Lemma averaged_length (g : net) : length (averaged g) = n_agents g.
Proof. unfold averaged. now rewrite map_length, seq_length. Qed.

Lemma ready_next (m m' : degroot a) : ready m -> degroot_iteration m = Ok m' -> ready m'.
Proof.
  intros HR E. pose proof HR as (Hw & HL). rewrite iteration_ok in E by auto. inversion E; subst m'. clear E.
  destruct Hw as (W1 & W2 & W3 & W4). unfold ready. cbn [dg_net agents_current_copy]. split.
  - unfold wf. cbn [agents neigh wts with_agents]. rewrite !map_length, averaged_length. unfold n_agents. auto.
  - unfold n_agents. reflexivity.
Qed.

Lemma spread_ok (l : list agent) : spread_opinions l =
  Ok (map (fun i => mkSimple (fdiv a (fofZ a (Z.of_nat i)) (fofZ a (Z.of_nat (length l))))) (seq 0 (length l))).
Proof.
  unfold spread_opinions.
  match goal with |- ?m = _ => assert (G : okp m (fun c => length c = length l /\
     forall k, k < length l -> nth_error c k = Some (mkSimple (fdiv a (fofZ a (Z.of_nat k)) (fofZ a (Z.of_nat (length l))))))) end.
  { apply (for_n_inv _ (fun i c => length c = length l /\
     forall k, k < i -> nth_error c k = Some (mkSimple (fdiv a (fofZ a (Z.of_nat k)) (fofZ a (Z.of_nat (length l))))))).
    - split; auto. intros; lia.
    - intros i c Hi (Hc & HK). rewrite vset_ok by lia. cbn [okp]. rewrite upd_length. split; auto. intros k Hk.
      destruct (Nat.eq_dec k i) as [->|Hne].
      + rewrite nth_error_upd_eq by lia. now rewrite Hc.
      + rewrite nth_error_upd_neq by auto. apply HK. lia. }
  apply okp_ex in G as (c & -> & Hc & HK). f_equal. apply list_ext. intros k.
  rewrite nth_error_map_seq. destruct (Nat.ltb_spec k (length l)) as [Hk|Hk].
  - now apply HK.
  - apply nth_error_None. lia.
Qed.
End P.
