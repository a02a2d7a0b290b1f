(** Property theorems C111: how many agents an agent contacts, on average, in the stochastic contact network, and
    how the weights of the mean-field network compare with that. *)
From Verif Require Import Base BaseFacts Arith64 MNetwork SNetwork MAgents MRandom SRandom PRandom RFacts PReservoir WRandom MActivity SActivity PActNet PActMean2 PNetwork2
  SProb SProb2 PProb PProb2 PProb9 PProb10 PProb11 TRandom TProb TProb2 TProb3 TMean SEdge PLaw PLaw2 PNetNumber PEdge TEdge SDegree PDegree.
From Coq Require Import Permutation Reals Lra.
Local Open Scope R_scope.

Section Degree.
Variables (lm : Libm EA) (q : PQ EA) (A : Type) (ops : agent_ops (F EA) A) (st : ad_settings (F EA)) (h : network A (F EA)) (X beta act : nat -> R) (r : R).
Hypotheses (Hp : lpow EA lm = epow) (Hl : llog EA lm = elog) (Hq : pq_bag q) (Ho : pq_ordered (a:=EA) (fun x : ext => exists r, x = Fin r) q).
Hypotheses (Hf : settings_fit (a:=EA) st (n_agents h)) (Hwf : wf h) (Hd : dir h = Incoming).
Hypothesis Hcc : forall i, (i < n_agents h)%nat -> (1 <= contact_count (a:=EA) st i < n_agents h)%nat.
Hypothesis HX : forall i x, nth_error (agents h) i = Some x ->
     get_opinion ops x = Fin (X i) /\ get_activity ops x = Fin (act i) /\ 0 <= act i <= 1 /\ homophily_of (a:=EA) st i = Fin (beta i).
Hypotheses (Hr : reciprocity st = Fin r) (Hr01 : 0 <= r <= 1).
Notation n := (n_agents h).
Notation k := (contact_count (a:=EA) st).
Notation chance := (fun i j => act i * drawn_chance (closeness X beta i) (k i) n j).
Notation updated := (update_network_probabilistic (a:=EA) lm tape_rng q ops st h).

(** C111. The expected number of other agents to which agent i has an edge after an update: its activity times
    its number of contacts, plus what the reciprocated contacts add. *)
Theorem C111_expected_contacts i : (i < n)%nat ->
  expectation (fun us => of_edges (contacts_of i n) (updated us))
    (act i * INR (k i) + r * total (fun j => (1 - chance i j) * chance j i) (others i n)).
Proof using Hp Hl Hq Ho Hf Hwf Hd Hcc HX Hr Hr01.
  intros Hi.
  apply (expectation_ext (fun us => total (fun j => of_edges (has_edge i j) (updated us)) (others i n))).
  { intros us. rewrite <- (of_edges_total (fun j => has_edge i j) (others i n)). destruct (updated us) as [[g t]|e|e|]; cbn [of_edges]; auto. symmetry. apply contacts_of_total. }
  eapply expectation_val.
  - apply (expectation_total (fun j us => of_edges (has_edge i j) (updated us)) (fun j => chance i j + (1 - chance i j) * r * chance j i)).
    intros j Hj. unfold others in Hj. apply filter_In in Hj as (Hj & Hne). apply in_seq in Hj. apply Bool.negb_true_iff, Nat.eqb_neq in Hne.
    apply (C109_edge_probability lm q A ops st h X beta act r Hp Hl Hq Ho Hf Hwf Hd Hcc HX Hr Hr01); auto. lia.
  - transitivity (total (fun j => act i * drawn_chance (closeness X beta i) (k i) n j + r * ((1 - chance i j) * chance j i)) (others i n)).
    { apply total_ext. intros j _. ring. }
    rewrite total_lin. rewrite drawn_sum; auto.
    + unfold closeness. now rewrite Nat.eqb_refl.
    + intros j _ Hne. unfold closeness. destruct (Nat.eqb_spec j i); [congruence|]. apply exp_pos.
    + now apply Hcc.
Qed.

(** Without reciprocity it is the activity of the agent times its number of contacts: neither the opinions nor the
    homophily matter. *)
Theorem C111_expected_contacts_one_way i : r = 0 -> (i < n)%nat ->
  expectation (fun us => of_edges (contacts_of i n) (updated us)) (act i * INR (k i)).
Proof using Hp Hl Hq Ho Hf Hwf Hd Hcc HX Hr Hr01.
  intros E Hi. eapply expectation_val; [exact (C111_expected_contacts i Hi)|]. rewrite E. ring.
Qed.

Lemma chance_range i j : (i < n)%nat -> 0 <= chance i j <= act i.
Proof using Hcc HX.
  intros Hi. assert (Ha : 0 <= act i). { destruct (nth_error (agents h) i) as [x|] eqn:Ex; [apply (HX i x Ex)|]. apply nth_error_None in Ex. unfold n_agents in Hi. lia. }
  assert (Ht : total (fun L => successive (closeness X beta i) L (total (closeness X beta i) (seq 0 n))) (arrangements (k i) (seq 0 n)) = 1).
  { apply (successive_total _ i); auto using seq_NoDup.
    - apply in_seq. lia.
    - unfold closeness. now rewrite Nat.eqb_refl.
    - intros v _ Hv. unfold closeness. destruct (Nat.eqb_spec v i); [congruence|]. apply exp_pos.
    - rewrite seq_length. now apply Hcc. }
  assert (Hs : forall L, In L (arrangements (k i) (seq 0 n)) -> 0 <= successive (closeness X beta i) L (total (closeness X beta i) (seq 0 n))).
  { intros L HL. apply in_arrangements in HL as (_ & HN & HI). assert (Hnn : forall u, 0 <= closeness X beta i u).
    { intros u. unfold closeness. destruct (u =? i)%nat; [lra|]. left. apply exp_pos. }
    apply successive_nonneg; auto. apply total_incl_le; auto using seq_NoDup. }
  assert (Hd' : 0 <= drawn_chance (closeness X beta i) (k i) n j <= 1).
  { unfold drawn_chance. split.
    - apply Rle_trans with (total (fun _ : list nat => 0 * 0) (arrangements (k i) (seq 0 n))); [rewrite <- total_scale; lra|]. apply total_le. intros L HL. specialize (Hs L HL). destruct (in_dec Nat.eq_dec j L); lra.
    - rewrite <- Ht. apply total_le. intros L HL. specialize (Hs L HL). destruct (in_dec Nat.eq_dec j L); lra. }
  split; [apply Rmult_le_pos; lra|]. apply Rle_trans with (act i * 1); [apply Rmult_le_compat_l; lra|lra].
Qed.

(** Reciprocity only adds contacts: at least the activity times the number of contacts, and never more than the
    number of the other agents. *)
Theorem C111_contacts_bounds i : (i < n)%nat ->
  exists v, expectation (fun us => of_edges (contacts_of i n) (updated us)) v /\ act i * INR (k i) <= v <= INR (n - 1).
Proof using Hp Hl Hq Ho Hf Hwf Hd Hcc HX Hr Hr01.
  intros Hi. eexists. split; [exact (C111_expected_contacts i Hi)|].
  assert (Hlt : forall j, In j (others i n) -> (j < n)%nat). { intros j Hj. unfold others in Hj. apply filter_In in Hj as (Hj & _). apply in_seq in Hj. lia. }
  assert (Hact : forall j, (j < n)%nat -> 0 <= act j <= 1). { intros j Hj. destruct (nth_error (agents h) j) as [x|] eqn:Ex; [apply (HX j x Ex)|]. apply nth_error_None in Ex. unfold n_agents in Hj. lia. }
  split.
  - assert (0 <= total (fun j => (1 - chance i j) * chance j i) (others i n)).
    { apply Rle_trans with (total (fun _ : nat => 0 * 0) (others i n)); [rewrite <- total_scale; lra|]. apply total_le. intros j Hj. pose proof (chance_range i j Hi). pose proof (chance_range j i (Hlt j Hj)). pose proof (Hact i Hi).
      rewrite Rmult_0_l. apply Rmult_le_pos; cbv beta in *; lra. }
    assert (0 <= r * total (fun j => (1 - chance i j) * chance j i) (others i n)) by (apply Rmult_le_pos; lra). lra.
  - rewrite <- (drawn_sum (closeness X beta i) (k i) n i) at 1; auto.
    2:{ unfold closeness. now rewrite Nat.eqb_refl. }
    2:{ intros v _ Hv. unfold closeness. destruct (Nat.eqb_spec v i); [congruence|]. apply exp_pos. }
    2:{ now apply Hcc. }
    rewrite <- total_lin.
    apply Rle_trans with (total (fun _ : nat => 1) (others i n)).
    + apply total_le. intros j Hj. pose proof (chance_range i j Hi) as C1. pose proof (chance_range j i (Hlt j Hj)) as C2. pose proof (Hact i Hi). pose proof (Hact j (Hlt j Hj)). cbv beta in *.
      set (a := act i * drawn_chance (closeness X beta i) (k i) n j) in *. set (b := act j * drawn_chance (closeness X beta j) (k j) n i) in *. clearbody a b.
      assert (0 <= (1 - a) * (1 - r * b)). { apply Rmult_le_pos; [lra|]. assert (r * b <= 1 * 1) by (apply Rmult_le_compat; lra). lra. } lra.
    + rewrite total_const. assert (El : S (length (others i n)) = n).
      { pose proof (total_others (fun _ => 1) i n Hi) as E. rewrite !total_const, seq_length in E. apply INR_eq. rewrite S_INR. lra. }
      replace (n - 1)%nat with (length (others i n)) by lia. lra.
Qed.

(** The expected number of edges between different agents, without reciprocity. *)
Theorem C111_expected_edges : r = 0 ->
  expectation (fun us => of_edges (fun es => total (fun i => contacts_of i n es) (seq 0 n)) (updated us)) (total (fun i => act i * INR (k i)) (seq 0 n)).
Proof using Hp Hl Hq Ho Hf Hwf Hd Hcc HX Hr Hr01.
  intros E. apply (expectation_ext (fun us => total (fun i => of_edges (contacts_of i n) (updated us)) (seq 0 n))).
  { intros us. symmetry. apply (of_edges_total (fun i => contacts_of i n)). }
  apply (expectation_total (fun i us => of_edges (contacts_of i n) (updated us))). intros i Hi. apply in_seq in Hi. apply C111_expected_contacts_one_way; auto. lia.
Qed.
End Degree.

(** In exact arithmetic the contact probabilities that the mean-field model computes for one agent whose activity
    is at most 1 never add up to more than its number of contacts. *)
Theorem C111_mean_field_contacts_at_most (lmR : Libm RA) (B : Type) (opsR : agent_ops (F RA) B) (stR : ad_settings (F RA)) (lR : list B) i x :
  lpow RA lmR = Rpow -> (2 <= length lR)%nat -> nth_error lR i = Some x -> get_activity opsR x <= 1 ->
  total (fun j => contact_probability (a:=RA) lmR opsR stR lR i j : R) (others i (length lR)) <= INR (contact_count (a:=RA) stR i).
Proof.
  intros HpR Hn Ex Hact. set (m := contact_count (a:=RA) stR i). set (n := length lR).
  assert (Hi : (i < n)%nat) by (apply nth_error_Some; congruence).
  set (s := fun j => share (a:=RA) lmR opsR stR lR i j : R).
  assert (Hs : forall j, (j < n)%nat -> 0 <= s j <= 1) by (intros; apply share_bounds; auto).
  assert (Hcp : forall j, (j < n)%nat -> contact_probability (a:=RA) lmR opsR stR lR i j <= INR m * s j).
  { intros j Hj. unfold contact_probability. rewrite Ex. specialize (Hs j Hj).
    fold m. assert (Ea : fmax RA (f1 RA) (get_activity opsR x) = 1). { unfold fmax. cbn [flt f1 RA]. destruct (Rltb_spec 1 (get_activity opsR x)); [lra|reflexivity]. }
    change (fmul RA (fmax RA (f1 RA) (get_activity opsR x)) (rounds (a:=RA) lmR (s j) m) <= INR m * s j). rewrite Ea. rewrite (rounds_R lmR HpR) by lra.
    cbn [fmul RA]. rewrite Rmult_1_l.
    apply Rle_trans with (Rsum (map (fun _ : nat => s j) (seq 1 m))).
    - assert (G : forall l, (forall u, In u l -> (1 <= u)%nat) -> Rsum (map (fun u => ((- s j) ^ (u + 1) + s j) / (s j + 1)) l) <= Rsum (map (fun _ : nat => s j) l)).
      { induction l as [|u l IH]; intros Hu; cbn [map]; [lra|]. rewrite !Rsum_cons. apply Rplus_le_compat; [|apply IH; intros; apply Hu; now right].
        apply (Rmult_le_reg_r (s j + 1)); [lra|]. unfold Rdiv. rewrite Rmult_assoc, Rinv_l, Rmult_1_r by lra.
        enough ((- s j) ^ (u + 1) <= s j * s j) by lra.
        pose proof (Hu u (or_introl eq_refl)) as H1. destruct u as [|u]; [lia|]. replace (S u + 1)%nat with (2 + u)%nat by lia. rewrite pow_add.
        replace ((- s j) ^ 2) with (s j * s j) by (cbn; ring). rewrite <- (Rmult_1_r (s j * s j)) at 2. apply Rmult_le_compat_l; [apply Rmult_le_pos; lra|].
        apply Rle_trans with (Rabs ((- s j) ^ u)); [apply Rle_abs|]. rewrite <- RPow_abs, Rabs_Ropp, Rabs_right by lra. rewrite <- (pow1 u). apply pow_incr. lra. }
      apply G. intros u Hu. apply in_seq in Hu. lia.
    - rewrite <- (total_Rsum (fun _ : nat => s j)), total_const, seq_length. lra. }
  assert (Hlt : forall j, In j (others i n) -> (j < n)%nat). { intros j Hj. unfold others in Hj. apply filter_In in Hj as (Hj & _). apply in_seq in Hj. lia. }
  apply Rle_trans with (total (fun j => INR m * s j) (others i n)); [apply total_le; intros j Hj; apply Hcp, Hlt, Hj|].
  rewrite <- total_scale.
  enough (total s (others i n) <= 1) by (pose proof (pos_INR m); apply Rle_trans with (INR m * 1); [apply Rmult_le_compat_l; lra|lra]).
  assert (E1 : total s (seq 0 n) = 1).
  { unfold s, share. cbn [fdiv RA]. rewrite total_affinity_R. set (W := Rsum (map (affinity (a:=RA) lmR opsR stR lR i) (seq 0 (length lR)))).
    assert (HW : 0 < W). { unfold W. rewrite <- total_affinity_R. apply total_affinity_pos; auto. }
    transitivity (total (fun j => / W * affinity (a:=RA) lmR opsR stR lR i j) (seq 0 n)); [apply total_ext; intros; unfold Rdiv; ring|].
    rewrite <- total_scale. rewrite total_Rsum. change (/ W * W = 1). field. lra. }
  rewrite (total_others s i n Hi) in E1. pose proof (Hs i Hi). lra.
Qed.

(** Three agents of activity 1/2 that contact two others: one contact each on average, three edges in all; with
    reciprocity 1/3, at least one and at most two contacts. *)
Example C111_instance :
  expectation (fun us => of_edges (contacts_of 0 3) (update_network_probabilistic (a:=EA) ext_libm tape_rng (list_pq EA) (activity_ops ext) (c109_settings 2 1 0) (c109_net (1/2)) us)) 1 /\
  expectation (fun us => of_edges (fun es => total (fun i => contacts_of i 3 es) (seq 0 3))
     (update_network_probabilistic (a:=EA) ext_libm tape_rng (list_pq EA) (activity_ops ext) (c109_settings 2 1 0) (c109_net (1/2)) us)) 3 /\
  exists v, expectation (fun us => of_edges (contacts_of 0 3) (update_network_probabilistic (a:=EA) ext_libm tape_rng (list_pq EA) (activity_ops ext) (c109_settings 2 1 (1/3)) (c109_net (1/2)) us)) v /\ 1 <= v <= 2.
Proof.
  destruct (c109_fit (1/2) 1 0 2 ltac:(lra) ltac:(lia) ltac:(lra)) as (F1 & F2 & F3 & F4).
  destruct (c109_fit (1/2) 1 (1/3) 2 ltac:(lra) ltac:(lia) ltac:(lra)) as (G1 & G2 & G3 & G4).
  split; [|split].
  - eapply expectation_val.
    + apply (C111_expected_contacts_one_way ext_libm (list_pq EA) (activity_agent ext) (activity_ops ext) (c109_settings 2 1 0) (c109_net (1/2)) c109_opinion (fun _ => 1) (fun _ => 1/2) 0
        eq_refl eq_refl (list_pq_bag EA) list_pq_ordered F1 F2 eq_refl F3 F4 eq_refl ltac:(lra) 0%nat eq_refl). cbn; lia.
    + change (contact_count (a:=EA) (c109_settings 2 1 0) 0) with 2%nat. cbn [INR]. lra.
  - eapply expectation_val.
    + apply (C111_expected_edges ext_libm (list_pq EA) (activity_agent ext) (activity_ops ext) (c109_settings 2 1 0) (c109_net (1/2)) c109_opinion (fun _ => 1) (fun _ => 1/2) 0
        eq_refl eq_refl (list_pq_bag EA) list_pq_ordered F1 F2 eq_refl F3 F4 eq_refl ltac:(lra) eq_refl).
    + change (n_agents (c109_net (1/2))) with 3%nat. unfold total. cbn [seq fold_right].
      change (contact_count (a:=EA) (c109_settings 2 1 0) 0) with 2%nat. change (contact_count (a:=EA) (c109_settings 2 1 0) 1) with 2%nat. change (contact_count (a:=EA) (c109_settings 2 1 0) 2) with 2%nat. cbn [INR]. lra.
  - destruct (C111_contacts_bounds ext_libm (list_pq EA) (activity_agent ext) (activity_ops ext) (c109_settings 2 1 (1/3)) (c109_net (1/2)) c109_opinion (fun _ => 1) (fun _ => 1/2) (1/3)
        eq_refl eq_refl (list_pq_bag EA) list_pq_ordered G1 G2 eq_refl G3 G4 eq_refl ltac:(lra) 0%nat) as (v & Hv & Hb); [cbn; lia|].
    exists v. split; [exact Hv|]. change (contact_count (a:=EA) (c109_settings 2 1 (1/3)) 0) with 2%nat in Hb. change (n_agents (c109_net (1/2)) - 1)%nat with 2%nat in Hb. cbn [INR] in Hb. lra.
Qed.
Example C111_mean_field_instance :
  total (fun j => contact_probability (a:=RA) real_libm (activity_ops (F RA)) (c109_mean_settings 2 0 0) c109_list 0 j : R) (others 0 3) <= 2.
Proof.
  pose proof (C111_mean_field_contacts_at_most real_libm _ (activity_ops (F RA)) (c109_mean_settings 2 0 0) c109_list 0 (mkActivity 0 1 1) eq_refl ltac:(cbn; lia) eq_refl ltac:(cbn; lra)) as H.
  change (contact_count (a:=RA) (c109_mean_settings 2 0 0) 0) with 2%nat in H. cbn [INR] in H. change (length c109_list) with 3%nat in H. lra.
Qed.

Print Assumptions C111_expected_contacts.
Print Assumptions C111_expected_contacts_one_way.
Print Assumptions C111_contacts_bounds.
Print Assumptions C111_expected_edges.
Print Assumptions C111_mean_field_contacts_at_most.
