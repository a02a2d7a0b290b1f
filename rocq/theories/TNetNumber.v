(** Property theorem C107: the law of the contact network does not depend on the numbering of the agents. *)
From Verif Require Import Base BaseFacts Arith64 MNetwork SNetwork MAgents MRandom SRandom PRandom RFacts PReservoir WRandom MActivity SActivity PActNet
  SProb SProb2 PProb PProb9 TRandom TProb3 SEquiv TEquiv SRenum SRelabel SNetNumber PNetNumber PRelabel.
From Coq Require Import Permutation Reals Lra.
Local Open Scope R_scope.

Section Settings.
Context (n : nat) (sg : nat -> nat) (st st' : ad_settings (F EA)).
Hypothesis Hst : settings_renumbered (D:=F EA) (f0 EA) sg n st st'.
Lemma Esame_bots : n_bots st' = n_bots st.
Proof using Hst. destruct Hst as ((bm & ba & bo & bh & ->) & _). reflexivity. Qed.
Lemma Ebot_number i : (i < n)%nat -> (sg i <? n_bots st)%nat = (i <? n_bots st)%nat.
Proof using Hst.
  intros Hi. destruct Hst as (_ & B & _). specialize (B i Hi). destruct (Nat.ltb_spec (sg i) (n_bots st)), (Nat.ltb_spec i (n_bots st)); auto; exfalso; lia.
Qed.
Lemma Ehomophily_turned i : (i < n)%nat -> homophily_of (a:=EA) st' (sg i) = homophily_of (a:=EA) st i.
Proof using Hst.
  intros Hi. unfold homophily_of. rewrite Esame_bots, Ebot_number by auto. destruct Hst as ((bm & ba & bo & bh & E) & _ & B).
  destruct (Nat.ltb_spec i (n_bots st)) as [Hb|Hb]; [apply (B i Hb)|]. now rewrite E.
Qed.
Lemma Ecount_turned i : (i < n)%nat -> contact_count (a:=EA) st' (sg i) = contact_count (a:=EA) st i.
Proof using Hst.
  intros Hi. unfold contact_count. rewrite Esame_bots, Ebot_number by auto. destruct Hst as ((bm & ba & bo & bh & E) & _ & B).
  destruct (Nat.ltb_spec i (n_bots st)) as [Hb|Hb]; [now rewrite (proj1 (B i Hb))|]. now rewrite E.
Qed.
End Settings.

(** C107. Two populations that differ only by the numbering of the agents (agent [i] of the first is agent [sg i] of the second,
    and so for the bots): after one probabilistic update every event about the contact network, and every other function [f] of the
    set of its edges, has the same probability (expectation) in both, the edges of the second being read with the old numbers. *)
Theorem C107_network_law (lm : Libm EA) (q : PQ EA) (A : Type) (ops : agent_ops (F EA) A)
  (st st' : ad_settings (F EA)) (h h' : network A (F EA)) (sg tau : nat -> nat) (X beta act : nat -> R) (r : R) (f : list (nat * nat) -> R) :
  lpow EA lm = epow -> llog EA lm = elog -> pq_bag q -> pq_ordered (a:=EA) (fun x : ext => exists r, x = Fin r) q ->
  settings_fit (a:=EA) st (n_agents h) -> wf h -> dir h = Incoming ->
  settings_fit (a:=EA) st' (n_agents h') -> wf h' -> dir h' = Incoming ->
  renumbering (n_agents h) sg -> (forall i, tau (sg i) = i) ->
  settings_renumbered (D:=F EA) (f0 EA) sg (n_agents h) st st' -> relabelled sg (agents h) (agents h') ->
  (forall i, (i < n_agents h)%nat -> (1 <= contact_count (a:=EA) st i < n_agents h)%nat) ->
  (forall i x, nth_error (agents h) i = Some x ->
     get_opinion ops x = Fin (X i) /\ get_activity ops x = Fin (act i) /\ 0 <= act i <= 1 /\ homophily_of (a:=EA) st i = Fin (beta i)) ->
  reciprocity st = Fin r -> 0 <= r <= 1 ->
  (forall e e', Permutation e e' -> f e = f e') ->
  exists v,
    expectation (fun us => of_edges f (update_network_probabilistic (a:=EA) lm tape_rng q ops st h us)) v /\
    expectation (fun us => of_edges (fun es => f (map (renamed tau) es)) (update_network_probabilistic (a:=EA) lm tape_rng q ops st' h' us)) v.
Proof.
  intros Hp Hl Hq Ho Hf Hwf Hd Hf' Hwf' Hd' Hsg Htau Hst Hrel Hcc HX Hr Hr01 Hperm.
  pose proof (C72_network_law lm q A ops st h X beta act r f Hp Hl Hq Ho Hf Hwf Hd Hcc HX Hr Hr01 Hperm) as H1.
  assert (EN : n_agents h' = n_agents h) by exact (proj1 Hrel).
  assert (Hsur : forall i', (i' < n_agents h)%nat -> exists i, (i < n_agents h)%nat /\ i' = sg i).
  { intros i' Hi'. assert (Hin : In i' (map sg (seq 0 (n_agents h)))).
    { eapply Permutation_in; [apply Permutation_sym, (renumbering_perm _ sg Hsg)|apply in_seq; lia]. }
    apply in_map_iff in Hin as (i & E & Hi). apply in_seq in Hi. exists i. split; [lia|auto]. }
  set (n := n_agents h) in *.
  set (X' := fun i => X (tau i)). set (beta' := fun i => beta (tau i)). set (act' := fun i => act (tau i)).
  assert (H2 : expectation (fun us => of_edges (fun es => f (map (renamed tau) es)) (update_network_probabilistic (a:=EA) lm tape_rng q ops st' h' us))
    (over_rows (map (fun i => row_law (act' i) (closeness X' beta' i) (contact_count (a:=EA) st' i) (n_agents h')) (seq 0 (n_agents h')))
       (fun cs => over_coins r (one_way cs) (fun sel => f (map (renamed tau) (contact_pairs cs ++ map reversed sel)))))).
  { apply (C72_network_law lm q A ops st' h' X' beta' act' r (fun es => f (map (renamed tau) es))); auto.
    - intros i' Hi'. rewrite EN in *. destruct (Hsur i' Hi') as (i & Hi & ->). rewrite (Ecount_turned n sg st st' Hst i Hi). now apply Hcc.
    - intros i' x Ex. assert (Hi' : (i' < n)%nat). { rewrite <- EN. apply nth_error_Some. unfold n_agents in *. rewrite Ex. discriminate. }
      destruct (Hsur i' Hi') as (i & Hi & ->). rewrite (proj2 Hrel i Hi) in Ex. destruct (HX i x Ex) as (G1 & G2 & G3 & G4).
      unfold X', act', beta'. rewrite !Htau, (Ehomophily_turned n sg st st' Hst i Hi). auto.
    - destruct Hst as ((bm & ba & bo & bh & ->) & _). exact Hr.
    - intros e e' P. apply Hperm, Permutation_map, P. }
  rewrite EN in H2. eexists. split; [exact H1|].
  match type of H2 with expectation _ ?b => match type of H1 with expectation _ ?a => replace a with b; [exact H2|] end end.
  rewrite !(over_rows_keys []) by apply seq_NoDup.
  rewrite <- (over_keys_perm [] _ _ _ (renumbering_perm n sg Hsg)).
  2:{ eapply Permutation_NoDup; [apply Permutation_sym, (renumbering_perm n sg Hsg)|apply seq_NoDup]. }
  rewrite (over_keys_map [] sg tau Htau).
  rewrite (over_keys_values [] (map sg) (fun i => row_law (act i) (closeness X beta i) (contact_count (a:=EA) st i) n)); auto.
  - apply over_keys_ext. intros c. exact (coins_renamed n sg tau Hsg Htau c r f Hperm).
  - intros k Hk. apply in_seq in Hk. rewrite (Ecount_turned n sg st st' Hst k) by lia. unfold act'. rewrite Htau.
    apply (row_law_renamed n sg Hsg). intros j Hj. unfold closeness, X', beta'. rewrite !Htau.
    replace (sg j =? sg k)%nat with (j =? k)%nat; auto. destruct (Nat.eqb_spec j k) as [->|Hne]; symmetry; [apply Nat.eqb_refl|].
    apply Nat.eqb_neq. intros E. apply Hne. rewrite <- (Htau j), <- (Htau k). now rewrite E.
Qed.

(** Two bots with different numbers of contacts and homophilies exchange their numbers, and so do two other agents. *)
Definition exchange (i : nat) : nat := match i with 0 => 1 | 1 => 0 | 2 => 3 | 3 => 2 | _ => i end%nat.
Lemma exchange_twice i : exchange (exchange i) = i.
Proof. destruct i as [|[|[|[|i]]]]; reflexivity. Qed.
Lemma exchange_renumbering : renumbering 4 exchange.
Proof.
  split.
  - intros [|[|[|[|i]]]] Hi; cbn; lia.
  - intros i j _ _ E. rewrite <- (exchange_twice i), <- (exchange_twice j). now rewrite E.
Qed.
Definition c107_agent (x : R) (c : R) : activity_agent ext := mkActivity (Fin x) (Fin c) (Fin 1).
Definition c107_net (first : bool) : network (activity_agent ext) ext :=
  mkNet (if first then [c107_agent 0 (1/2); c107_agent 1 (1/4); c107_agent 2 (1/3); c107_agent (-3) 1]
         else [c107_agent 1 (1/4); c107_agent 0 (1/2); c107_agent (-3) 1; c107_agent 2 (1/3)]) [[]; []; []; []] [[]; []; []; []] Incoming.
Definition c107_settings (first : bool) : ad_settings ext :=
  mkADS None (Fin 0) 3 (Fin 0) (Fin 0) (Fin 0) (Fin 2) (Fin (1/3)) (Fin 0) false false 2
    (if first then [1; 2]%Z else [2; 1]%Z) (if first then [Fin (1/2); Fin (1/4)] else [Fin (1/4); Fin (1/2)])
    (if first then [Fin 0; Fin 1] else [Fin 1; Fin 0]) (if first then [Fin (1/5); Fin 3] else [Fin 3; Fin (1/5)])
    false (Fin 1) (Fin 0) (Fin 0) (Fin 0).
Lemma c107_fit b : settings_fit (a:=EA) (c107_settings b) (n_agents (c107_net b)) /\ wf (c107_net b) /\ dir (c107_net b) = Incoming.
Proof.
  split; [|split; [|reflexivity]].
  - unfold settings_fit, n_agents. destruct b; cbn [m n_bots bot_m bot_homophily c107_settings agents c107_net length]; (split; [lia|]); (split; [lia|]);
      (split; [lia|]); (split; [lia|]); intros [|[|i]] Hi; cbn; lia.
  - destruct b; (split; [reflexivity|]); (split; [reflexivity|]); split; cbn; intros [|[|[|[|i]]]] Hi; cbn; try lia; auto; try tauto; destruct i; cbn in *; tauto.
Qed.
Example C107_instance : exists v,
  expectation (fun us => of_edges (has_edge 0 2) (update_network_probabilistic (a:=EA) ext_libm tape_rng (list_pq EA) (activity_ops ext) (c107_settings true) (c107_net true) us)) v /\
  expectation (fun us => of_edges (fun es => has_edge 0 2 (map (renamed exchange) es))
    (update_network_probabilistic (a:=EA) ext_libm tape_rng (list_pq EA) (activity_ops ext) (c107_settings false) (c107_net false) us)) v.
Proof.
  set (X := fun k => match k with 0%nat => 0 | 1%nat => 1 | 2%nat => 2 | _ => -3 end).
  set (act := fun k => match k with 0%nat => 1/2 | 1%nat => 1/4 | 2%nat => 1/3 | _ => 1 end).
  set (beta := fun k => match k with 0%nat => 1/5 | 1%nat => 3 | _ => 2 end).
  destruct (c107_fit true) as (F1 & W1 & D1). destruct (c107_fit false) as (F2 & W2 & D2).
  apply (C107_network_law ext_libm (list_pq EA) (activity_agent ext) (activity_ops ext) (c107_settings true) (c107_settings false) (c107_net true) (c107_net false)
    exchange exchange X beta act (1/3) (has_edge 0 2) eq_refl eq_refl (list_pq_bag EA) list_pq_ordered F1 W1 D1 F2 W2 D2 exchange_renumbering exchange_twice); try lra; auto.
  - split; [do 4 eexists; reflexivity|]. split.
    + intros [|[|[|[|i]]]] Hi; cbn in *; lia.
    + intros [|[|i]] Hi; cbn in *; auto; lia.
  - split; [reflexivity|]. intros [|[|[|[|i]]]] Hi; cbn in *; auto; lia.
  - intros [|[|[|[|i]]]] Hi; cbn in *; lia.
  - intros [|[|[|[|k]]]] y Hy; cbn in Hy; try (injection Hy as <-; cbn; repeat split; lra). destruct k; discriminate.
  - intros e e' P. unfold has_edge. destruct (existsb _ e) eqn:E1; destruct (existsb _ e') eqn:E2; auto.
    + apply existsb_exists in E1 as (x & Hx & Ex). apply (Permutation_in _ P) in Hx. assert (existsb (fun p : nat * nat => ((fst p =? 0)%nat && (snd p =? 2)%nat)%bool) e' = true); [|congruence]. apply existsb_exists; eauto.
    + apply existsb_exists in E2 as (x & Hx & Ex). apply (Permutation_in _ (Permutation_sym P)) in Hx. assert (existsb (fun p : nat * nat => ((fst p =? 0)%nat && (snd p =? 2)%nat)%bool) e = true); [|congruence]. apply existsb_exists; eauto.
Qed.

Print Assumptions C107_network_law.
Print Assumptions C107_instance.
