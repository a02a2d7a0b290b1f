(** Proofs about the Deffuant models. *)
From Verif Require Import Base BaseFacts Arith64 MRandom SRandom PRandom TRandom MNetwork SNetwork PNetwork2 MAgents MDeGroot SDeGroot MDeffuant SDeffuant.
From Coq Require Import Sorting.Sorted.

Section P.
Context {a : Arith} (g : Rng a).
Hypothesis Hs : sample_ok g.
Hypothesis Hi : int_ok g.

Lemma select_ok {A : Type} use (net : network A (F a)) s : 0 < n_agents net -> can_select use net ->
  exists i j s', select_interacting_agent_pair g use net s = Ok ([i; j], s') /\ valid_pair use net (i, j).
Proof.
  intros Hn Hc. unfold select_interacting_agent_pair. destruct use; cbn [negb].
  - destruct Hc as [Hc|(Hw & HN & Hr)]; [discriminate|].
    rewrite to_size_t_small by lia.
    pose proof (Hi 0%Z (Z.of_nat (n_agents net) - 1)%Z s ltac:(lia)) as B1. destruct (r_int g 0 (Z.of_nat (n_agents net) - 1) s) as [z1 s1]. cbn [fst] in B1.
    assert (L1 : Z.to_nat z1 < n_agents net) by lia. destruct (Hr _ L1) as [R1 R2]. destruct Hw as (W1 & W2 & W3 & W4).
    unfold get_neighbours. rewrite (vget_lt _ _ _ []) by (unfold n_agents in L1; lia). cbn [bind].
    set (row := nth (Z.to_nat z1) (neigh net) []) in *.
    rewrite to_size_t_small by lia.
    pose proof (Hi 0%Z (Z.of_nat (length row) - 1)%Z s1 ltac:(lia)) as B2. destruct (r_int g 0 (Z.of_nat (length row) - 1) s1) as [z2 s2]. cbn [fst] in B2.
    assert (L2 : Z.to_nat z2 < length row) by lia. rewrite (vget_lt _ _ _ 0) by exact L2. cbn [bind].
    do 3 eexists. split; [reflexivity|]. assert (In (nth (Z.to_nat z2) row 0) row) by (now apply nth_In).
    repeat split; cbn [fst snd]; auto; try discriminate. eapply W4. exact H.
  - destruct (Nat.lt_ge_cases (n_agents net) 2) as [H1|H2].
    + destruct (C12_draw_surplus a g None 2 (n_agents net) [] s Hs) as (out & s' & E & HL & H0 & HP); [cbn; lia|].
      cbn [population_size] in *.
      assert (E1 : n_agents net = 1) by lia. rewrite E1 in *.
      destruct out as [|x [|y [|? ?]]]; try discriminate. specialize (H0 0 ltac:(lia)). specialize (HP 1 ltac:(lia)). cbn in H0, HP. subst.
      do 3 eexists. split; [exact E|]. repeat split; cbn [fst snd]; try lia; try discriminate.
    + destruct (C12_draw_unique a g None 2 (n_agents net) [] s Hs) as (out & s' & E & HL & H3 & H4 & H5); [cbn; lia|].
      destruct out as [|x [|y [|? ?]]]; try discriminate. do 3 eexists. split; [exact E|].
      inversion H3 as [|? ? ? Hx]; subst. inversion Hx; subst.
      repeat split; cbn [fst snd]; try discriminate; auto; apply H5; cbn; auto.
Qed.

(** Selection looks at the adjacency lists and the number of agents only. *)
Lemma select_ext {A : Type} use (net : network A (F a)) l s : length l = n_agents net ->
  select_interacting_agent_pair g use (with_agents net l) s = select_interacting_agent_pair g use net s.
Proof.
  intros HL. unfold select_interacting_agent_pair. unfold n_agents, get_neighbours in *. cbn [agents neigh with_agents]. rewrite HL. reflexivity.
Qed.
Lemma can_select_ext {A : Type} use (net : network A (F a)) l : length l = n_agents net ->
  can_select use net -> can_select use (with_agents net l).
Proof.
  intros HL [->|((W1 & W2 & W3 & W4) & HN & Hr)]; [now left|]. right. unfold wf, n_agents in *. cbn [agents neigh wts with_agents]. rewrite HL. auto 6.
Qed.
Lemma valid_ext {A : Type} use (net : network A (F a)) l p : length l = n_agents net ->
  valid_pair use (with_agents net l) p <-> valid_pair use net p.
Proof. intros HL. unfold valid_pair, n_agents in *. cbn [agents neigh with_agents]. rewrite HL. tauto. Qed.
Lemma drawn_ext {A : Type} use (net : network A (F a)) l s ps s' : length l = n_agents net ->
  pairs_drawn g use (with_agents net l) s ps s' -> pairs_drawn g use net s ps s'.
Proof.
  intros HL H. induction H as [s|s i j s1 ps s2 E H IH]; [constructor|]. rewrite select_ext in E by auto. econstructor; eauto.
Qed.
Lemma drawn_app {A : Type} use (net : network A (F a)) s ps s1 qs s2 :
  pairs_drawn g use net s ps s1 -> pairs_drawn g use net s1 qs s2 -> pairs_drawn g use net s (ps ++ qs) s2.
Proof. induction 1; cbn; auto. intros. econstructor; eauto. Qed.
Lemma met_app threshold mu (xs : list (F a)) ps ys qs zs :
  met threshold mu xs ps ys -> met threshold mu ys qs zs -> met threshold mu xs (ps ++ qs) zs.
Proof. induction 1; cbn; auto. intros. econstructor; eauto. Qed.

Notation sagent := (simple_agent (F a)).

Lemma update_simple_ok threshold mu i j (l : list sagent) s : i < length l -> j < length l ->
  exists l', update_rule_simple g threshold mu i j l s = Ok (l', s) /\ length l' = length l /\
    meets threshold mu i j (map s_opinion l) (map s_opinion l').
Proof.
  intros L1 L2. unfold update_rule_simple.
  destruct (nth_error l i) as [x|] eqn:Ex; [|apply nth_error_None in Ex; lia].
  destruct (nth_error l j) as [y|] eqn:Ey; [|apply nth_error_None in Ey; lia].
  rewrite (proj2 (vget_ok _ l i x) Ex), (proj2 (vget_ok _ l j y) Ey). cbn [bind].
  set (d := fsub a (s_opinion x) (s_opinion y)).
  destruct (flt a (fabs a d) threshold) eqn:T.
  - rewrite vset_ok by auto. cbn [bind].
    set (l1 := upd l i (mkSimple (fsub a (s_opinion x) (fmul a mu d)))).
    assert (LL : length l1 = length l) by apply upd_length.
    destruct (nth_error l1 j) as [z|] eqn:Ez; [|apply nth_error_None in Ez; lia].
    rewrite (proj2 (vget_ok _ l1 j z) Ez). cbn [bind]. rewrite vset_ok by lia. cbn [bind].
    eexists. split; [reflexivity|]. split; [now rewrite upd_length|].
    split; [now rewrite !map_length, upd_length|]. split.
    + intros k Hki Hkj. rewrite !nth_error_map. rewrite nth_error_upd_neq by auto. unfold l1. now rewrite nth_error_upd_neq by auto.
    + intros u v Hu Hv. rewrite nth_error_map in Hu, Hv. rewrite Ex in Hu. rewrite Ey in Hv. cbn in Hu, Hv. injection Hu as <-. injection Hv as <-.
      cbv zeta; fold d; rewrite T; split.
      * intros Hne. unfold l1 in Ez. rewrite nth_error_upd_neq in Ez by auto. rewrite Ey in Ez. injection Ez as <-.
        rewrite !nth_error_map. split; [|rewrite nth_error_upd_eq by lia; reflexivity].
        rewrite nth_error_upd_neq by auto. unfold l1. rewrite nth_error_upd_eq by lia. reflexivity.
      * intros <-. unfold l1 in Ez. rewrite nth_error_upd_eq in Ez by auto. injection Ez as <-.
        rewrite nth_error_map, nth_error_upd_eq by lia. reflexivity.
  - eexists. split; [reflexivity|]. split; auto. split; auto. split; auto.
    intros u v Hu Hv. rewrite nth_error_map in Hu, Hv. rewrite Ex in Hu. rewrite Ey in Hv. cbn in Hu, Hv. injection Hu as <-. injection Hv as <-.
    cbv zeta; fold d; now rewrite T.
Qed.

Definition sop (l : list sagent) : list (F a) := map s_opinion l.

Lemma encounter_ok threshold mu use (net : network sagent (F a)) s : 0 < n_agents net -> can_select use net ->
  exists i j l' s', select_interacting_agent_pair g use net s = Ok ([i; j], s') /\ valid_pair use net (i, j) /\
    encounter g (update_rule_simple g threshold mu) use net s = Ok (with_agents net l', s') /\
    length l' = n_agents net /\ meets threshold mu i j (opinions net) (sop l').
Proof.
  intros Hn Hc. destruct (select_ok use net s Hn Hc) as (i & j & s' & E & V).
  pose proof V as (V1 & V2 & _). cbn [fst snd] in V1, V2.
  destruct (update_simple_ok threshold mu i j (agents net) s' V1 V2) as (l' & E' & HL & HM).
  exists i, j, l', s'. split; auto. split; auto. unfold encounter. rewrite E. cbn [bind vget nth_error].
  rewrite E'. cbn [bind]. auto.
Qed.

Lemma encounters_ok threshold mu use n : forall (net : network sagent (F a)) s i0, 0 < n_agents net -> can_select use net ->
  exists l' s' ps, for_from i0 n (fun _ st => let '(network, s) := st in encounter g (update_rule_simple g threshold mu) use network s) (net, s)
      = Ok (with_agents net l', s') /\ length l' = n_agents net /\ length ps = n /\
    pairs_drawn g use net s ps s' /\ Forall (valid_pair use net) ps /\ met threshold mu (opinions net) ps (sop l').
Proof.
  induction n as [|n IH]; intros net s i0 Hn Hc.
  - exists (agents net), s, []. cbn [for_from]. split; [now destruct net|]. repeat split; auto; constructor.
  - cbn [for_from]. destruct (encounter_ok threshold mu use net s Hn Hc) as (i & j & l1 & s1 & E1 & V & E2 & HL & HM).
    rewrite E2. cbn [bind].
    assert (Hn1 : n_agents (with_agents net l1) = n_agents net) by exact HL.
    destruct (IH (with_agents net l1) s1 (S i0)) as (l' & s' & ps & E & HL' & Hps & Hd & Hv & Hm).
    + rewrite Hn1. exact Hn.
    + now apply can_select_ext.
    + exists l', s', ((i, j) :: ps). rewrite E. split; [reflexivity|]. split; [congruence|]. split; [cbn; congruence|].
      split; [|split].
      * econstructor; eauto. eapply drawn_ext; eauto.
      * constructor; auto. eapply Forall_impl; [|exact Hv]. intros p. now apply valid_ext.
      * econstructor; eauto.
Qed.

Lemma iteration_ok (m : deffuant (simple_agent (F a))) s : can_select (use_network m) (df_net m) ->
  exists l' s' ps, simple_iteration g m s =
      Ok (mkDeffuant (base_iteration (df_base m)) (homophily_threshold m) (mu m) (use_network m) (with_agents (df_net m) l'), s') /\
    length l' = n_agents (df_net m) /\ length ps = n_agents (df_net m) /\
    pairs_drawn g (use_network m) (df_net m) s ps s' /\ Forall (valid_pair (use_network m) (df_net m)) ps /\
    met (homophily_threshold m) (mu m) (opinions (df_net m)) ps (sop l').
Proof.
  intros Hc. unfold simple_iteration, deffuant_iteration.
  destruct (Nat.eq_dec (n_agents (df_net m)) 0) as [E0|Hn].
  - rewrite E0. cbn [for_n for_from bind]. exists (agents (df_net m)), s, []. split; [now destruct (df_net m)|].
    repeat split; auto; constructor.
  - destruct (encounters_ok (homophily_threshold m) (mu m) (use_network m) (n_agents (df_net m)) (df_net m) s 0 ltac:(lia) Hc)
      as (l' & s' & ps & E & R). exists l', s', ps. unfold for_n. rewrite E. cbn [bind]. auto.
Qed.

Lemma run_ok k : forall (m : deffuant (simple_agent (F a))) s, can_select (use_network m) (df_net m) ->
  exists m' s' ps, simple_run g k m s = Ok (m', s') /\
    (exists l', df_net m' = with_agents (df_net m) l' /\ length l' = n_agents (df_net m)) /\
    homophily_threshold m' = homophily_threshold m /\ mu m' = mu m /\ use_network m' = use_network m /\
    max_iterations (df_base m') = max_iterations (df_base m) /\
    length ps = k * n_agents (df_net m) /\
    pairs_drawn g (use_network m) (df_net m) s ps s' /\ Forall (valid_pair (use_network m) (df_net m)) ps /\
    met (homophily_threshold m) (mu m) (opinions (df_net m)) ps (opinions (df_net m')).
Proof.
  induction k as [|k IH]; intros m s Hc; cbn [simple_run].
  - exists m, s, []. split; auto. split; [exists (agents (df_net m)); split; [now destruct (df_net m)|reflexivity]|].
    repeat split; auto; constructor.
  - destruct (iteration_ok m s Hc) as (l1 & s1 & ps1 & E1 & HL1 & Hp1 & D1 & V1 & M1). rewrite E1. cbn [bind].
    match goal with |- context [simple_run g k ?x s1] => set (m1 := x) end.
    destruct (IH m1 s1) as (m' & s' & ps & E & (l' & En & HL') & H1 & H2 & H3 & H4 & H5 & D & V & M).
    { unfold m1. cbn [use_network df_net]. now apply can_select_ext. }
    assert (Hn : n_agents (df_net m1) = n_agents (df_net m)) by exact HL1.
    exists m', s', (ps1 ++ ps). split; auto. split; [|split; [exact H1|split; [exact H2|split; [exact H3|split; [exact H4|]]]]].
    { exists l'. rewrite En. split; [reflexivity|]. congruence. }
    split; [rewrite app_length, H5, Hn; lia|]. split; [|split].
    + eapply drawn_app; eauto. unfold m1 in D. cbn [use_network df_net] in D. eapply drawn_ext; eauto.
    + apply Forall_app. split; auto. eapply Forall_impl; [|exact V]. intros p. now apply valid_ext.
    + eapply met_app; eauto.
Qed.

(** Invariants of encounters are invariants of runs. *)
Lemma met_inv (P : list (F a) -> Prop) threshold mu n (ok : nat * nat -> Prop) :
  (forall xs i j xs', length xs = n -> ok (i, j) -> P xs -> meets threshold mu i j xs xs' -> P xs') ->
  forall xs ps xs', met threshold mu xs ps xs' -> length xs = n -> Forall ok ps -> P xs -> P xs'.
Proof.
  intros H xs ps xs' M. induction M as [xs|xs i j xs1 ps xs2 M1 M IH]; intros HL HF HP; auto.
  inversion HF; subst. apply IH; auto; [now rewrite (proj1 M1)|]. eapply H; eauto.
Qed.
End P.
