(** The law of a run of the inertial model with probabilistic contacts. *)
From Verif Require Import Base BaseFacts Arith64 MNetwork SNetwork PNetwork PNetwork2 MAgents MDeGroot MRandom SRandom PRandom RFacts PReservoir MActivity SActivity PActStep PActNet
  PActIter PActIter2 SProb SProb2 PProb PProb2 PProb9 PProb10 PProb11 TRandom TProb TProb2 TProb3 SNetRun PNetRun SInertiaRun.
From Coq Require Import Permutation Reals Lra FunctionalExtensionality.
Local Open Scope R_scope.

(** ** What follows the update of the network *)
Section After.
Context {a : Arith} (lm : Libm a).
Notation D := (F a).
Notation inn := (inertial_ops D).
Definition after_contacts (im : inertial_model (a:=a)) (h : network (inertial_agent D) D) : res (inertial_model (a:=a)) :=
  let md := im_ad im in let st := ad_set md in
  bind (calc_position lm st (friction_coefficient im) h) (fun dl =>
  bind (calc_velocity lm st (friction_coefficient im) (fst dl) (with_agents h (snd dl))) (fun l =>
  bind (reset_bots inn st l) (fun l => Ok (mkIM (mkAD (base_iteration (ad_base md)) st (with_agents h l) (contact_prob_list md)) (friction_coefficient im))))).
Lemma inertial_splits (g : Rng a) (q : PQ a) (im : inertial_model (a:=a)) us : mean_weights (ad_set (im_ad im)) = false ->
  inertial_iteration lm g q im us =
  bind (update_network_probabilistic lm g q inn (ad_set (im_ad im)) (ad_net (im_ad im)) us) (fun hs => bind (after_contacts im (fst hs)) (fun m => Ok (m, snd hs))).
Proof using.
  intros Hw. unfold inertial_iteration, update_network, after_contacts. rewrite Hw. cbn [negb].
  destruct (update_network_probabilistic _ _ _ _ _ _ _) as [[h s]| | |]; cbn [bind fst snd]; auto.
  destruct (calc_position _ _ _ _) as [[d l]| | |]; cbn [bind fst snd]; auto. destruct (calc_velocity _ _ _ _ _) as [l'| | |]; cbn [bind]; auto.
  destruct (reset_bots _ _ _) as [l2| | |]; cbn [bind]; auto.
Qed.
Lemma after_contacts_ok (im : inertial_model (a:=a)) (h : network (inertial_agent D) D) : ad_ready (im_ad im) ->
  let md := im_ad im in let st := ad_set md in let fr := friction_coefficient im in
  mean_weights st = false -> agents h = agents (ad_net md) -> wf h -> dir h = Incoming ->
  exists im', after_contacts im h = Ok im' /\ ad_ready (im_ad im') /\ ad_set (im_ad im') = st /\ friction_coefficient im' = fr /\
    length (agents (ad_net (im_ad im'))) = length (agents (ad_net md)) /\
    let xs := map i_opinion (agents (ad_net md)) in
    let drift := field lm inn st h xs in
    exists xs', length xs' = length xs /\
      (forall i x, nth_error (agents (ad_net md)) i = Some x ->
         nth_error xs' i = Some (verlet_position (dt st) fr (i_opinion x) (i_velocity x) (nth i drift (f0 a)))) /\
      forall i x, nth_error (agents (ad_net md)) i = Some x ->
        nth_error (agents (ad_net (im_ad im'))) i = Some (mkInertial
          (if (i <? n_bots st)%nat then nth i (bot_opinion st) (f0 a) else nth i xs' (f0 a))
          (i_activity x) (i_reluctance x)
          (verlet_velocity (dt st) fr (i_velocity x) (nth i drift (f0 a)) (nth i (field lm inn st h xs') (f0 a)))).
Proof using.
  intros Hr md st fr Hw E1 E2 E3. unfold after_contacts. fold md st fr.
  rewrite calc_position_ok by auto. cbn [bind fst snd].
  set (drift := field lm inn st h (in_opinions h)).
  set (l1 := map _ (combine (seq 0 (n_agents h)) (agents h))).
  assert (L1 : length l1 = n_agents h) by (unfold l1; rewrite map_length, combine_length, seq_length; unfold n_agents; lia).
  pose proof (wf_with_agents h l1 L1 E2) as W1.
  assert (Nn : n_agents h = n_agents (ad_net md)) by (unfold n_agents; now rewrite E1).
  assert (N1 : n_agents (with_agents h l1) = n_agents h) by exact L1.
  rewrite calc_velocity_ok; auto. 2:{ unfold drift. rewrite field_length. now rewrite N1. }
  cbn [bind].
  set (l2 := map _ (combine (seq 0 (n_agents (with_agents h l1))) (agents (with_agents h l1)))).
  assert (L2 : length l2 = n_agents h).
  { unfold l2. rewrite map_length, combine_length, seq_length. cbn [agents with_agents]. rewrite N1. lia. }
  pose proof Hr as (R1 & R2 & R3 & R4 & R5 & R6). fold md in R1, R2, R3, R4, R5, R6. fold st in R3, R4, R5, R6.
  rewrite reset_bots_ok by lia. cbn [bind].
  eexists _. split; [reflexivity|]. cbn [im_ad friction_coefficient].
  split. { refine (ready_next md (base_iteration (ad_base md)) h (contact_prob_list md) _ Hr E1 E2 E3 _ _).
    - intros C. exfalso. fold st in C. congruence.
    - rewrite reset_spec_length. auto. }
  split; [reflexivity|]. split; [reflexivity|]. cbn [ad_set ad_base ad_net with_agents neigh wts dir agents].
  split. { rewrite reset_spec_length, L2. exact Nn. }
  assert (Exs : in_opinions h = map i_opinion (agents (ad_net md))) by (unfold in_opinions; now rewrite E1).
  rewrite <- Exs. fold drift.
  exists (map i_opinion l1). split.
  { unfold in_opinions. rewrite !map_length. exact L1. }
  assert (P1 : forall i x, nth_error (agents (ad_net md)) i = Some x ->
     nth_error l1 i = Some (set_opinion inn x (verlet_position (dt st) fr (i_opinion x) (i_velocity x) (nth i drift (f0 a))))).
  { intros i x Hx. unfold l1.
    rewrite (nth_error_indexed _ _ (fun i x => set_opinion inn x (verlet_position (dt st) fr (i_opinion x) (i_velocity x) (nth i drift (f0 a)))));
      [|reflexivity]. rewrite E1, Hx. reflexivity. }
  split.
  - intros i x Hx. rewrite nth_error_map, (P1 i x Hx). reflexivity.
  - intros i x Hx. rewrite nth_error_reset. unfold l2.
    rewrite (nth_error_indexed _ _ (fun i x => set_velocity x (verlet_velocity (dt st) fr (i_velocity x) (nth i drift (f0 a))
        (nth i (field lm inn st (with_agents h l1) (in_opinions (with_agents h l1))) (f0 a))))); [|reflexivity].
    cbn [agents with_agents]. rewrite (P1 i x Hx). cbn [option_map].
    assert (Ef : field lm inn st (with_agents h l1) (in_opinions (with_agents h l1)) = field lm inn st h (map i_opinion l1)).
    { unfold field, in_opinions. cbn [agents with_agents]. rewrite N1. apply map_ext_in. intros j Hj. apply in_seq in Hj.
      rewrite E1. destruct (nth_error (agents (ad_net md)) j) as [y|] eqn:Ey.
      - rewrite (P1 j y Ey). reflexivity.
      - apply nth_error_None in Ey. unfold n_agents in *. lia. }
    rewrite Ef. f_equal.
    assert (En : nth i (map i_opinion l1) (f0 a) = verlet_position (dt st) fr (i_opinion x) (i_velocity x) (nth i drift (f0 a))).
    { apply nth_error_nth. rewrite nth_error_map, (P1 i x Hx). reflexivity. }
    rewrite En. destruct (i <? n_bots st)%nat; reflexivity.
Qed.
End After.

(** ** The drift with finite values *)
Section Dynamics.
Context (lm : Libm EA).
Hypothesis Ht : forall x : R, ltanh EA lm (Fin x) = Fin (tanh x).
Variable c : contact_model.
Variables (st : ad_settings ext) (h : network (inertial_agent ext) ext) (es : list (nat * nat)).
Hypothesis Hn : n_agents h = cm_n c.
Hypothesis HKc : K st = Fin (cm_K c).
Hypothesis Hal : alpha st = Fin (cm_alpha c).
Hypothesis Hrel : forall i, (i < cm_n c)%nat -> cm_reluctance c i <> 0 /\ exists x, nth_error (agents h) i = Some x /\ i_reluctance x = Fin (cm_reluctance c i).
Hypothesis Hwf : wf h.
Hypothesis Hd : dir h = Incoming.
Hypothesis He : Permutation (edges h) (map (unit_edge (a:=EA)) es).
Lemma inertial_field_fin X : field (a:=EA) lm (inertial_ops ext) st h (fins c X) = fins c (drift c es X).
Proof using All.
  unfold field. match goal with |- map _ (seq 0 ?m) = _ => replace m with (cm_n c) by (symmetry; exact Hn) end. unfold fins at 2. apply map_ext_in. intros i Hi. apply in_seq in Hi.
  destruct (Hrel i ltac:(lia)) as (Hrho & x & Ex & Er).
  match goal with |- match ?t with _ => _ end = _ => change t with (nth_error (agents h) i); rewrite Ex end. cbn [get_reluctance inertial_ops]. rewrite Er.
  match goal with |- slope lm ?t _ _ _ _ _ = _ => change t with (K st); rewrite HKc end.
  match goal with |- slope lm _ ?t _ _ _ _ = _ => change t with (alpha st); rewrite Hal end. unfold slope.
  match goal with |- fold_left _ _ ?e = _ => replace e with (Fin (- X i)) by (change (f0 EA) with (Fin 0); rewrite fins_nth by lia; reflexivity) end.
  assert (Hedges : forall e, In e (edges h) -> snd e = Fin 1).
  { intros e Hin. apply (Permutation_in _ He) in Hin. apply in_map_iff in Hin as (p & <- & _). reflexivity. }
  etransitivity; [refine (fold_fin lm Ht c X _ Hrho (row h i) (- X i) _)|].
  - intros [j w] Hin. split; [rewrite <- Hn; exact (row_below h Hwf i j w Hin)|]. apply (row_in_edges h Hwf Hd) in Hin; [|rewrite Hn; lia]. exact (Hedges _ Hin).
  - f_equal. unfold drift. f_equal. f_equal.
    rewrite (row_total h Hwf Hd (fun j => tanh (cm_alpha c * X j)) i) by (rewrite Hn; lia).
    rewrite (tot_perm _ _ _ He), tot_map. reflexivity.
Qed.
End Dynamics.

(** ** Whole iterations and runs *)
Section Run.
Context (lm : Libm EA) (q : PQ EA).
Hypothesis Hp : lpow EA lm = epow.
Hypothesis Hl : llog EA lm = elog.
Hypothesis Ht : forall x : R, ltanh EA lm (Fin x) = Fin (tanh x).
Hypothesis Hq : pq_bag q.
Hypothesis Ho : pq_ordered (a:=EA) (fun x : ext => exists r, x = Fin r) q.
Variable c : contact_model.
Hypothesis Hc : admissible c.
Variable fr : R.
Hypothesis Hfr : 1 + 1 / 2 * fr * cm_dt c <> 0.
Lemma after_contacts_described im X V h es : ad_ready (a:=EA) (im_ad im) -> described_inertial im c fr X V -> agents h = agents (ad_net (im_ad im)) -> wf h -> dir h = Incoming ->
  Permutation (edges h) (map (unit_edge (a:=EA)) es) ->
  exists im', after_contacts (a:=EA) lm im h = Ok im' /\ ad_ready (a:=EA) (im_ad im') /\
    described_inertial im' c fr (next_positions c fr es X V) (next_velocities c fr es X V).
Proof using Ht Hc Hfr.
  intros Hr (N & NB & Hw & Hrc & HK & Hal & Hdt & Hper & Hbo & Hfric & Hag) Ea Wf Dr Pe.
  destruct (after_contacts_ok (a:=EA) lm im h Hr Hw Ea Wf Dr) as (im' & E & R' & S' & F' & L' & xs' & Lx & P1 & P2).
  exists im'. split; [exact E|]. split; [exact R'|].
  set (md := im_ad im) in *. set (st := ad_set md) in *.
  assert (Nn : n_agents h = cm_n c) by (rewrite <- N; unfold n_agents; now rewrite Ea).
  assert (Hrel : forall i, (i < cm_n c)%nat -> cm_reluctance c i <> 0 /\ exists x, nth_error (agents h) i = Some x /\ i_reluctance x = Fin (cm_reluctance c i)).
  { intros i Hi. split; [apply (proj2 Hc i Hi)|]. rewrite Ea, (Hag i Hi). eauto. }
  pose proof (inertial_field_fin lm Ht c st h es Nn HK Hal Hrel Wf Dr Pe) as HF.
  assert (Exs : map i_opinion (agents (ad_net md)) = fins c X).
  { apply list_ext. intros i. unfold fins. rewrite nth_error_map, nth_error_map_seq. destruct (Nat.ltb_spec i (cm_n c)) as [Hi|Hi].
    - rewrite (Hag i Hi). reflexivity.
    - rewrite (proj2 (nth_error_None (agents (ad_net md)) i)); auto. unfold n_agents in N. lia. }
  assert (Epos : xs' = fins c (moved c fr es X V)).
  { apply list_ext. intros i. destruct (Nat.lt_ge_cases i (cm_n c)) as [Hi|Hi].
    - etransitivity; [exact (P1 i _ (Hag i Hi))|]. unfold fins. rewrite nth_error_map_seq, (proj2 (Nat.ltb_lt i (cm_n c)) Hi).
      match goal with |- Some ?u = Some ?v => enough (EE : @eq ext u v) by (exact (f_equal (@Some ext) EE)) end.
      match goal with |- context[field lm ?o st h ?l] => replace (field lm o st h l) with (fins c (drift c es X)) by (symmetry; etransitivity; [exact (f_equal (field (a:=EA) lm (inertial_ops ext) st h) Exs)|apply HF]) end.
      change (f0 EA) with (Fin 0). rewrite fins_nth by exact Hi. rewrite Hdt, Hfric. unfold verlet_position, moved. cbn -[drift]. apply (f_equal Fin). unfold Rminus. ring.
    - transitivity (@None ext); [|symmetry]; apply nth_error_None.
      2:{ rewrite fins_length. exact Hi. }
      + refine (Nat.le_trans _ _ _ (Nat.eq_le_incl _ _ (eq_trans Lx (map_length i_opinion (agents (ad_net md))))) _). unfold n_agents in N. rewrite N. exact Hi. }
  unfold described_inertial. rewrite S', F'. fold md st.
  split; [unfold n_agents; rewrite L'; exact N|]. repeat (split; [assumption|]).
  intros i Hi. etransitivity; [exact (P2 i _ (Hag i Hi))|]. cbn [i_activity i_reluctance i_velocity]. f_equal.
  match goal with |- mkInertial ?p _ _ ?w = mkInertial ?p' _ _ ?w' => assert (G1 : p = p'); [|assert (G2 : w = w'); [|now rewrite G1, G2]] end.
  - change (f0 EA) with (Fin 0). unfold next_positions. rewrite <- NB. fold st. destruct (Nat.ltb_spec i (n_bots st)) as [Hb|Hb].
    + apply Hbo. now rewrite <- NB.
    + etransitivity; [exact (f_equal (fun l => nth i l (Fin 0)) Epos)|]. cbv beta. rewrite fins_nth by exact Hi. reflexivity.
  - match goal with |- verlet_velocity _ _ _ ?d1 ?d2 = _ => assert (G3 : d1 = Fin (drift c es X i)); [|assert (G4 : d2 = Fin (drift c es (moved c fr es X V) i)); [|rewrite G3, G4]] end.
    + etransitivity; [exact (f_equal (fun l => nth i (field (a:=EA) lm (inertial_ops ext) st h l) (Fin 0)) Exs)|]. cbv beta. rewrite HF, fins_nth by exact Hi. reflexivity.
    + etransitivity; [exact (f_equal (fun l => nth i (field (a:=EA) lm (inertial_ops ext) st h l) (Fin 0)) Epos)|]. cbv beta. rewrite HF, fins_nth by exact Hi. reflexivity.
    + rewrite Hdt, Hfric. unfold verlet_velocity, next_velocities. cbn -[drift]. destruct (Req_EM_T _ 0) as [C|_]; [contradiction|]. f_equal.
Qed.

Theorem inertial_run_law k f : forall im X V, ad_ready (a:=EA) (im_ad im) -> described_inertial im c fr X V -> forall M, (k * iteration_variates c <= M)%nat ->
  expects M (fun us => of_motion f (inertial_run (a:=EA) lm tape_rng q k im us)) (inertial_mean c fr k f X V).
Proof using All.
  induction k as [|k IH]; intros im X V Hr HD M HM; cbn [inertial_run inertial_mean].
  - apply (expects_ext _ _ (fun _ => f (map X (seq 0 (cm_n c))) (map V (seq 0 (cm_n c))))); [|apply expects_const]. intros us _ _. cbn [of_motion].
    destruct HD as (N & _ & _ & _ & _ & _ & _ & _ & _ & _ & Hag).
    f_equal; apply list_ext; intros i; rewrite nth_error_map_seq, !nth_error_map; destruct (Nat.ltb_spec i (cm_n c)) as [Hi|Hi];
      try (rewrite (Hag i Hi); reflexivity); (rewrite (proj2 (nth_error_None (agents (ad_net (im_ad im))) i)); auto; unfold n_agents in N; lia).
  - pose proof HD as (N & NB & Hw & Hrc & HK & Hal & Hdt & Hper & Hbo & Hfric & Hag). pose proof Hr as (R1 & R2 & R3 & R4 & R5 & R6).
    set (md := im_ad im) in *.
    set (Kn := fun (h : network (inertial_agent ext) ext) us => of_motion f (bind (after_contacts (a:=EA) lm im h) (fun m => inertial_run (a:=EA) lm tape_rng q k m us))).
    apply (expects_ext _ _ (fun us => continue Kn (update_network_probabilistic (a:=EA) lm tape_rng q (inertial_ops ext) (ad_set md) (ad_net md) us))).
    { intros us _ _. rewrite inertial_splits by exact Hw. unfold Kn.
      match goal with |- context[continue _ ?t] => match goal with |- context[bind (bind ?t' _) _] => change t' with t; destruct t as [[h s]| | |] end end; cbn [bind continue fst snd]; try reflexivity.
      destruct (after_contacts (a:=EA) lm im h) as [m| | |]; reflexivity. }
    unfold over_contacts.
    assert (G := network_then lm q (inertial_agent ext) (inertial_ops ext) (ad_set md) (ad_net md) X (cm_homophily c) (cm_activity c) (cm_reciprocity c)
      Hp Hl Hq Ho R3 R1 R2).
    rewrite (map_ext_in _ (fun i => row_law (cm_activity c i) (closeness X (cm_homophily c) i) (contact_count (a:=EA) (ad_set md) i) (n_agents (ad_net md))) (seq 0 (cm_n c))).
    2:{ intros i Hi. apply in_seq in Hi. rewrite (proj1 (Hper i ltac:(lia))), N. reflexivity. }
    rewrite <- N.
    apply (fun H1 H2 H3 H4 => G H1 H2 H3 H4 Kn (fun E => inertial_mean c fr k f (next_positions c fr E X V) (next_velocities c fr E X V)) (k * iteration_variates c)%nat); auto.
    + intros i Hi. assert (Hi' : (i < cm_n c)%nat) by (rewrite <- N; exact Hi). destruct (proj2 Hc i Hi') as (_ & _ & G1).
      rewrite <- N, <- (proj1 (Hper i Hi')) in G1. exact G1.
    + intros i x Ex. assert (Hi : (i < cm_n c)%nat). { rewrite <- N. apply nth_error_Some. intros C. assert (C' := eq_trans (eq_sym C) Ex). discriminate. }
      assert (Ex' := eq_trans (eq_sym (Hag i Hi)) Ex). injection Ex' as <-. cbn. split; auto. split; auto. split; [apply (proj2 Hc i Hi)|apply (Hper i Hi)].
    + apply Hc.
    + intros h es E1 E2 E3 E4 M' HM'. unfold Kn.
      destruct (after_contacts_described im X V h es Hr HD E1 E2 E3 E4) as (m & Em & Rm & Dm). rewrite Em. cbn [bind]. now apply IH.
    + match goal with |- (?n * _ + _ <= _)%nat => replace n with (cm_n c) by (symmetry; exact N) end. cbn [Nat.mul] in HM. unfold iteration_variates in *. lia.
Qed.
End Run.
