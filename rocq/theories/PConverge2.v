(** The encounters of a Deffuant run form an infinite history. *)
From Verif Require Import Base BaseFacts Arith64 MRandom SRandom PRandom MNetwork SNetwork PNetwork2 MAgents MDeGroot SDeGroot MDeffuant SDeffuant SConverge PDeffuant.

Section H.
Context {a : Arith} (g : Rng a).
Hypothesis Hs : sample_ok g.
Hypothesis Hi : int_ok g.
Notation sagent := (simple_agent (F a)).
Variables (thr c : F a) (use : bool) (net : network sagent (F a)) (s : rst g).
Hypothesis Hn : 0 < n_agents net.
Hypothesis Hc : can_select use net.

Definition estep (st : network sagent (F a) * rst g) : network sagent (F a) * rst g :=
  match encounter g (update_rule_simple g thr c) use (fst st) (snd st) with Ok st' => st' | _ => st end.
Definition trace (t : nat) : network sagent (F a) * rst g := Nat.iter t estep (net, s).

Lemma trace_net t : exists l, fst (trace t) = with_agents net l /\ length l = n_agents net.
Proof using Hs Hi Hn Hc.
  induction t as [|t (l & E & HL)]; [exists (agents net); split; [unfold trace; cbn; now destruct net|reflexivity]|].
  change (trace (S t)) with (estep (trace t)). unfold estep.
  assert (Hn' : n_agents (with_agents net l) = n_agents net) by exact HL.
  destruct (encounter_ok g Hs Hi thr c use (with_agents net l) (snd (trace t))) as (i & j & l' & s' & _ & _ & E2 & HL' & _).
  - now rewrite Hn'.
  - now apply can_select_ext.
  - rewrite E, E2. exists l'. split; [reflexivity|]. cbn in HL'. congruence.
Qed.

Lemma trace_step t : exists i j, encounter g (update_rule_simple g thr c) use (fst (trace t)) (snd (trace t)) = Ok (trace (S t)) /\
  select_interacting_agent_pair g use net (snd (trace t)) = Ok ([i; j], snd (trace (S t))) /\ valid_pair use net (i, j) /\
  meets thr c i j (opinions (fst (trace t))) (opinions (fst (trace (S t)))).
Proof using Hs Hi Hn Hc.
  change (trace (S t)) with (estep (trace t)). unfold estep. destruct (trace_net t) as (l & E & HL). rewrite E.
  assert (Hn' : n_agents (with_agents net l) = n_agents net) by exact HL.
  destruct (encounter_ok g Hs Hi thr c use (with_agents net l) (snd (trace t))) as (i & j & l' & s' & E1 & V & E2 & HL' & M).
  - now rewrite Hn'.
  - now apply can_select_ext.
  - rewrite E2. exists i, j. split; auto. cbn [fst snd]. rewrite select_ext in E1 by auto. split; auto. split; [now apply valid_ext in V|]. exact M.
Qed.

Lemma trace_for k : forall t i0, for_from i0 k (fun _ st => let '(network, s) := st in encounter g (update_rule_simple g thr c) use network s) (trace t)
  = Ok (trace (t + k)).
Proof using Hs Hi Hn Hc.
  induction k as [|k IH]; intros t i0; cbn [for_from]; [now rewrite Nat.add_0_r|].
  destruct (trace_step t) as (i & j & E & _). destruct (trace t) as [nt sg] eqn:Et. cbn [fst snd] in E. rewrite E. cbn [bind].
  rewrite IH. f_equal. f_equal. lia.
Qed.

Lemma trace_run k : forall t m, df_net m = fst (trace t) -> homophily_threshold m = thr -> mu m = c -> use_network m = use ->
  exists m', simple_run g k m (snd (trace t)) = Ok (m', snd (trace (t + k * n_agents net))) /\ df_net m' = fst (trace (t + k * n_agents net)).
Proof using Hs Hi Hn Hc.
  induction k as [|k IH]; intros t m E1 E2 E3 E4; cbn [simple_run].
  - exists m. rewrite Nat.add_0_r. auto.
  - unfold simple_iteration, deffuant_iteration. rewrite E1, E2, E3, E4.
    destruct (trace_net t) as (l & En & HL).
    assert (EN : n_agents (fst (trace t)) = n_agents net) by (rewrite En; exact HL). rewrite EN.
    replace (fst (trace t), snd (trace t)) with (trace t) by (now destruct (trace t)).
    unfold for_n. rewrite trace_for. destruct (trace (t + n_agents net)) as [nt sg] eqn:Et. cbn [bind].
    destruct (IH (t + n_agents net) (mkDeffuant (base_iteration (df_base m)) thr c use nt)) as (m' & R1 & R2); cbn; auto.
    { now rewrite Et. }
    rewrite Et in R1. cbn [snd] in R1. exists m'. rewrite R1, R2.
    replace (t + (n_agents net + k * n_agents net)) with (t + n_agents net + k * n_agents net) by lia. auto.
Qed.
End H.

Theorem history_exists {a : Arith} (g : Rng a) (m : deffuant (simple_agent (F a))) s :
  sample_ok g -> int_ok g -> can_select (use_network m) (df_net m) -> 0 < n_agents (df_net m) ->
  exists X ps, history g m s X ps.
Proof.
  intros Hs Hi Hc Hn.
  set (tr := trace g (homophily_threshold m) (mu m) (use_network m) (df_net m) s).
  set (sel := fun t => select_interacting_agent_pair g (use_network m) (df_net m) (snd (tr t))).
  exists (fun t => opinions (fst (tr t))), (fun t => match sel t with Ok ([i; j], _) => (i, j) | _ => (0, 0) end).
  assert (ST : forall t, exists i j, sel t = Ok ([i; j], snd (tr (S t))) /\
      meets (homophily_threshold m) (mu m) i j (opinions (fst (tr t))) (opinions (fst (tr (S t))))).
  { intros t. destruct (trace_step g Hs Hi (homophily_threshold m) (mu m) (use_network m) (df_net m) s Hn Hc t) as (i & j & _ & E & _ & M). exists i, j. auto. }
  split; [reflexivity|]. split; [|split].
  - exists (fun t => snd (tr t)). split; [reflexivity|]. intros t. destruct (ST t) as (i & j & E & _). rewrite E. exact E.
  - intros t. destruct (ST t) as (i & j & E & M). rewrite E. exact M.
  - intros k. destruct (trace_run g Hs Hi (homophily_threshold m) (mu m) (use_network m) (df_net m) s Hn Hc k 0 m) as (m' & E & En); auto.
    exists m', (snd (tr (k * n_agents (df_net m)))). split; [exact E|]. rewrite En. reflexivity.
Qed.

(** A history is determined by the model and the generator. *)
Lemma history_valid {a : Arith} (g : Rng a) (m : deffuant (simple_agent (F a))) s X ps :
  sample_ok g -> int_ok g -> can_select (use_network m) (df_net m) -> 0 < n_agents (df_net m) ->
  history g m s X ps -> forall t, fst (ps t) < n_agents (df_net m) /\ snd (ps t) < n_agents (df_net m) /\ length (X t) = n_agents (df_net m).
Proof.
  intros Hs Hi Hc Hn (H0 & (st & _ & Hst) & Hm & _) t.
  destruct (select_ok g Hs Hi (use_network m) (df_net m) (st t) Hn Hc) as (i & j & s' & E & V1 & V2 & _).
  specialize (Hst t). rewrite E in Hst. injection Hst as E1 E2 _. rewrite <- E1, <- E2. split; [exact V1|]. split; [exact V2|].
  clear - H0 Hm. induction t as [|t IH]; [rewrite H0; unfold opinions; now rewrite map_length|]. rewrite (proj1 (Hm t)). exact IH.
Qed.
