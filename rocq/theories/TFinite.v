(** Property theorem C86: the activity-driven model in double precision stays finite. *)
From Coq Require Import Reals Lra Psatz.
From Flocq Require Import Core.Core IEEE754.BinarySingleNaN.
From Verif Require Import Base BaseFacts Arith64 RFacts MRandom SRandom PRandom WRandom MDist MNetwork SNetwork MAgents MDeGroot MActivity SActivity PActStep PActNet PActIter PActMean PActIter2 PActThm TActivity
  PFloat SRounding SFinite PRounding PFinite PFinite2 PFinite3 PFinite4.
Local Open Scope R_scope.
Notation double_model := (ad_model (a:=FA) (activity_agent double)).

Section C86.
Context (lm : Libm FA) (g : Rng FA) (q : PQ FA).
Hypothesis Hq : pq_bag q.
Hypothesis Ht : tanh_bounded lm.

(** One iteration, for any network that the update of the network produces with weights of moderate size. *)
Theorem C86_iteration (md : double_model) s d W M : ad_ready md -> moderate_state md W M -> row_limits d W ->
  (forall h cpl s', update_network lm g q (activity_ops double) (ad_set md) (ad_net md) (contact_prob_list md) s = Ok (h, cpl, s') -> weight_rows h d W) ->
  exists md' s', activity_iteration lm g q md s = Ok (md', s') /\ ad_ready md' /\ moderate_state md' W M /\ ad_set md' = ad_set md.
Proof using Hq Ht.
  intros Hr Hs Hl Hu. destruct (iteration_bounded lm g q Hq Ht md s d W M Hr Hs Hl Hu) as (md' & s' & E & R' & S' & ES & _). exists md', s'. auto.
Qed.

(** Without the mean-field approximation, nothing about the networks need be assumed. *)
Lemma probabilistic_rows (md : double_model) s h cpl s' : ad_ready md -> mean_weights (ad_set md) = false ->
  update_network lm g q (activity_ops double) (ad_set md) (ad_net md) (contact_prob_list md) s = Ok (h, cpl, s') ->
  weight_rows h (n_agents (ad_net md)) (INR (n_agents (ad_net md))).
Proof using Hq.
  intros (R1 & R2 & R3 & _) Em E. unfold update_network in E. rewrite Em in E. cbn [negb] in E.
  destruct (C42_contact_graph FA lm g q _ (activity_ops double) (ad_set md) (ad_net md) s Hq R3 R1 R2) as (h' & t & cs & s1 & R & E1 & _ & _ & _ & EA & ED & EW & _).
  rewrite E1 in E. cbn [bind] in E. inversion E; subst h' cpl s'.
  destruct (C42_simple_graph FA lm g q _ (activity_ops double) (ad_set md) (ad_net md) h s t Hq R3 R1 R2 E1) as (N1 & N2).
  assert (EN : n_agents h = n_agents (ad_net md)) by (unfold n_agents; f_equal; exact EA). rewrite <- EN. exact (contact_rows h EW ED N1 N2).
Qed.

(** A run of any length: all opinions are finite numbers, never NaN or infinite, and at most M in size. *)
Theorem C86_run k : forall (md : double_model) s M, ad_ready md -> mean_weights (ad_set md) = false -> INR (n_agents (ad_net md)) <= 2 ^ 40 ->
  moderate_state md (INR (n_agents (ad_net md))) M ->
  exists md' s', activity_run lm g q k md s = Ok (md', s') /\ Forall (fun x => small_finite M (a_opinion x)) (agents (ad_net md')).
Proof using Hq Ht.
  induction k as [|k IH]; intros md s M Hr Em Hn Hs.
  - exists md, s. split; [reflexivity|]. apply Hs.
  - assert (Hl : row_limits (n_agents (ad_net md)) (INR (n_agents (ad_net md)))).
    { split; [exact Hn|]. split; [apply pos_INR|]. eapply Rle_trans; [exact Hn|]. apply Rle_pow; [lra|lia]. }
    destruct (iteration_bounded lm g q Hq Ht md s _ _ M Hr Hs Hl) as (md1 & s1 & E & R1 & S1 & ES & EN).
    { intros h cpl s' U. apply (probabilistic_rows md s h cpl s' Hr Em U). }
    assert (Em1 : mean_weights (ad_set md1) = false) by (rewrite ES; exact Em).
    assert (Hn1 : INR (n_agents (ad_net md1)) <= 2 ^ 40) by (rewrite EN; exact Hn).
    assert (S2 : moderate_state md1 (INR (n_agents (ad_net md1))) M) by (rewrite EN; exact S1).
    destruct (IH md1 s1 M R1 Em1 Hn1 S2) as (md' & s' & E2 & P). exists md', s'. split; [|exact P]. cbn [activity_run]. rewrite E. exact E2.
Qed.

(** With the mean-field approximation, or in general: as long as the weights stay of moderate size. *)
Theorem C86_run_weights k : forall (md : double_model) s d W M, ad_ready md -> row_limits d W -> moderate_state md W M ->
  (forall j mdj sj h cpl s', (j < k)%nat -> activity_run lm g q j md s = Ok (mdj, sj) ->
     update_network lm g q (activity_ops double) (ad_set mdj) (ad_net mdj) (contact_prob_list mdj) sj = Ok (h, cpl, s') -> weight_rows h d W) ->
  exists md' s', activity_run lm g q k md s = Ok (md', s') /\ Forall (fun x => small_finite M (a_opinion x)) (agents (ad_net md')).
Proof using Hq Ht.
  induction k as [|k IH]; intros md s d W M Hr Hl Hs Hu.
  - exists md, s. split; [reflexivity|]. apply Hs.
  - destruct (iteration_bounded lm g q Hq Ht md s d W M Hr Hs Hl) as (md1 & s1 & E & R1 & S1 & ES & EN).
    { intros h cpl s' U. apply (Hu 0%nat md s h cpl s'); [lia|reflexivity|exact U]. }
    destruct (IH md1 s1 d W M R1 Hl S1) as (md' & s' & E2 & P).
    { intros j mdj sj h cpl s' Hj Ej U. apply (Hu (S j) mdj sj h cpl s'); [lia| |exact U]. cbn [activity_run]. rewrite E. exact Ej. }
    exists md', s'. split; [|exact P]. cbn [activity_run]. rewrite E. exact E2.
Qed.
End C86.

(** ** Instances and refutations *)
(** A tanh that meets the contract: the identity cut off at -1 and 1. *)
Definition cut (x : double) : double :=
  if flt FA x (fopp FA (f1 FA)) then fopp FA (f1 FA) else if flt FA (f1 FA) x then f1 FA else x.
Definition cut_libm : Libm FA := mkLibm FA (fun _ _ => f1 FA) (fun x => x) cut (fun x => x) (fun x => x) (fun x => x) (fun x => x).
Lemma one_value : value (f1 FA : double) = 1 /\ is_finite (f1 FA : double) = true.
Proof. destruct (b64_exact 1 ltac:(lia)) as (V & F1 & _). split; assumption. Qed.
Lemma cut_bounded : tanh_bounded cut_libm.
Proof.
  intros x Hx. change (ltanh FA cut_libm x) with (cut x). unfold cut. destruct one_value as (V1 & F1). destruct (fopp_exact (f1 FA)) as (Vo & Fo). rewrite V1 in Vo. rewrite F1 in Fo.
  assert (S1 : small_finite 1 (f1 FA)) by (split; [exact F1|]; rewrite V1, Rabs_R1; lra).
  assert (So : small_finite 1 (fopp FA (f1 FA))) by (split; [exact Fo|]; rewrite Vo, Rabs_Ropp, Rabs_R1; lra).
  destruct (flt FA x (fopp FA (f1 FA))) eqn:A1; [exact So|]. destruct (flt FA (f1 FA) x) eqn:A2; [exact S1|].
  destruct (is_finite x) eqn:Fx.
  - split; [exact Fx|]. cbn [flt FA] in A1, A2. rewrite (Bltb_correct _ _ _ _ Fx Fo) in A1. rewrite (Bltb_correct _ _ _ _ F1 Fx) in A2. rewrite Vo in A1. rewrite V1 in A2.
    destruct (Rlt_bool_spec (value x) (- (1))) as [|B1]; [discriminate|]. destruct (Rlt_bool_spec 1 (value x)) as [|B2]; [discriminate|]. apply Rabs_le. lra.
  - destruct x as [s|s| |s m e]; try discriminate. destruct s; vm_compute in A1, A2; discriminate.
Qed.

(** Two agents with opinions 5 and -3 who always contact each other; K = 2, alpha = 3, dt = 1/4. *)
Definition lively_settings (h : double) (mw : bool) (mc : Z) : ad_settings double :=
  mkADS None h mc (b64_of_Z 1) (b64_of_Z 2) (b64_of_Z 3) (b64_of_Z 0) (b64_of_Z 0) (b64_of_Z 2) false mw
        0 [] [] [] [] false (b64_of_Z 1) (b64_of_Z 1) (b64_of_Z 1) (b64_of_Z 0).
Definition quarter : double := fdiv FA (f1 FA) (b64_of_Z 4).
Definition lively : double_model :=
  mkAD (a:=FA) (A:=activity_agent double) (mkBase None 0) (lively_settings quarter false 1)
    (mkNet [mkActivity (b64_of_Z 5) (b64_of_Z 1) (b64_of_Z 1); mkActivity (fopp FA (b64_of_Z 3)) (b64_of_Z 1) (b64_of_Z 1)] [[]; []] [[]; []] Incoming) [[]; []].
Lemma quarter_value : value quarter = 1 / 4.
Proof.
  rewrite <- SF2R_B2SF. replace (B2SF quarter) with (SpecFloat.S754_finite false 4503599627370496 (-54)) by (vm_compute; reflexivity).
  unfold SF2R, F2R. cbn. lra.
Qed.
Lemma lively_ready : ad_ready lively.
Proof.
  split.
  { split; [reflexivity|]. split; [reflexivity|]. split.
    - intros [|[|i]] Hi; [reflexivity|reflexivity|cbn in Hi; lia].
    - intros [|[|[|i]]] j Hj; destruct Hj. }
  split; [reflexivity|]. split.
  { split; [cbn; lia|]. split; [cbn; lia|]. split; [cbn; lia|]. split; [cbn; lia|]. intros i Hi. cbn in Hi. lia. }
  split; [cbn; lia|]. split; [cbn; lia|]. intros H. discriminate.
Qed.
Lemma lively_moderate : moderate_state lively (INR 2) 16.
Proof.
  destruct (b64_exact 1 ltac:(lia)) as (V1 & F1 & _). destruct (b64_exact 2 ltac:(lia)) as (V2 & F2 & _). destruct (b64_exact 3 ltac:(lia)) as (V3 & F3 & _). destruct (b64_exact 5 ltac:(lia)) as (V5 & F5 & _).
  assert (P20 : 4 <= 2 ^ 20) by (apply Rle_trans with (2 ^ 2); [cbn [pow]; lra|apply Rle_pow; [lra|lia]]). assert (P100 : 16 <= 2 ^ 100) by (apply Rle_trans with (2 ^ 4); [cbn [pow]; lra|apply Rle_pow; [lra|lia]]).
  assert (P900 : 16 <= 2 ^ 900) by (apply Rle_trans with (2 ^ 4); [cbn [pow]; lra|apply Rle_pow; [lra|lia]]).
  assert (I : forall x, 1 <= x -> / x <= 1) by (intros x Hx; rewrite <- Rinv_1; apply Rinv_le_contravar; lra).
  split.
  { split; [exact F3|]. split; [split; [exact F2|]; match goal with |- Rabs ?t <= _ => change t with (value (b64_of_Z 2)) end; rewrite V2, Rabs_right; lra|].
    split; [reflexivity|]. change (value (dt (ad_set lively))) with (value quarter). rewrite quarter_value. split; [|lra].
    apply Rle_trans with (/ 4); [|lra]. apply Rinv_le_contravar; lra. }
  assert (A : forall o, moderate_agent (mkActivity o (b64_of_Z 1) (b64_of_Z 1)) /\ pull_limit (ad_set lively) (INR 2) 16 (mkActivity o (b64_of_Z 1) (b64_of_Z 1))).
  { intros o. split.
    - split; [exact F1|]. cbn [a_reluctance]. rewrite V1. split; [apply I; lra|lra].
    - unfold pull_limit. cbn [a_reluctance]. change (value (K (ad_set lively))) with (value (b64_of_Z 2)). rewrite V1, V2, Rabs_right by lra. cbn [INR]. lra. }
  split; [constructor; [apply A|constructor; [apply A|constructor]]|]. split; [|split; [constructor|split; [apply Rle_trans with 1; [apply I; lra|lra]|exact P900]]].
  destruct (fopp_exact (b64_of_Z 3)) as (Vo & Fo).
  constructor; [split; [exact F5|]|constructor; [split; [exact (eq_trans Fo F3)|]|constructor]]; match goal with |- Rabs ?t <= _ => idtac end.
  - match goal with |- Rabs ?t <= _ => change t with (value (b64_of_Z 5)) end. rewrite V5, Rabs_right; lra.
  - match goal with |- Rabs ?t <= _ => change t with (value (fopp FA (b64_of_Z 3) : double)) end. rewrite Vo, V3, Rabs_Ropp, Rabs_right; lra.
Qed.
Example C86_instance k : exists md' s', activity_run cut_libm (const_rng (a:=FA) (b64_of_Z 0) (b64_of_Z 0)) (list_pq FA) k lively tt = Ok (md', s') /\
  Forall (fun x => small_finite 16 (a_opinion x)) (agents (ad_net md')).
Proof.
  apply (C86_run cut_libm (const_rng (a:=FA) (b64_of_Z 0) (b64_of_Z 0)) (list_pq FA) (list_pq_bag FA) cut_bounded k lively tt 16 lively_ready eq_refl).
  - change (INR (n_agents (ad_net lively))) with (INR 2). cbn [INR]. apply Rle_trans with (2 ^ 2); [cbn [pow]; lra|apply Rle_pow; [lra|lia]].
  - exact lively_moderate.
Qed.

(** One agent that hears nobody. *)
Definition lone (h : double) (mw : bool) : double_model :=
  mkAD (a:=FA) (A:=activity_agent double) (mkBase None 0) (lively_settings h mw 1)
    (mkNet [mkActivity (f1 FA) (b64_of_Z 0) (b64_of_Z 1)] [[0%nat]] [[b64_of_Z 0]] Incoming) [[b64_of_Z 0]].
Lemma lone_ready h mw : ad_ready (lone h mw).
Proof.
  split.
  { split; [reflexivity|]. split; [reflexivity|]. split.
    - intros [|i] Hi; [reflexivity|cbn in Hi; lia].
    - intros [|[|i]] j Hj; cbn in Hj |- *; [lia|destruct Hj|destruct Hj]. }
  split; [reflexivity|]. split.
  { split; [cbn; lia|]. split; [cbn; lia|]. split; [cbn; lia|]. split; [cbn; lia|]. intros i Hi. cbn in Hi. lia. }
  split; [cbn; lia|]. split; [cbn; lia|]. intros _. split; [split; reflexivity|reflexivity].
Qed.
Definition all_bad {S : Type} (r : res (double_model * S)) : bool :=
  match r with Ok (md, _) => forallb (fun x => negb (is_finite (a_opinion x : double))) (agents (ad_net md)) && (0 <? length (agents (ad_net md)))%nat | _ => false end.
Lemma all_bad_not {S : Type} (r : res (double_model * S)) : all_bad r = true ->
  exists md s, r = Ok (md, s) /\ ~ Forall (fun x => finite_double (a_opinion x)) (agents (ad_net md)).
Proof.
  destruct r as [[md s]| | |]; try discriminate. cbn [all_bad]. intros H. exists md, s. split; [reflexivity|]. apply andb_prop in H as (H1 & H2).
  destruct (agents (ad_net md)) as [|x l]; [discriminate|]. cbn [forallb] in H1. apply andb_prop in H1 as (H1 & _). intros HF. inversion HF as [|? ? Hx _]; subst. unfold finite_double in Hx. rewrite Hx in H1. discriminate.
Qed.

(** "Opinions stay finite for every positive time step" fails: one silent agent, dt = 10, 200 iterations. *)
Theorem C86_every_time_step_refuted :
  ~ (forall (lm : Libm FA) (g : Rng FA) (q : PQ FA) k (md md' : double_model) s s', pq_bag q -> tanh_bounded lm -> ad_ready md -> mean_weights (ad_set md) = false ->
       finite_double (dt (ad_set md)) -> 0 < value (dt (ad_set md)) -> Forall (fun x => finite_double (a_opinion x)) (agents (ad_net md)) ->
       activity_run lm g q k md s = Ok (md', s') -> Forall (fun x => finite_double (a_opinion x)) (agents (ad_net md'))).
Proof.
  intros Claim. assert (B : all_bad (activity_run cut_libm (const_rng (a:=FA) (b64_of_Z 0) (b64_of_Z 0)) (list_pq FA) 200 (lone (b64_of_Z 10) false) tt) = true) by (vm_compute; reflexivity).
  destruct (all_bad_not _ B) as (md' & s' & E & N). apply N. destruct (b64_exact 10 ltac:(lia)) as (V & F1 & _).
  apply (Claim cut_libm (const_rng (a:=FA) (b64_of_Z 0) (b64_of_Z 0)) (list_pq FA) 200%nat (lone (b64_of_Z 10) false) md' tt s' (list_pq_bag FA) cut_bounded (lone_ready _ _) eq_refl F1); [|repeat constructor|exact E].
  change (value (dt (ad_set (lone (b64_of_Z 10) false)))) with (value (b64_of_Z 10)). rewrite V. lra.
Qed.

(** "... and with the mean-field approximation" fails: the only agent of a population of one divides 0 by 0. *)
Theorem C86_mean_field_refuted :
  ~ (forall (lm : Libm FA) (g : Rng FA) (q : PQ FA) (md md' : double_model) s s' M, pq_bag q -> tanh_bounded lm -> ad_ready md -> mean_weights (ad_set md) = true ->
       moderate_state md (INR (n_agents (ad_net md))) M ->
       activity_iteration lm g q md s = Ok (md', s') -> Forall (fun x => finite_double (a_opinion x)) (agents (ad_net md'))).
Proof.
  intros Claim. assert (B : all_bad (activity_iteration cut_libm (const_rng (a:=FA) (b64_of_Z 0) (b64_of_Z 0)) (list_pq FA) (lone quarter true) tt) = true) by (vm_compute; reflexivity).
  destruct (all_bad_not _ B) as (md' & s' & E & N). apply N.
  apply (Claim cut_libm (const_rng (a:=FA) (b64_of_Z 0) (b64_of_Z 0)) (list_pq FA) (lone quarter true) md' tt s' 16 (list_pq_bag FA) cut_bounded (lone_ready _ _) eq_refl); [|exact E]. clear.
  destruct lively_moderate as ((A1 & A2 & A3 & A4) & _ & _ & _ & A5). destruct (b64_exact 1 ltac:(lia)) as (V1 & F1 & _). destruct (b64_exact 2 ltac:(lia)) as (V2 & F2 & _).
  assert (P100 : 16 <= 2 ^ 100) by (apply Rle_trans with (2 ^ 4); [cbn [pow]; lra|apply Rle_pow; [lra|lia]]).
  split; [split; [exact A1|split; [exact A2|split; [exact A3|exact A4]]]|]. split; [|split; [|split; [constructor|exact A5]]].
  - constructor; [|constructor]. split; [split; [exact F1|]|].
    + cbn [a_reluctance]. rewrite V1. split; [rewrite <- Rinv_1; apply Rinv_le_contravar; lra|lra].
    + unfold pull_limit. cbn [a_reluctance]. change (value (K (ad_set (lone quarter true)))) with (value (b64_of_Z 2)). change (n_agents (ad_net (lone quarter true))) with 1%nat. rewrite V1, V2, Rabs_right by lra. cbn [INR]. lra.
  - constructor; [|constructor]. split; [exact F1|]. match goal with |- Rabs ?t <= _ => change t with (value (b64_of_Z 1)) end. rewrite V1, Rabs_R1. lra.
Qed.
Print Assumptions C86_iteration.
Print Assumptions C86_run.
Print Assumptions C86_run_weights.
Print Assumptions C86_every_time_step_refuted.
Print Assumptions C86_mean_field_refuted.
