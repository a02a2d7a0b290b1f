(** Property theorems C110: the law of a run of the inertial model with probabilistic contacts, and C107 for such runs. *)
From Verif Require Import Base BaseFacts Arith64 MNetwork SNetwork MAgents MDeGroot MRandom SRandom PRandom RFacts PReservoir WRandom MActivity SActivity PActNet
  SProb SProb2 PProb PProb9 TRandom TProb3 SEquiv TEquiv SRenum SRelabel SNetNumber PNetNumber PRelabel TNetNumber SNetRun PNetRun TNetRun SInertiaRun PInertiaRun.
From Coq Require Import Permutation Reals Lra FunctionalExtensionality.
Local Open Scope R_scope.

(** C110. The positions and velocities form a Markov chain whose transition is: draw the contacts of everybody (C72) given the positions,
    then one damped velocity Verlet step with them. After [k] iterations every function [f] of the positions and velocities has the mean
    that this chain gives it. *)
Theorem C110_run_law (lm : Libm EA) (q : PQ EA) (im : inertial_model (a:=EA)) (c : contact_model) (g : R) (X V : nat -> R) (k : nat) (f : list R -> list R -> R) :
  lpow EA lm = epow -> llog EA lm = elog -> (forall x : R, ltanh EA lm (Fin x) = Fin (tanh x)) ->
  pq_bag q -> pq_ordered (a:=EA) (fun x : ext => exists r, x = Fin r) q ->
  ad_ready (a:=EA) (im_ad im) -> admissible c -> 1 + 1 / 2 * g * cm_dt c <> 0 -> described_inertial im c g X V ->
  expectation (fun us => of_motion f (inertial_run (a:=EA) lm tape_rng q k im us)) (inertial_mean c g k f X V).
Proof.
  intros Hp Hl Ht Hq Ho Hr Hc Hg HD. exists (k * iteration_variates c)%nat. intros M HM.
  exact (inertial_run_law lm q Hp Hl Ht Hq Ho c Hc g Hg k f im X V Hr HD M HM).
Qed.

Section Numbering.
Variables (sg tau : nat -> nat) (c : contact_model) (g : R).
Hypothesis Hsg : renumbering (cm_n c) sg.
Hypothesis Htau : forall i, tau (sg i) = i.
Hypothesis Hsgt : forall i, sg (tau i) = i.
Hypothesis Hbots : forall i, (tau i < cm_bots c)%nat <-> (i < cm_bots c)%nat.
Notation c' := (renumbered_model tau c).
Lemma moved_renamed E X V : moved c' g E (fun j => X (tau j)) (fun j => V (tau j)) = (fun i => moved c g (map (renamed tau) E) X V (tau i)).
Proof using Hsgt.
  apply functional_extensionality. intros i. unfold moved. cbn [cm_dt renumbered_model]. now rewrite (drift_renamed sg tau c Hsgt).
Qed.
Lemma positions_renamed E X V : next_positions c' g E (fun j => X (tau j)) (fun j => V (tau j)) = (fun i => next_positions c g (map (renamed tau) E) X V (tau i)).
Proof using Hsgt Hbots.
  apply functional_extensionality. intros i. unfold next_positions. rewrite moved_renamed. cbn [cm_bots cm_bot_opinion renumbered_model].
  specialize (Hbots i). destruct (Nat.ltb_spec (tau i) (cm_bots c)), (Nat.ltb_spec i (cm_bots c)); auto; exfalso; lia.
Qed.
Lemma velocities_renamed E X V : next_velocities c' g E (fun j => X (tau j)) (fun j => V (tau j)) = (fun i => next_velocities c g (map (renamed tau) E) X V (tau i)).
Proof using Hsgt.
  apply functional_extensionality. intros i. unfold next_velocities. rewrite moved_renamed. cbn [cm_dt renumbered_model]. now rewrite !(drift_renamed sg tau c Hsgt).
Qed.
Lemma drift_perm E E' X : Permutation E E' -> drift c E X = drift c E' X.
Proof using. intros P. apply functional_extensionality. intros i. unfold drift. now rewrite (tot_perm _ _ _ P). Qed.
Lemma inertial_mean_renamed f k : forall X V, inertial_mean c' g k (fun l v => f (old_order 0 sg l) (old_order 0 sg v)) (fun i => X (tau i)) (fun i => V (tau i)) = inertial_mean c g k f X V.
Proof using Hsg Htau Hsgt Hbots.
  induction k as [|k IH]; intros X V; cbn [inertial_mean].
  - assert (G : forall Y, old_order 0 sg (map (fun i => Y (tau i)) (seq 0 (cm_n c'))) = map Y (seq 0 (cm_n c))).
    { intros Y. cbn [cm_n renumbered_model]. unfold old_order. rewrite map_length, seq_length. apply map_ext_in. intros i Hi. apply in_seq in Hi.
      rewrite nth_map_seq by (apply Hsg; lia). now rewrite Htau. }
    now rewrite !G.
  - rewrite <- (over_contacts_renamed sg tau c Hsg Htau X (fun E => inertial_mean c g k f (next_positions c g E X V) (next_velocities c g E X V))).
    + f_equal. apply functional_extensionality. intros E. rewrite positions_renamed, velocities_renamed. apply IH.
    + intros e e' P. assert (M : moved c g e X V = moved c g e' X V) by (unfold moved; now rewrite (drift_perm e e' X P)).
      unfold next_positions, next_velocities. now rewrite M, (drift_perm e e' X P), (drift_perm e e' (moved c g e' X V) P).
Qed.
End Numbering.

(** C107 for runs of the inertial model: two models that differ only by the numbering of the agents give the same mean to every function of the
    positions and velocities after any number of iterations, those of the second model being read in the old order. *)
Theorem C107_inertial_run_law (lm : Libm EA) (q : PQ EA) (im im' : inertial_model (a:=EA)) (c : contact_model) (g : R) (X V : nat -> R) (sg tau : nat -> nat)
  (k : nat) (f : list R -> list R -> R) :
  lpow EA lm = epow -> llog EA lm = elog -> (forall x : R, ltanh EA lm (Fin x) = Fin (tanh x)) ->
  pq_bag q -> pq_ordered (a:=EA) (fun x : ext => exists r, x = Fin r) q ->
  ad_ready (a:=EA) (im_ad im) -> ad_ready (a:=EA) (im_ad im') -> admissible c -> 1 + 1 / 2 * g * cm_dt c <> 0 ->
  renumbering (cm_n c) sg -> (forall i, tau (sg i) = i) -> (forall i, sg (tau i) = i) -> (forall i, (tau i < cm_bots c)%nat <-> (i < cm_bots c)%nat) ->
  described_inertial im c g X V -> described_inertial im' (renumbered_model tau c) g (fun i => X (tau i)) (fun i => V (tau i)) ->
  exists v,
    expectation (fun us => of_motion f (inertial_run (a:=EA) lm tape_rng q k im us)) v /\
    expectation (fun us => of_motion (fun l u => f (old_order 0 sg l) (old_order 0 sg u)) (inertial_run (a:=EA) lm tape_rng q k im' us)) v.
Proof.
  intros Hp Hl Ht Hq Ho Hr Hr' Hc Hg Hsg Htau Hsgt Hb HD HD'. exists (inertial_mean c g k f X V). split; [now apply C110_run_law|].
  rewrite <- (inertial_mean_renamed sg tau c g Hsg Htau Hsgt Hb f k X V). apply C110_run_law; auto.
  destruct Hc as [H1 H2]. split; [exact H1|]. cbn [cm_n cm_activity cm_reluctance cm_contacts renumbered_model]. intros i Hi. apply H2.
  assert (Hin : In i (map sg (seq 0 (cm_n c)))) by (eapply Permutation_in; [apply Permutation_sym, (renumbering_perm _ sg Hsg)|apply in_seq; lia]).
  apply in_map_iff in Hin as (j & <- & Hj). apply in_seq in Hj. rewrite Htau. lia.
Qed.

(** The populations of C108_instance with velocities 1, -1, 1/2, 0 and friction 1. *)
Definition c110_velocity (i : nat) : R := match i with 0%nat => 1 | 1%nat => -1 | 2%nat => 1/2 | _ => 0 end.
Definition c110_agent (first : bool) (i : nat) : inertial_agent ext :=
  let j := if first then i else exchange i in
  mkInertial (Fin (c108_start j)) (Fin (cm_activity c108_params j)) (Fin 1) (Fin (c110_velocity j)).
Definition c110_net (first : bool) : network (inertial_agent ext) ext :=
  mkNet [c110_agent first 0; c110_agent first 1; c110_agent first 2; c110_agent first 3] [[]; []; []; []] [[]; []; []; []] Incoming.
Definition c110_model (first : bool) : inertial_model (a:=EA) :=
  mkIM (a:=EA) (mkAD (a:=EA) (base_ctor (Some 5%Z)) (c108_settings first) (c110_net first) []) (Fin 1).
Lemma c110_ready b : ad_ready (a:=EA) (im_ad (c110_model b)).
Proof.
  split; [|split; [reflexivity|]].
  - destruct b; (split; [reflexivity|]); (split; [reflexivity|]); split; cbn; intros [|[|[|[|i]]]] Hi; cbn; try lia; auto; try tauto; destruct i; cbn in *; tauto.
  - split.
    + unfold settings_fit, n_agents. destruct b; cbn [m n_bots bot_m bot_homophily c108_settings c110_model im_ad ad_set ad_net agents c110_net length]; (split; [lia|]); (split; [lia|]);
        (split; [lia|]); (split; [lia|]); intros [|[|i]] Hi; cbn; lia.
    + split; [destruct b; cbn; lia|]. split; [destruct b; cbn; lia|]. discriminate.
Qed.
Lemma c110_described : described_inertial (c110_model true) c108_params 1 c108_start c110_velocity.
Proof.
  repeat (split; [reflexivity|]). split; [|split; [|split; [reflexivity|]]].
  - intros [|[|[|[|i]]]] Hi; cbn in *; try lia; split; reflexivity.
  - intros [|[|i]] Hi; cbn in *; try lia; reflexivity.
  - intros [|[|[|[|i]]]] Hi; cbn in *; try lia; reflexivity.
Qed.
Lemma c110_described' : described_inertial (c110_model false) (renumbered_model exchange c108_params) 1 (fun i => c108_start (exchange i)) (fun i => c110_velocity (exchange i)).
Proof.
  repeat (split; [reflexivity|]). split; [|split; [|split; [reflexivity|]]].
  - intros [|[|[|[|i]]]] Hi; cbn in *; try lia; split; reflexivity.
  - intros [|[|i]] Hi; cbn in *; try lia; reflexivity.
  - intros [|[|[|[|i]]]] Hi; cbn in *; try lia; reflexivity.
Qed.
Lemma c110_nonzero : 1 + 1 / 2 * 1 * cm_dt c108_params <> 0.
Proof. cbn. lra. Qed.
Example C110_instance k f : expectation (fun us => of_motion f (inertial_run (a:=EA) tanh_libm tape_rng (list_pq EA) k (c110_model true) us)) (inertial_mean c108_params 1 k f c108_start c110_velocity).
Proof.
  apply C110_run_law; auto; [apply list_pq_bag|apply list_pq_ordered|apply c110_ready|apply c108_admissible|apply c110_nonzero|apply c110_described].
Qed.
Example C107_inertial_instance k f : exists v,
  expectation (fun us => of_motion f (inertial_run (a:=EA) tanh_libm tape_rng (list_pq EA) k (c110_model true) us)) v /\
  expectation (fun us => of_motion (fun l u => f (old_order 0 exchange l) (old_order 0 exchange u)) (inertial_run (a:=EA) tanh_libm tape_rng (list_pq EA) k (c110_model false) us)) v.
Proof.
  apply (C107_inertial_run_law tanh_libm (list_pq EA) (c110_model true) (c110_model false) c108_params 1 c108_start c110_velocity exchange exchange k f); auto;
    [apply list_pq_bag|apply list_pq_ordered|apply c110_ready|apply c110_ready|apply c108_admissible|apply c110_nonzero|apply exchange_renumbering|apply exchange_twice|apply exchange_twice| |apply c110_described|apply c110_described'].
  intros [|[|[|[|i]]]]; cbn; lia.
Qed.

Print Assumptions C110_run_law.
Print Assumptions C107_inertial_run_law.
